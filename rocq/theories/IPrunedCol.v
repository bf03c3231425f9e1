(** * Pruning, sequence by sequence *)
From Coq Require Import ZArith List Lia Bool QArith Permutation.
From Coq Require Import ZifyBool ZifyNat.
From Verif Require Import Base RaggedModel RaggedSpec RaggedProofs FsaSpec FsaLemmas RaggedOpsModel OpsModel RaggedOpsProofs ConnectProofs IDenseModel IDenseSpec IPrunedModel IPrunedNest IPrunedCut.
Import ListNotations.
Open Scope Z_scope.
Notation ole := IDensePaths.ole.

Section Col.
Context (c : cfg).
Notation darc := (ainfo * option Z)%type.
Notation dcol := (list (sinfo * list darc)).

Definition bwc (nx : list sinfo) (p : list nst) : dcol := map (fun p => (bst c nx p, map (fun x => (x, bl c nx (fst p) x)) (snd p))) p.
Definition nxtc (r : list dcol) (last : list sinfo) : list sinfo := match r with [] => last | q :: _ => map fst q end.
Fixpoint bwc_all (C : list (list nst)) (last : list sinfo) : list dcol :=
  match C with [] => [] | p :: rest => bwc (nxtc (bwc_all rest last) last) p :: bwc_all rest last end.
Fixpoint goodc (C : list (list nst)) (last : list sinfo) : Prop :=
  match C with [] => True | p :: rest => goodc rest last /\ Forall (ok1 c (nxtc (bwc_all rest last) last)) p end.
(** the states after position [i], and how their numbers change *)
Definition nxat (C : list (list nst)) (last : list sinfo) (i : Z) : list sinfo := match rd (bwc_all C last) i with Some q => map fst q | None => last end.
Definition rmat (C : list (list nst)) (last : list sinfo) (i : Z) : Z -> Z := match rd (bwc_all C last) i with Some q => rmap q | None => fun d => d end.
Definition keepc (first : bool) (nx : list sinfo) (rm : Z -> Z) (p : list nst) : list nst :=
  map (fun x => (bst c nx x, map (fun y => setd y (rm (i_dst y))) (filter (fun y => is_finite (bl c nx (fst x) y)) (snd x))))
      (filter (fun x => first || is_finite (s_b (bst c nx x))) p).
Definition prunedc (C : list (list nst)) (last : list sinfo) : list (list nst) :=
  imap (fun i p => keepc (i =? 0) (nxat C last (i + 1)) (rmat C last (i + 1)) p) 0 C.

Definition colk {X} (k : Z) (N : list (list X)) : list X := match rd N k with Some q => q | None => [] end.
Lemma colk_at {X} k (N : list (list X)) : 0 <= k < zlen N -> rd N k = Some (colk k N).
Proof. intros H. unfold colk. now destruct (rd_in_bound N k H) as (q & ->). Qed.

Lemma col_bw_all n k (Hk : 0 <= k < n) last : zlen last = n -> forall Ns, Forall (fun N => zlen N = n) Ns -> map (colk k) (bw_all c Ns last) = bwc_all (map (colk k) Ns) (colk k last).
Proof.
  intros HL. induction Ns as [|N Ns IH]; intros H; [reflexivity|]. inversion H as [|? ? H1 H2]. cbn [bw_all map bwc_all]. rewrite <- (IH H2). f_equal.
  pose proof (zlen_nxt c n Ns last H2 HL) as Zx. assert (E : nxtc (map (colk k) (bw_all c Ns last)) (colk k last) = colk k (nxt (bw_all c Ns last) last)).
  { clear - H2 HL Hk. destruct (bw_all c Ns last) as [|Q r]; cbn; [reflexivity|]. unfold colk at 2. rewrite rd_map. unfold colk. destruct (rd Q k); reflexivity. }
  rewrite E. set (nx := nxt (bw_all c Ns last) last) in *. unfold bw, bwc. unfold colk at 1. rewrite rd_map, rd_combine, (colk_at k N), (colk_at k nx) by lia. reflexivity.
Qed.
Lemma col_good n last : zlen last = n -> forall Ns, Forall (fun N => zlen N = n) Ns -> (forall k, 0 <= k < n -> goodc (map (colk k) Ns) (colk k last)) -> good_all c Ns last.
Proof.
  intros HL. induction Ns as [|N Ns IH]; intros H HG; [exact I|]. inversion H as [|? ? H1 H2]. cbn [good_all]. split; [apply IH; auto; intros k Hk; apply (HG k Hk)|].
  intros k p nx Hp Hnx. assert (Hk : 0 <= k < n) by (apply rd_Some_bound in Hp; lia). destruct (HG k Hk) as (_ & G). clear - G Hp Hnx Hk H2 HL.
  replace nx with (nxtc (bwc_all (map (colk k) Ns) (colk k last)) (colk k last)).
  - unfold colk in G at 4. rewrite Hp in G. exact G.
  - assert (E : map (colk k) (bw_all c Ns last) = bwc_all (map (colk k) Ns) (colk k last)) by (apply (col_bw_all n); auto). rewrite <- E.
    destruct (bw_all c Ns last) as [|Q r]; cbn in *; unfold colk; [now rewrite Hnx|]. rewrite rd_map in Hnx. destruct (rd Q k); [|discriminate]. now injection Hnx as <-.
Qed.
Lemma filter_map' {X Y} (P : Y -> bool) (f : X -> Y) l : filter P (map f l) = map f (filter (fun x => P (f x)) l).
Proof. induction l as [|x l IH]; cbn; [reflexivity|]. rewrite IH. destruct (P (f x)); reflexivity. Qed.

Lemma zlen_bw_at n last Ns : zlen last = n -> Forall (fun N => zlen N = n) Ns -> forall i, zlen (match rd (bw_all c Ns last) i with Some Q => map (map fst) Q | None => last end) = n.
Proof.
  intros HL. induction Ns as [|N Ns IH]; intros H i; [cbn; rewrite rd_nil; exact HL|]. inversion H as [|? ? Hz Hr]. cbn [bw_all]. rewrite rd_cons. destruct (i =? 0) eqn:E0.
  - rewrite zlen_map, zlen_bw; auto. rewrite (zlen_nxt c n); auto.
  - apply IH. auto.
Qed.

Lemma col_pruned n k last Ns : 0 <= k < n -> zlen last = n -> Forall (fun N => zlen N = n) Ns ->
  map (colk k) (pruned c Ns last) = prunedc (map (colk k) Ns) (colk k last).
Proof.
  intros Hk HL HN. pose proof (col_bw_all n k Hk last HL Ns HN) as EB. set (Bs := bw_all c Ns last) in *. assert (LB : zlen Bs = zlen Ns) by apply zlen_bw_all.
  assert (ZB : forall i B, rd Bs i = Some B -> zlen B = n).
  { intros i B Hi. pose proof (zlen_bw_at n last Ns HL HN i) as Z. fold Bs in Z. rewrite Hi, zlen_map in Z. exact Z. }
  assert (LP : zlen (pruned c Ns last) = zlen Ns) by (unfold pruned, mark_all; rewrite zlen_map, zlen_imap; exact LB).
  apply list_ext_rd; [unfold prunedc; rewrite zlen_imap, !zlen_map; exact LP|]. intros i Hi. rewrite zlen_map, LP in Hi. unfold prunedc. rewrite rd_imap, !rd_map, Z.add_0_l.
  destruct (rd_in_bound Ns i Hi) as (N & HNi). rewrite HNi. cbn [option_map]. unfold pruned, mark_all. fold Bs. rewrite rd_map, rd_imap.
  pose proof (rd_bw_all c Ns last i N HNi) as EBi. fold Bs in EBi. set (NX := match rd Bs (i + 1) with Some Q => map (map fst) Q | None => last end) in *. rewrite EBi. cbn [option_map]. f_equal.
  assert (ZN : zlen N = n) by (rewrite Forall_forall in HN; apply HN; eauto using rd_In). assert (ZX : zlen NX = n) by apply (zlen_bw_at n last Ns HL HN).
  assert (EX : nxat (map (colk k) Ns) (colk k last) (i + 1) = colk k NX).
  { unfold nxat. rewrite <- EB, rd_map. unfold NX. destruct (rd Bs (i + 1)) as [Q|]; cbn [option_map]; [|reflexivity]. unfold colk. rewrite rd_map. destruct (rd Q k); reflexivity. }
  assert (ER : exists g, rd (rms Bs i (bw c N NX)) k = Some g /\ forall d, g d = rmat (map (colk k) Ns) (colk k last) (i + 1) d).
  { unfold rms, rmat. rewrite <- EB, rd_map. destruct (rd Bs (i + 1)) as [Q|] eqn:EQ; cbn [option_map].
    - rewrite rd_map, (colk_at k Q) by (rewrite (ZB _ _ EQ); exact Hk). cbn. eauto.
    - rewrite rd_map. rewrite (colk_at k (bw c N NX)) by (rewrite zlen_bw; lia). cbn. eauto. }
  destruct ER as (g & ER & Eg). rewrite EX. unfold colk at 1. unfold keepM. rewrite rd_map. rewrite Z.add_0_l. unfold mark. rewrite rd_map, rd_combine, ER.
  assert (EK : rd (bw c N NX) k = Some (bwc (colk k NX) (colk k N))) by (unfold bw; rewrite rd_map, rd_combine, (colk_at k N), (colk_at k NX) by lia; reflexivity).
  rewrite EK. cbn [option_map fst snd]. unfold bwc, keepc. rewrite map_map, filter_map', map_map. cbn [flg fst snd]. apply map_ext. intros x. cbn. f_equal. rewrite map_map, filter_map', map_map. cbn.
  apply map_ext. intros y. now rewrite Eg.
Qed.
End Col.
