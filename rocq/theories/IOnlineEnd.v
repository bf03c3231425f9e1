(** * A batch of streams: the final frame, the lattices and the new streams *)
From Coq Require Import ZArith List Lia Bool QArith Permutation Lqa.
From Coq Require Import ZifyBool ZifyNat.
From Verif Require Import Base RaggedModel RaggedSpec RaggedProofs FsaSpec FsaLemmas RaggedOpsModel OpsModel RaggedOpsProofs ConnectProofs ScoreSpec ScorePaths ShortestSpec IDenseModel IDenseSpec IPrunedModel IPrunedNest IPrunedCut IPrunedMerge IPrunedFwd IPrunedCol IPrunedInv IPrunedPrune IPrunedAlive IPrunedRun IPrunedSpec IPrunedOut IPrunedOne IPrunedAll IDevModel IOnlineModel IOnlineSpec IOnlineCol IOnlinePr IOnlineFin IOnlineBatch IOnlineStart.
From Verif Require IDenseOut EpsLoopProofs IPrunedPath.
Import ListNotations.
Open Scope Z_scope.

Lemma seg_read {X} (L : list (list X)) st row : rd L st = Some row -> rd (splits_of L) st = Some (off1 L st) /\ rd (splits_of L) (st + 1) = Some (off1 L st + zlen row) /\
  mapM (fun i => rd (concat L) (off1 L st + i)) (zrange (off1 L st + zlen row - off1 L st)) = Some row.
Proof.
  intros H. destruct (RmDevRagged.splits_nth L st row H) as (A & B). split; [exact A|]. split; [exact B|]. replace (off1 L st + zlen row - off1 L st) with (zlen row) by lia.
  rewrite (mapM_zr _ (fun _ x => x)); [f_equal; rewrite imap_map; apply map_id|]. intros i x Hx. apply (rd_concat_off _ _ _ _ _ H Hx).
Qed.

(** padding in front of a lattice *)
Definition shift_b (z : Z) (o : arc * (Z * Z)) : arc * (Z * Z) := (fst o, (fst (snd o), snd (snd o) + z)).
Lemma imap_shift {X Y} (F : Z -> X -> Y) l : forall o, imap F o l = imap (fun i x => F (o + i) x) 0 l.
Proof.
  intros o. apply list_ext_rd; [now rewrite !zlen_imap|]. intros i Hi. rewrite !rd_imap. destruct (rd l i); reflexivity.
Qed.
Lemma imap_app2 {X Y} (F : Z -> X -> Y) a b : forall o, imap F o (a ++ b) = imap F o a ++ imap F (o + zlen a) b.
Proof.
  induction a as [|x a IH]; intros o; cbn [app imap]; [rewrite zlen_nil, Z.add_0_r; reflexivity|]. f_equal. rewrite IH. f_equal. f_equal. rewrite zlen_cons. lia.
Qed.
Lemma off1_pad {X} d (H : list (list X)) t : 0 <= t -> off1 (repeat [] d ++ H) (Z.of_nat d + t) = off1 H t.
Proof.
  intros Ht. unfold off1. rewrite Z2Nat.inj_add, Nat2Z.id by lia. induction d as [|d IH]; cbn; [reflexivity|exact IH].
Qed.
Lemma orow_pad f AB TT r0 cols d H ext : orow f AB (Z.of_nat d + TT) r0 cols (repeat [] d ++ H) ext = map (map (shift_b ((r0 + Z.of_nat d) * cols))) (orow f AB TT 0 cols H ext).
Proof.
  unfold orow. rewrite map_app, map_rep. f_equal. rewrite imap_app2, concat_app.
  assert (E0 : forall (F : Z -> list nst -> list (list (arc * (Z * Z)))) o, (forall t, F t [] = []) -> concat (imap F o (repeat [] d)) = []). { intros F o HF. revert o. induction d as [|d' IH]; intros o; cbn; [reflexivity|]. now rewrite HF, IH. }
  rewrite E0 by reflexivity. cbn [app]. assert (ZR : zlen (repeat (@nil nst) d) = Z.of_nat d) by (unfold zlen; now rewrite repeat_length). rewrite ZR, concat_map. f_equal.
  apply list_ext_rd; [rewrite zlen_map, !zlen_imap; reflexivity|]. intros t Ht. rewrite zlen_imap in Ht. rewrite rd_map, !rd_imap. destruct (rd H t) as [col|]; [|reflexivity]. cbn [option_map]. f_equal.
  apply list_ext_rd; [rewrite zlen_map, !zlen_imap; reflexivity|]. intros j Hj. rewrite rd_map, !rd_imap. destruct (rd col j) as [x|]; [|reflexivity]. cbn [option_map]. f_equal. rewrite map_map. apply map_ext. intros y.
  unfold oarc, shift_b, part. cbn [fst snd]. rewrite !Z.add_0_l. rewrite <- (Z.add_assoc (Z.of_nat d) t 1), !off1_pad by lia. replace (Z.of_nat d + t =? Z.of_nat d + TT - 1) with (t =? TT - 1) by lia. f_equal. f_equal. lia.
Qed.

(** the final frame *)
Definition tr (l : list ainfo) : list ainfo := map (fun a => setd a 0) (filter (fun a => is_finite (i_ll a)) l).
Definition trim (E : nframe) : nframe := map (map (fun x => (fst x, tr (snd x)))) E.
Definition busy (p : list nst) : bool := existsb (fun x => negb (zlen (snd x) =? 0)) p.
Lemma busy_zlen p : (0 <? zlen (concat (map snd p))) = busy p.
Proof.
  unfold busy. induction p as [|x p IH]; cbn [map concat existsb]; [reflexivity|]. rewrite zlen_app, <- IH. pose proof (zlen_nonneg (snd x)). pose proof (zlen_nonneg (concat (map snd p))). destruct (Z.eqb_spec (zlen (snd x)) 0); cbn [negb orb]; [f_equal; lia|lia].
Qed.
Lemma nil_rows {X} (L : list (list X)) : (forall l, In l L -> l = []) -> concat L = [] /\ splits_of L = map (fun _ => 0) (zrange (zlen L + 1)).
Proof.
  intros HL. assert (C : forall M : list (list X), (forall l, In l M -> l = []) -> concat M = []). { induction M as [|l M IH]; intros HM; cbn; [reflexivity|]. rewrite (HM l) by now left. apply IH. intros; apply HM; now right. }
  split; [now apply C|]. pose proof (zlen_nonneg L). apply list_ext_rd; [rewrite zlen_splits_of, zlen_map, zlen_zrange by lia; reflexivity|]. intros i Hi. rewrite zlen_splits_of in Hi. rewrite rd_splits_off, rd_map, rd_zrange by lia. cbn. f_equal. unfold off1. rewrite C; [reflexivity|]. intros l Hl. apply HL. rewrite <- (firstn_skipn (Z.to_nat i) L). apply in_or_app. now left.
Qed.

Lemma final_frame_ok c t fr0 g E FinN : get_arcs c t fr0 = Some g -> isA g E -> zlen E = c_n c -> zlen FinN = zlen E ->
  (forall k p q, rd (trim E) k = Some p -> rd FinN k = Some q -> map snd q = if busy p then [[]] else []) ->
  exists ff nf, get_final_frame c t fr0 = Some (ff, nf) /\ isA ff (trim E) /\ isF nf FinN.
Proof.
  intros EG [[A1 A2 A3] A4 A5 A6] ZE ZF HF. unfold get_final_frame. rewrite EG, A3, A4, A6.
  assert (ER : rows (trim E) = map tr (rows E)) by (unfold trim, rows; rewrite <- concat_map, !map_map; reflexivity).
  assert (ES : forall k, off1 (trim E) k = off1 E k) by (intros; unfold trim; apply EpsLoopProofs.off1_map2).
  rewrite zlen_map. replace (zlen (concat E)) with (zlen (rows E)) by (unfold rows; now rewrite zlen_map).
  rewrite (mapM_zr _ (fun _ l => tr l) (rows E)).
  2:{ intros i l Hl. destruct (seg_read _ _ _ Hl) as (B1 & B2 & B3). rewrite B1, B2, B3. reflexivity. }
  rewrite imap_map, <- ER. rewrite A1. change (exsum (map zlen (rows (trim E)))) with (splits_of (rows (trim E))).
  assert (EN : mapM (fun k => b <- rd (splits_of E) k;; e <- rd (splits_of E) (k + 1);; x <- rd (splits_of (rows (trim E))) b;; y <- rd (splits_of (rows (trim E))) e;; Some (b2z (x <? y))) (zrange (c_n c)) = Some (map zlen FinN)).
  { rewrite <- ZE, <- ZF. rewrite (mapM_zr _ (fun _ q => zlen q) FinN); [now rewrite imap_map|]. intros k q Hq. pose proof (rd_Some_bound _ _ _ Hq) as Bk. destruct (rd_in_bound (trim E) k) as (p & Hp); [unfold trim; rewrite zlen_map; lia|].
    rewrite !rd_splits_off by lia. rewrite <- !ES. set (L := map (map snd) (trim E)). assert (EL : rows (trim E) = concat L) by (unfold rows, L; now rewrite concat_map). assert (OL : forall j, off1 (trim E) j = off1 L j) by (intros; unfold L; now rewrite EpsLoopProofs.off1_map2). rewrite EL, !OL.
    assert (ZL : zlen L = zlen E) by (unfold L, trim; now rewrite !zlen_map). rewrite !IDenseOut.off1_concat_all by lia. rewrite (off1_next _ k (concat (map snd p))) by (unfold L; rewrite !rd_map, Hp; reflexivity).
    specialize (HF _ _ _ Hp Hq). f_equal. replace (off1 (map (@concat ainfo) L) k <? off1 (map (@concat ainfo) L) k + zlen (concat (map snd p))) with (0 <? zlen (concat (map snd p))) by lia. rewrite busy_zlen. rewrite <- (zlen_map snd q), HF. destruct (busy p); reflexivity. }
  rewrite EN. eexists _, _. split; [reflexivity|]. split; [split; [split|..]|split]; cbn [f_rs1 f_ids1 f_states f_rs2 f_ids2 f_arcs].
  - unfold splits_of. f_equal. unfold trim. rewrite map_map. apply map_ext. intros. now rewrite zlen_map.
  - rewrite A2. apply (IDevCore.same_sizes E (trim E)). unfold trim. rewrite map_map. apply map_ext. intros. now rewrite zlen_map.
  - unfold trim. rewrite <- concat_map, map_map. reflexivity.
  - reflexivity.
  - unfold ids_of. now rewrite ids_imap.
  - reflexivity.
  - reflexivity.
  - assert (HN : forall l, In l (rows FinN) -> l = []). { intros l Hl. unfold rows in Hl. apply in_map_iff in Hl as (x & <- & Hx). apply in_concat in Hx as (q & Hq & Hx). apply In_rd in Hq as (k & Bk & Hq). destruct (rd_in_bound (trim E) k) as (p & Hp); [unfold trim; rewrite zlen_map; lia|]. specialize (HF _ _ _ Hp Hq). apply (in_map snd) in Hx. rewrite HF in Hx. destruct (busy p); cbn in Hx; [|destruct Hx]. destruct Hx as [<-|[]]. reflexivity. }
    destruct (nil_rows _ HN) as (_ & ->). unfold rows. rewrite zlen_map. f_equal. f_equal. f_equal. rewrite <- zsum_zlen_concat. reflexivity.
  - assert (HN : forall l, In l (rows FinN) -> l = []). { intros l Hl. unfold rows in Hl. apply in_map_iff in Hl as (x & <- & Hx). apply in_concat in Hx as (q & Hq & Hx). apply In_rd in Hq as (k & Bk & Hq). destruct (rd_in_bound (trim E) k) as (p & Hp); [unfold trim; rewrite zlen_map; lia|]. specialize (HF _ _ _ Hp Hq). apply (in_map snd) in Hx. rewrite HF in Hx. destruct (busy p); cbn in Hx; [|destruct Hx]. destruct Hx as [<-|[]]. reflexivity. }
    destruct (nil_rows _ HN) as (-> & _). reflexivity.
Qed.

(** what a frame holds for one sequence *)
Lemma seq_column_ok f N k : isA f N -> 0 <= k < zlen N -> seq_column f k = Some (colk k N).
Proof.
  intros [[A1 A2 A3] A4 A5 A6] Hk. unfold seq_column. rewrite A1. pose proof (colk_at k N Hk) as Hq. destruct (RmDevRagged.splits_nth N k (colk k N) Hq) as (-> & ->). replace (off1 N k + zlen (colk k N) - off1 N k) with (zlen (colk k N)) by lia.
  rewrite (mapM_zr _ (fun _ x => x)); [f_equal; rewrite imap_map; apply map_id|]. intros j [s xs] Hx. destruct (state_at _ _ _ _ _ _ Hq Hx) as (_ & _ & B3 & B4). rewrite A3, B3, A4. destruct (seg_read _ _ _ B4) as (C1 & C2 & C3). rewrite C1, C2, A6, C3. reflexivity.
Qed.
Lemma xs_at' n (ok : Z -> list (list (arc * (Z * Z)))) k i : 0 <= k < n -> 0 <= i < zlen (concat (ok k)) ->
  rd (concat (concat (map ok (zrange n)))) (arcs_before (map (fun k => map (map fst) (ok k)) (zrange n)) k + i) = rd (concat (ok k)) i.
Proof.
  intros Hk Hi. destruct (rd_in_bound _ _ Hi) as (x & Hx). rewrite Hx. rewrite concat2, map_map.
  assert (E : arcs_before (map (fun k => map (map fst) (ok k)) (zrange n)) k = off1 (map (fun k => concat (ok k)) (zrange n)) k). { unfold arcs_before, off1. rewrite firstn_map, map_map, firstn_map. unfold all_arcs. rewrite <- (zlen_concat_mm fst), map_map. f_equal. f_equal. apply map_ext. intros. now rewrite concat_map. }
  rewrite E. apply (rd_concat_off _ _ (concat (ok k))); [|exact Hx]. now rewrite rd_map, rd_zrange by lia.
Qed.
Lemma colk_imap {X Y} (F : Z -> list X -> list Y) N k : 0 <= k < zlen N -> colk k (imap F 0 N) = F k (colk k N).
Proof. intros Hk. unfold colk. rewrite rd_imap. destruct (rd_in_bound N k Hk) as (q & ->). cbn. f_equal. Qed.

Section End_.
Context (f : nfsa) (cols stride sb ob mina maxa : Z) (partial : bool).
Hypothesis Vf : valid f.
Hypothesis Lf : forall a, In a (all_arcs f) -> lab a < cols - 1.
Hypothesis Hcs : cols <= stride.
Hypothesis Hsb : 0 < sb.
Hypothesis Hob : 0 < ob.
Hypothesis Hmm : 0 <= mina < maxa.
Notation cf := (cf f cols stride sb ob mina maxa partial).
Notation sinv := (sinv f cols stride sb ob mina maxa partial).
Notation binv := (binv f cols stride sb ob mina maxa partial).
Notation stok := (stok f cols stride sb ob mina maxa partial).
Context (seqs : list frames) (real : Z -> frames) (chunk T0 : Z).
Notation n := (zlen seqs).
Notation c := (cf true seqs).
Notation whole k := (real k ++ rw seqs k).
Hypothesis Hch : 0 <= chunk.
Hypothesis Hlen : forall k, 0 <= k < n -> zlen (rw seqs k) = chunk + 1.
Hypothesis Hreal : forall k, 0 <= k < n -> zlen (real k) <= T0.
Hypothesis HD : forall k, 0 <= k < n -> dense_rows (whole k).
Hypothesis HW : forall k, 0 <= k < n -> wide stride (whole k).
Hypothesis HK : forall k, 0 <= k < n -> keeps_going f (whole k).
Hypothesis Hn : 0 < n.
Notation pad k := (Z.to_nat (T0 - zlen (real k))).
Notation upto := (upto seqs real).
Notation zlen_upto := (zlen_upto f stride seqs real chunk T0 Hch Hlen Hreal HD HW HK).
Notation okst_of := (okst_of f cols stride sb ob mina maxa partial seqs real chunk T0 Hch Hlen Hreal HD HW HK).
Context (fs : list fr) (Ns : list nframe) (beams : list Q) (h : hmap).
Hypothesis BI : binv seqs real chunk T0 (fun k => zlen (real k) + chunk) chunk fs Ns beams h.

Lemma last_row k : 0 <= k < n -> exists row, rd (rw seqs k) chunk = Some row /\ whole k = upto k chunk ++ [row].
Proof.
  intros Hk. pose proof (Hlen k Hk) as E. destruct (rd_in_bound (rw seqs k) chunk) as (row & Hr); [lia|]. exists row. split; [exact Hr|]. rewrite <- (upto_S seqs real k chunk row Hch Hr). unfold IOnlineBatch.upto. f_equal. rewrite <- E. unfold zlen. rewrite Nat2Z.id. now rewrite firstn_all.
Qed.

Context (cur : fr) (N : nframe).
Hypothesis Hcur : rd fs (zlen fs - 1) = Some cur.
Hypothesis HN : rd Ns (zlen Ns - 1) = Some N.
Notation E := (expand [f] seqs c chunk N).
Notation FN := (trim E).
Definition fst_of (k : Z) : sinfo :=
  mkS (zlen f - 1) (kmax (map i_end (concat (map (garcs [f] [whole k] (cf false [whole k]) 0 (zlen (upto k chunk)) (pm [f] [whole k] (cf false [whole k]) 0 (zlen (upto k chunk)) (map fst (colk k N)))) (map fst (colk k N)))))) None.
Definition FinN : nframe := imap (fun k p => if busy p then [(fst_of k, [])] else []) 0 FN.

Lemma zN : zlen N = n /\ isS cur N.
Proof.
  destruct BI as [B1 B2 B3 B4 B5 B6 B7 B8]. split; [apply B5; eauto using rd_In|]. rewrite B2 in Hcur. rewrite B3 in HN. destruct (B4 _ _ _ Hcur HN) as (X & _). exact X.
Qed.
Lemma zFN : zlen FN = n /\ zlen FinN = n.
Proof. destruct zN as (Z1 & _). unfold FinN, trim. rewrite zlen_imap, !zlen_map. unfold expand. rewrite zlen_imap. auto. Qed.

Lemma colN k : 0 <= k < n -> exists H beam row, map (colk k) Ns = repeat [] (pad k) ++ H /\ rd beams k = Some beam /\ sinv (upto k chunk) H (zlen (upto k chunk)) beam /\ (forall x, In x (colk k N) -> snd x = []) /\
  rd H (zlen (upto k chunk)) = Some (colk k N) /\ zlen H = zlen (upto k chunk) + 1 /\ rd (rw seqs k) chunk = Some row /\ whole k = upto k chunk ++ [row].
Proof.
  intros Hk. destruct BI as [B1 B2 B3 B4 B5 B6 B7 B8]. destruct (rd_in_bound beams k) as (beam & Hb); [lia|]. destruct (B8 _ _ Hb) as (H & EH & SI & HB). destruct (last_row k Hk) as (row & R1 & R2). pose proof (zlen_upto k chunk Hk ltac:(lia)) as ZU. pose proof (si_len _ _ _ _ _ _ _ _ _ _ _ _ SI) as ZH. pose proof (Hreal k Hk) as HR. pose proof (zlen_nonneg (upto k chunk)).
  assert (EL : rd H (zlen (upto k chunk)) = Some (colk k N)). { assert (X : rd (map (colk k) Ns) (zlen Ns - 1) = Some (colk k N)) by (rewrite rd_map, HN; reflexivity). rewrite EH in X. replace (zlen Ns - 1) with (Z.of_nat (pad k) + zlen (upto k chunk)) in X by lia. now rewrite rd_pad in X by lia. }
  exists H, beam, row. do 2 (split; [assumption|]). split; [rewrite ZU; exact SI|]. split; [|auto]. intros x Hx. eapply (HB (colk k N)); [|exact Hx]. rewrite ZH. replace (zlen (upto k chunk) + 1 - 1) with (zlen (upto k chunk)) by lia. exact EL.
Qed.

Lemma colFN k : 0 <= k < n -> colk k FN = map (fun x => (fst x, fina f cols stride sb ob mina maxa partial [whole k] 0 (zlen (upto k chunk)) (map fst (colk k N)) (fst x))) (colk k N).
Proof.
  intros Hk. destruct zN as (Z1 & _). destruct (last_row k Hk) as (row & R1 & R2). pose proof (Hlen k Hk) as HL.
  assert (X : colk k FN = map (fun x => (fst x, tr (snd x))) (colk k E)). { unfold trim. unfold colk at 1. rewrite rd_map. unfold colk at 1. destruct (rd E k); reflexivity. }
  rewrite X. unfold expand. rewrite colk_imap by lia. rewrite map_map. cbn [fst snd]. apply map_ext. intros x. f_equal.
  change (fina f cols stride sb ob mina maxa partial seqs k chunk (map fst (colk k N)) (fst x) = fina f cols stride sb ob mina maxa partial [whole k] 0 (zlen (upto k chunk)) (map fst (colk k N)) (fst x)).
  assert (ZW : zlen (whole k) - 1 = zlen (upto k chunk)) by (rewrite R2, zlen_app, zlen_cons, zlen_nil; lia). pose proof (zlen_nonneg (upto k chunk)). rewrite <- ZW. apply fina_lift; [lia|lia|]. rewrite R1. rewrite ZW. rewrite R2. rewrite rd_app_r by lia. rewrite Z.sub_diag. apply rd_cons_0.
Qed.
Lemma busyFN k : 0 <= k < n -> busy (colk k FN) = existsb (fun x => negb (zlen (fina f cols stride sb ob mina maxa partial [whole k] 0 (zlen (upto k chunk)) (map fst (colk k N)) (fst x)) =? 0)) (colk k N).
Proof. intros Hk. rewrite colFN by exact Hk. unfold busy. generalize (colk k N) at 2 4. intros l. induction l as [|x l IH]; cbn; [reflexivity|]. now rewrite IH. Qed.

Lemma get_final_ok : exists ff nf, get_final_frame c chunk cur = Some (ff, nf) /\ isA ff FN /\ isF nf FinN.
Proof.
  destruct zN as (Z1 & HS). destruct (get_arcs_ok [f] seqs cols stride c (SUb f cols stride sb ob mina maxa partial Vf Lf Hcs seqs real HW) cur N chunk HS Z1 Hch) as (g & G1 & G2).
  { intros k p x Hp Hx. assert (Hk : 0 <= k < n) by (apply rd_Some_bound in Hp; lia). destruct (colN k Hk) as (H & beam & row & C1 & C2 & C3 & C4 & C5 & _). apply (okst_of k chunk H _ beam x Hk ltac:(lia) C3). exists p. split; [|exact Hx]. rewrite C5. unfold colk. now rewrite Hp. }
  apply (final_frame_ok c chunk cur g E FinN G1 G2).
  - unfold expand. rewrite zlen_imap. exact Z1.
  - destruct zFN as (_ & ->). unfold expand. rewrite zlen_imap. now rewrite Z1.
  - intros k p q Hp Hq. unfold FinN in Hq. rewrite rd_imap in Hq. rewrite Hp in Hq. injection Hq as <-. destruct (busy p); reflexivity.
Qed.

Notation Ns1 := (removelast Ns ++ [FN; FinN]).
Lemma colH1 k : 0 <= k < n -> exists H H1 beam row, rd beams k = Some beam /\ whole k = upto k chunk ++ [row] /\ map (colk k) Ns1 = repeat [] (pad k) ++ H1 /\ sinv (upto k chunk) H (zlen (upto k chunk)) beam /\
  rd H (zlen (upto k chunk)) = Some (colk k N) /\ zlen H1 = zlen (upto k chunk) + 2 /\ (forall i, i < zlen (upto k chunk) -> rd H1 i = rd H i) /\ rd H1 (zlen (upto k chunk)) = Some (colk k FN) /\ rd H1 (zlen (upto k chunk) + 1) = Some (colk k FinN) /\
  map (colk k) (removelast Ns ++ [FN]) = repeat [] (pad k) ++ removelast H ++ [colk k FN] /\ H = removelast H ++ [bareC (colk k FN)].
Proof.
  intros Hk. destruct (colN k Hk) as (H & beam & row & C1 & C2 & C3 & C4 & C5 & C6 & C7 & C8). pose proof (zlen_nonneg (upto k chunk)) as Z0. assert (NH : H <> []) by (intros ->; rewrite zlen_nil in C6; lia).
  exists H, (removelast H ++ [colk k FN; colk k FinN]), beam, row. assert (ZR : zlen (removelast H) = zlen (upto k chunk)) by (rewrite zlen_removelast; lia).
  assert (E1 : map (colk k) (removelast Ns) = repeat [] (pad k) ++ removelast H) by (rewrite map_removelast, C1; apply removelast_app'; exact NH).
  split; [exact C2|]. split; [exact C8|]. split; [rewrite map_app, E1, <- app_assoc; reflexivity|]. split; [exact C3|]. split; [exact C5|]. split; [rewrite zlen_app, !zlen_cons, zlen_nil; lia|].
  split; [intros i Hi; rewrite rd_app, ZR; replace (i <? zlen (upto k chunk)) with true by lia; apply rd_removelast; lia|]. split; [rewrite rd_app_r by lia; rewrite ZR, Z.sub_diag; apply rd_cons_0|]. split; [rewrite rd_app_r by lia; rewrite ZR; replace (zlen (upto k chunk) + 1 - zlen (upto k chunk)) with (0 + 1) by lia; rewrite rd_cons_S by lia; apply rd_cons_0|].
  split; [rewrite map_app, E1, <- app_assoc; reflexivity|]. destruct (rd_last H NH) as (x & X1 & X2). rewrite C6 in X1. replace (zlen (upto k chunk) + 1 - 1) with (zlen (upto k chunk)) in X1 by lia. rewrite C5 in X1. injection X1 as <-. rewrite X2 at 1. f_equal. f_equal. rewrite colFN by exact Hk. unfold bareC. rewrite map_map. cbn [fst]. rewrite <- (map_id (colk k N)) at 1. apply map_ext_in. intros x Hx. destruct x as [s l]. specialize (C4 _ Hx). cbn in C4. cbn. congruence.
Qed.
Lemma Nx_ok k : 0 <= k < n -> colk k FinN = if existsb (fun x => negb (zlen (fina f cols stride sb ob mina maxa partial [whole k] 0 (zlen (upto k chunk)) (map fst (colk k N)) (fst x)) =? 0)) (colk k N) then [(fst_of k, [])] else [].
Proof. intros Hk. rewrite <- busyFN by exact Hk. unfold FinN. rewrite colk_imap; [reflexivity|]. destruct zFN. lia. Qed.

Context (ff nf : fr) (AF : isA ff FN) (FF : isF nf FinN).
Notation Fs := ((removelast fs ++ [ff]) ++ [nf]).
Notation FT := (fun _ : Z => T0 + chunk + 1).
Notation ok := (orow_k [f] seqs cols c FT Ns1).
Notation gs := (map (fun k => map (map fst) (ok k)) (zrange n)).
Notation xs := (concat (concat (map ok (zrange n)))).
Notation mapa := (map (fun x : arc * (Z * Z) => fst (snd x)) xs).
Notation mapb := (map (fun x : arc * (Z * Z) => snd (snd x)) xs).

Lemma zNs1 : zlen (removelast Ns) = T0 + chunk /\ zlen (removelast fs) = T0 + chunk /\ zlen Ns1 = T0 + chunk + 2.
Proof.
  destruct BI as [B1 B2 B3 B4 B5 B6 B7 B8]. pose proof (Hreal 0 ltac:(lia)). pose proof (zlen_nonneg (real 0)). rewrite zlen_app, !zlen_removelast, !zlen_cons, zlen_nil by lia. lia.
Qed.
Lemma split2 {X} (l : list X) a b i z : zlen l = T0 + chunk -> rd (l ++ [a; b]) i = Some z -> (i < T0 + chunk /\ rd l i = Some z) \/ (i = T0 + chunk /\ z = a) \/ (i = T0 + chunk + 1 /\ z = b).
Proof.
  intros Zl Hz. pose proof (rd_Some_bound _ _ _ Hz) as BB. rewrite zlen_app, !zlen_cons, zlen_nil in BB. rewrite rd_app, Zl in Hz. destruct (Z.ltb_spec i (T0 + chunk)); [now left|]. right. destruct (Z.eq_dec i (T0 + chunk)) as [->|]; [rewrite Z.sub_diag, rd_cons_0 in Hz; injection Hz as <-; now left|]. right. assert (i = T0 + chunk + 1) as -> by lia. replace (T0 + chunk + 1 - (T0 + chunk)) with (0 + 1) in Hz by lia. rewrite rd_cons_S, rd_cons_0 in Hz by lia. injection Hz as <-. auto.
Qed.
Lemma isA_old i g M : i < T0 + chunk -> rd (removelast fs) i = Some g -> rd (removelast Ns) i = Some M -> isA g M.
Proof.
  intros Hi Hg HM. destruct zNs1 as (Z1 & Z2 & _). destruct BI as [B1 B2 B3 B4 B5 B6 B7 B8]. rewrite rd_removelast in Hg by lia. rewrite rd_removelast in HM by lia. destruct (B4 _ _ _ Hg HM) as (_ & X). auto.
Qed.

Lemma finc k : 0 <= k < n -> fin_col FT Ns1 k = colk k FinN.
Proof. intros Hk. destruct (colH1 k Hk) as (H & H1 & beam & row & D1 & D2 & D3 & D4 & D5 & D6 & D7 & D8 & D9 & _). unfold fin_col. rewrite D3. pose proof (zlen_upto k chunk Hk ltac:(lia)). pose proof (Hreal k Hk). pose proof (zlen_nonneg (upto k chunk)). replace (T0 + chunk + 1) with (Z.of_nat (pad k) + (zlen (upto k chunk) + 1)) by lia. rewrite rd_pad, D9 by lia. reflexivity. Qed.

Lemma out_ok : p_format_output c T0 (T0 + chunk + 1) Fs = Some (splits_of gs, splits_of (concat gs), map (fun a => (src a, dst a, lab a, Some (sc a))) (concat (concat gs)), mapa, mapb).
Proof.
  destruct zNs1 as (Z1 & Z2 & Z3). pose proof (Hreal 0 ltac:(lia)). pose proof (zlen_nonneg (real 0)). rewrite <- app_assoc. cbn [app].
  apply (format_gen [f] seqs cols stride c (SUb f cols stride sb ob mina maxa partial Vf Lf Hcs seqs real HW) (T0 + chunk + 1) T0 FT (removelast fs ++ [ff; nf]) Ns1).
  - intros k Hk. rewrite Hlen by exact Hk. lia.
  - rewrite zlen_app, !zlen_cons, zlen_nil. lia.
  - lia.
  - intros i g M Hg HM. destruct (split2 _ _ _ _ _ Z2 Hg) as [(D & G)|[(D & ->)|(D & ->)]]; destruct (split2 _ _ _ _ _ Z1 HM) as [(D' & G')|[(D' & ->)|(D' & ->)]]; try lia; [apply isA_isF; eauto using isA_old|now apply isA_isF|exact FF].
  - destruct BI as [B1 B2 B3 B4 B5 B6 B7 B8]. intros M HM. apply In_rd in HM as (i & _ & HM). destruct (split2 _ _ _ _ _ Z1 HM) as [(D' & G')|[(D' & ->)|(D' & ->)]]; [|apply zFN..]. rewrite rd_removelast in G' by lia. eauto using rd_In.
  - intros k Hk. rewrite finc, Nx_ok by exact Hk. destruct (existsb _ _); vm_compute; discriminate.
  - intros k t x y Hk Ho Hy Ht. destruct (colH1 k Hk) as (H2 & H1 & beam & row & D1 & D2 & D3 & D4 & D5 & D6 & D7 & D8 & D9 & _). rewrite D3 in Ho. rewrite colFN in D8 by exact Hk. pose proof (Nx_ok k Hk) as NX. pose proof (HD k Hk) as HDk. pose proof (HW k Hk) as HWk. unfold fst_of in NX. rewrite D2 in D8, NX, HDk, HWk.
    destruct (fin_ok f cols stride sb ob mina maxa partial Vf Lf Hcs Hsb Hmm (upto k chunk) row H2 H1 beam (colk k N) (colk k FinN) D4 HDk HWk D5 D6 D7 D8 D9 NX) as (pmf & CI & _). set (R := upto k chunk ++ [row]) in *.
    pose proof (zlen_upto k chunk Hk ltac:(lia)) as ZU. pose proof (Hreal k Hk) as HR. assert (ZR : zlen R = zlen (upto k chunk) + 1) by (unfold R; rewrite zlen_app, zlen_cons, zlen_nil; lia). pose proof (zlen_nonneg (upto k chunk)).
    assert (Hp : Z.of_nat (pad k) <= t). { destruct (Z_lt_le_dec t (Z.of_nat (pad k))) as [D|D]; [|exact D]. destruct Ho as (col & Hc & Hx). rewrite rd_pad_l in Hc by lia. injection Hc as <-. destruct Hx. }
    assert (Ho' : on H1 (t - Z.of_nat (pad k)) x). { destruct Ho as (col & Hc & Hx). exists col. split; [|exact Hx]. replace t with (Z.of_nat (pad k) + (t - Z.of_nat (pad k))) in Hc by lia. now rewrite rd_pad in Hc by lia. }
    set (M1 := map (fun col => [col]) H1). assert (EM : map (colk 0) M1 = H1) by (unfold M1; rewrite map_map; rewrite <- (map_id H1) at 2; apply map_ext; reflexivity).
    destruct HDk as (Q1 & Q2 & Q3).
    destruct (arc_ok [f] [R] cols stride (cf false [R]) (su1 f cols stride sb ob mina maxa partial Vf Lf Hcs false R HWk) (zlen R) [] M1) with (k := 0) (t := t - Z.of_nat (pad k)) (x := x) (y := y) as (A1 & (a & A2 & A3) & A4 & A5); auto; try lia.
    + intros k' Hk'. assert (k' = 0) as -> by (change (zlen [R]) with 1 in Hk'; lia). change (rw [R] 0) with R. split; [lia|]. split; assumption.
    + unfold M1. rewrite zlen_map. lia.
    + intros i g M Hg. rewrite rd_nil in Hg. discriminate.
    + intros k' Hk'. assert (k' = 0) as -> by (change (zlen [R]) with 1 in Hk'; lia). exists pmf. rewrite EM. replace (zlen R + 1) with (zlen (upto k chunk) + 2) by lia. exact CI.
    + change (zlen [R]) with 1. lia.
    + rewrite EM. exact Ho'.
    + rewrite gr_k, AB_k in A1, A2 |- *. split; [exact A1|]. split; [|exact A4]. exists a. split; [exact A2|]. rewrite <- A3. change (rw [R] 0) with R. change (c_partial (cf false [R])) with (c_partial c). f_equal. f_equal. f_equal. lia.
Qed.

Lemma streams_ok k : 0 <= k < n -> exists g bm, rd gs k = Some g /\ is_pruned_intersection f (whole k) sb ob maxa partial (fun t l => t * cols + (l + 1)) g (fun i => at0 mapa (arcs_before gs k + i)) bm.
Proof.
  intros Hk. destruct (colH1 k Hk) as (H2 & H1 & beam & row & D1 & D2 & D3 & D4 & D5 & D6 & D7 & D8 & D9 & _). rewrite colFN in D8 by exact Hk. pose proof (Nx_ok k Hk) as NX. pose proof (HD k Hk) as HDk. pose proof (HW k Hk) as HWk. unfold fst_of in NX.
  pose proof (zlen_upto k chunk Hk ltac:(lia)) as ZU. pose proof (Hreal k Hk) as HR. pose proof (zlen_nonneg (upto k chunk)) as ZU0.
  set (nx := colk k FinN) in *. set (ext := 1 - zlen nx).
  assert (EO : ok k = map (map (shift_b ((off1 seqs k + Z.of_nat (pad k)) * cols))) (orow f 0 (zlen (whole k)) 0 cols H1 ext)).
  { unfold orow_k. rewrite gr_k, AB_k, D3. unfold extra. rewrite finc, gr_k by exact Hk. fold nx. destruct Vf as (_ & Vn & _). unfold nstates in Vn. replace (0 <? zlen f) with true by lia. cbn [b2z]. rewrite Z.mul_1_l. fold ext. rewrite <- orow_pad. f_equal. rewrite D2, zlen_app, zlen_cons, zlen_nil. lia. }
  rewrite D2 in D8, NX, HDk, HWk. set (R := upto k chunk ++ [row]) in *. rewrite D2 in EO |- *. fold R in EO.
  exists (IPrunedPath.pg [f] [R] cols (cf false [R]) 0 H1 0 ext), (IPrunedPath.pbm [f] [R] cols (cf false [R]) 0 H1 0 ext).
  assert (EG : map (map fst) (ok k) = IPrunedPath.pg [f] [R] cols (cf false [R]) 0 H1 0 ext). { rewrite EO, map_map. unfold IPrunedPath.pg. rewrite gr_k, AB_k. change (rw [R] 0) with R. apply map_ext. intros l. rewrite map_map. apply map_ext. reflexivity. }
  split; [rewrite rd_map, rd_zrange by lia; cbn [option_map]; now rewrite EG|].
  apply (stream_ok f cols stride sb ob mina maxa partial Vf Lf Hcs Hsb Hmm (upto k chunk) row H2 H1 beam (colk k N) nx D4 HDk HWk D5 D6 D7 D8 D9 NX). fold R. fold ext. intros i Hi. split; [|reflexivity].
  rewrite <- EG in Hi. unfold all_arcs in Hi. rewrite zlen_concat_mm in Hi. pose proof (xs_at' n ok k i Hk Hi) as X. unfold at0. rewrite rd_map, X. rewrite EO. rewrite <- concat_map, rd_map. unfold IPrunedPath.pam. rewrite gr_k, AB_k. change (rw [R] 0) with R.
  destruct (rd (concat (orow f 0 (zlen R) 0 cols H1 ext)) i) as [o|]; [|reflexivity]. cbn. destruct (Z.eqb_spec (fst (snd o)) (-1)); lia.
Qed.

Lemma store_ok : exists sts', mapM (fun k => cs <- mapM (fun g => seq_column g k) (removelast fs ++ [ff]);; beam <- rd beams k;; Some (mkSt cs beam)) (zrange n) = Some sts' /\ zlen sts' = n /\ forall k st, rd sts' k = Some st -> stok (upto k chunk) st.
Proof.
  destruct zNs1 as (Z1 & Z2 & Z3). exists (map (fun k => mkSt (map (colk k) (removelast Ns ++ [FN])) (match rd beams k with Some b => b | None => 0%Q end)) (zrange n)). split; [|split].
  - apply mapM_Some_map. intros k Hk. apply in_zrange in Hk. assert (E1 : mapM (fun g => seq_column g k) (removelast fs ++ [ff]) = Some (map (colk k) (removelast Ns ++ [FN]))).
    { apply mapM_by_rd; [rewrite zlen_map, !zlen_app, Z1, Z2, !zlen_cons; reflexivity|]. intros i g Hg. pose proof (rd_Some_bound _ _ _ Hg) as Bi. rewrite zlen_app, zlen_cons, zlen_nil in Bi. rewrite rd_map. destruct (Z_lt_le_dec i (T0 + chunk)) as [D|D].
      - rewrite rd_app_l in Hg by lia. rewrite rd_app_l by lia. destruct (rd_in_bound (removelast Ns) i) as (M & HM); [lia|]. rewrite HM. cbn [option_map]. apply seq_column_ok; [eauto using isA_old|]. destruct BI as [B1 B2 B3 B4 B5 B6 B7 B8]. rewrite rd_removelast in HM by lia. rewrite (B5 M) by eauto using rd_In. exact Hk.
      - assert (i = T0 + chunk) as -> by lia. rewrite rd_app_r in Hg by lia. rewrite rd_app_r by lia. rewrite Z2, Z.sub_diag, rd_cons_0 in Hg. injection Hg as <-. rewrite Z1, Z.sub_diag, rd_cons_0. cbn [option_map]. apply seq_column_ok; [exact AF|]. destruct zFN. lia. }
    rewrite E1. destruct (colN k Hk) as (_ & beam & _ & _ & -> & _). reflexivity.
  - rewrite zlen_map, zlen_zrange; [reflexivity|lia].
  - intros k st Hst. pose proof (rd_Some_bound _ _ _ Hst) as Hk. rewrite zlen_map, zlen_zrange in Hk by lia. rewrite rd_map, rd_zrange in Hst by lia. injection Hst as <-. destruct (colH1 k Hk) as (H & H1 & beam & row & D1 & D2 & D3 & D4 & D5 & D6 & D7 & D8 & D9 & D10 & D11).
    exists (pad k), (removelast H), (colk k FN). cbn [st_cols st_beam]. split; [exact D10|]. rewrite D1, <- D11. exact D4.
Qed.
End End_.
