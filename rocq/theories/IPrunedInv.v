(** * The frames of one sequence: what holds after every forward step and every pruning pass *)
From Coq Require Import ZArith List Lia Bool QArith Permutation.
From Coq Require Import ZifyBool ZifyNat.
From Verif Require Import Base RaggedModel RaggedSpec RaggedProofs FsaSpec FsaLemmas RaggedOpsModel OpsModel RaggedOpsProofs ConnectProofs ScoreSpec ScorePaths IDenseModel IDenseSpec IPrunedModel IPrunedNest IPrunedCut IPrunedMerge IPrunedFwd IPrunedCol.
From Verif Require Import IDensePaths.
Import ListNotations.
Open Scope Z_scope.
Notation ole := IDensePaths.ole.

Lemma rd_filter_cnt {X} (P : X -> bool) l : forall d x, rd l d = Some x -> P x = true -> rd (filter P l) (cnt (firstn (Z.to_nat d) (map P l))) = Some x.
Proof.
  induction l as [|y l IH]; intros d x Hd Hx; [now rewrite rd_nil in Hd|]. destruct (Z.eq_dec d 0) as [->|Hz].
  - rewrite rd_cons_0 in Hd. injection Hd as ->. cbn. rewrite Hx. reflexivity.
  - pose proof (rd_Some_bound _ _ _ Hd). assert (exists j, d = j + 1 /\ 0 <= j) as (j & -> & Hj) by (exists (d - 1); lia). rewrite rd_cons_S in Hd by lia. replace (Z.to_nat (j + 1)) with (S (Z.to_nat j)) by lia.
    cbn [map firstn filter]. pose proof (IH _ _ Hd Hx) as E. unfold cnt in *. cbn [map zsum]. destruct (P y); cbn [b2z].
    + rewrite Z.add_comm, rd_cons_S; [exact E|]. apply rd_Some_bound in E. lia.
    + rewrite Z.add_0_l. exact E.
Qed.

Lemma F2_fst {X Y} (P : X -> X * Y -> Prop) A B : Forall2 (fun s x => fst x = s /\ P s x) A B -> map fst B = A.
Proof. induction 1 as [|s x A B (E & _) F IH]; cbn; congruence. Qed.

Section Inv.
Context (V : list nfsa) (seqs : list frames) (cols stride : Z) (c : cfg) (SU : setup V seqs cols stride c).
Context (k : Z) (Hk : 0 <= k < zlen seqs).
Notation f := (gr V c k).
Notation rws := (rw seqs k).
Notation TT := (zlen (rw seqs k)).
Notation vbk := (vb V c k).
Notation ABk := (AB V c k).
Hypothesis HT : 0 < TT.
Hypothesis HR1 : forall t, 0 <= t < TT - 1 -> frame rws t (-1) = None.
Hypothesis HR2 : forall l, l <> -1 -> frame rws (TT - 1) l = None.

Definition ll (p : bool) (t : Z) (a : arc) : option Z := oadd (if p then Some 0 else frame rws t (lab a)) (Some (sc a)).
Definition tg (p : bool) (a : arc) : Z := if p then zlen f - 1 else dst a.
Definition Pt (pmf : bool) (t : Z) : bool := pmf && (t =? TT - 1).
Definition on (H : list (list nst)) (i : Z) (x : nst) : Prop := exists col, rd H i = Some col /\ In x col.
Definition alink (pmf : bool) (i : Z) (H : list (list nst)) (s : sinfo) (y : ainfo) : Prop :=
  exists j a, i_arc y = ABk + j /\ rd (all_arcs f) j = Some a /\ src a = s_a s - vbk /\ (i_ll y = ll (Pt pmf i) i a /\ (Pt pmf i = true -> lab a <> -1)) /\
    (i_dst y = -1 \/ (0 <= i_dst y /\ exists col x', rd H (i + 1) = Some col /\ rd col (i_dst y) = Some x' /\ s_a (fst x') = vbk + tg (Pt pmf i) a /\ ole (oadd (s_f s) (i_ll y)) (s_f (fst x')))).
Definition sas (col : list nst) : list Z := map (fun x => s_a (fst x)) col.

Record cinv (pmf : bool) (H : list (list nst)) (e : Z) : Prop := {
  ci_len : 1 <= zlen H;
  ci_pm : pmf = true -> c_partial c = true;
  ci_0 : exists col, rd H 0 = Some col /\ sas col = match f with [] => [] | _ => [vbk] end /\ forall x, In x col -> s_f (fst x) = Some 0;
  ci_rng : forall i x, on H i x -> 0 <= s_a (fst x) - vbk < zlen f /\ i <= TT /\ (s_a (fst x) - vbk = zlen f - 1 <-> i = TT);
  ci_gen : forall i x, on H i x -> (exists y, s_f (fst x) = Some y) /\
    (pmf = false \/ i < TT -> exists l, apath f 0 l (s_a (fst x) - vbk) /\ zlen l = i /\ dense_score f rws 0 l = s_f (fst x));
  ci_nd : forall i col, rd H i = Some col -> NoDup (sas col);
  ci_arc : forall i x y, on H i x -> In y (snd x) -> alink pmf i H (fst x) y;
  ci_and : forall i x, on H i x -> NoDup (map i_arc (snd x));
  ci_clean : forall i x y, on H i x -> In y (snd x) -> i < e -> 0 <= i_dst y /\ exists w, i_ll y = Some w }.

Lemma fval : f = [] \/ valid f. Proof. apply (gr_valid V seqs cols stride c SU). Qed.
Lemma fvalid : 0 < zlen f -> valid f. Proof. clear HT HR1 HR2 Hk. intros H. destruct fval as [E|E]; [rewrite E in H; rewrite zlen_nil in H; lia|exact E]. Qed.

Lemma dense_app p : forall t q, dense_score f rws t (p ++ q) = oadd (dense_score f rws t p) (dense_score f rws (t + zlen p) q).
Proof.
  clear HT HR1 HR2 Hk.
  induction p as [|j p IH]; intros t q; [cbn; rewrite zlen_nil, Z.add_0_r; destruct (dense_score f rws t q); reflexivity|].
  cbn [dense_score app]. rewrite zlen_cons. destruct (rd (all_arcs f) j); [|reflexivity]. rewrite IH, !oadd_assoc. replace (t + 1 + zlen p) with (t + (1 + zlen p)) by lia. rewrite ?(Z.add_comm (zlen p) 1). reflexivity.
Qed.
Lemma ap_snoc s l j a : apath f s l (src a) -> rd (all_arcs f) j = Some a -> apath f s (l ++ [j]) (dst a).
Proof.
  clear HT HR1 HR2 Hk.
  intros H Ha. remember (src a) as t eqn:E. induction H as [s|j' a' p t Hj H IH]; [|cbn; econstructor; eauto].
  subst s. cbn. econstructor; [exact Ha|constructor].
Qed.

(** the states are those of the graph *)
Lemma on_okst pmf H e i x : cinv pmf H e -> on H i x -> okst V seqs c k i (fst x).
Proof.
  clear HT HR1 HR2 Hk.
  intros CI Hx. destruct (ci_rng _ _ _ CI _ _ Hx) as (R1 & R2 & R3). split; [lia|]. destruct (Z.eq_dec i TT) as [E|E]; [|left; lia]. right.
  destruct (fvalid) as (V1 & V2 & V3); [lia|]. unfold outs. destruct (rd f (s_a (fst x) - vbk)) as [l|] eqn:El; [|reflexivity]. destruct l as [|a l]; [reflexivity|]. exfalso.
  assert (Ha : In a (all_arcs f)) by (apply in_concat; exists (a :: l); split; [eapply rd_In; eauto|apply in_eq]). destruct (V3 a Ha) as (_ & _ & _ & N). apply N. rewrite (V1 _ _ _ El (in_eq _ _)). unfold final. apply R3 in E. lia.
Qed.
Lemma cinv_pmf pmf pmf' H e : zlen H <= TT -> (pmf' = true -> c_partial c = true) -> (forall x, on H (zlen H - 1) x -> snd x = []) -> cinv pmf H e -> cinv pmf' H e.
Proof.
  clear HT HR1 HR2 Hk.
  intros HL Hp Hb [A1 A2 A3 A4 A5 A6 A7 A8 A9]. split; auto.
  - intros i x Hx. destruct (A5 i x Hx) as (B1 & B2). split; [exact B1|]. intros _. apply B2. right. destruct Hx as (col & Hc & _). apply rd_Some_bound in Hc. lia.
  - intros i x y Hx Hy. assert (i < TT - 1).
    { pose proof Hx as (col & Hc & _). apply rd_Some_bound in Hc. destruct (Z.eq_dec i (zlen H - 1)) as [->|]; [|lia]. rewrite (Hb x Hx) in Hy. easy. }
    destruct (A7 i x y Hx Hy) as (j & a & B1 & B2 & B3 & B4 & B5). unfold alink. replace (Pt pmf' i) with (Pt pmf i) by (unfold Pt; replace (i =? TT - 1) with false by lia; now rewrite !andb_false_r). exists j, a. auto.
Qed.

(** the arcs that are made *)
Lemma garcs_in t p s y : In y (garcs V seqs c k t p s) -> exists j a, i_arc y = ABk + j /\ rd (all_arcs f) j = Some a /\ src a = s_a s - vbk /\ i_ll y = ll p t a /\ i_dst y = vbk + tg p a /\ i_end y = oadd (s_f s) (ll p t a) /\ In a (outs V c k s).
Proof.
  clear HT HR1 HR2 Hk.
  intros Hy. unfold garcs in Hy. apply In_rd in Hy as (m & _ & Hm). rewrite rd_imap in Hm. destruct (rd (outs V c k s) m) as [a|] eqn:Ea; [|discriminate]. injection Hm as <-. rewrite Z.add_0_l.
  destruct (outs_arc V seqs cols stride c SU _ _ _ _ Ea) as (H1 & H2 & H3). exists (off1 f (s_a s - vbk) + m), a. cbn. pose proof (rd_In _ _ _ Ea). repeat split; auto. lia.
Qed.
Lemma garcs_nd t p s : NoDup (map i_arc (garcs V seqs c k t p s)).
Proof.
  clear HT HR1 HR2 Hk.
  apply NoDup_nth_error. intros i j Hi E. rewrite map_length in Hi. unfold garcs in *. assert (LI : forall X Y (g : Z -> X -> Y) o l, length (imap g o l) = length l) by (intros; pose proof (zlen_imap g l o) as Zi; unfold zlen in Zi; lia).
  rewrite LI in Hi. rewrite <- !rd_nth in E. rewrite !rd_map, !rd_imap in E. destruct (rd_in_bound (outs V c k s) (Z.of_nat i)) as (a & Ha); [unfold zlen; lia|]. rewrite Ha in E. cbn [option_map] in E.
  destruct (rd (outs V c k s) (Z.of_nat j)); [|discriminate]. cbn in E. injection E. lia.
Qed.
(** where an arc with a finite score goes *)
Lemma ll_fin (p : bool) t a w : 0 <= t < TT -> In a (all_arcs f) -> (p = true -> t = TT - 1) -> ll p t a = Some w -> (tg p a = zlen f - 1 <-> t + 1 = TT) /\ 0 <= tg p a < zlen f.
Proof.
  intros Ht Ha Hp Hw. assert (Hf : 0 < zlen f). { destruct fval as [E|(_ & E & _)]; [rewrite E in Ha; easy|unfold nstates in E; lia]. } destruct (fvalid Hf) as (V1 & V2 & V3). destruct (V3 a Ha) as (B1 & B2 & B3 & B4). unfold nstates, final in *.
  unfold tg, ll in *. destruct p; [specialize (Hp eq_refl); split; lia|]. split; [|lia].
  destruct (frame rws t (lab a)) as [z|] eqn:Ez; [|discriminate]. split; intros E.
  - destruct (Z.eq_dec t (TT - 1)) as [|Hn]; [lia|]. apply B3 in E. rewrite E, HR1 in Ez by lia. discriminate.
  - apply B3. destruct (Z.eq_dec (lab a) (-1)) as [|Hn]; [auto|]. replace t with (TT - 1) in Ez by lia. rewrite HR2 in Ez by auto. discriminate.
Qed.

Section Step.
Context (pmf : bool) (H H' : list (list nst)) (e t : Z) (col C : list nst) (nxt : list sinfo) (beam beam' : Q).
Hypothesis CI : cinv pmf H e.
Hypothesis He : e <= t.
Hypothesis Z1 : zlen H = t + 1.
Hypothesis Z2 : zlen H' = t + 2.
Hypothesis E0 : forall i, i < t -> rd H' i = rd H i.
Hypothesis E1 : rd H t = Some col.
Hypothesis E2 : rd H' t = Some C.
Hypothesis E3 : rd H' (t + 1) = Some (map (fun s => (s, [])) nxt).
Hypothesis FC : fcol V seqs c k t (map fst col) beam C nxt beam'.
Notation S0 := (map fst col).
Notation p0 := (pm V seqs c k t (map fst col)).

Lemma C_fst : map fst C = map fst col.
Proof. exact (F2_fst _ _ _ (fc_arcs _ _ _ _ _ _ _ _ _ _ FC)). Qed.
Lemma C_in x : In x C -> exists x0, In x0 col /\ fst x0 = fst x /\ Forall2 (fun a a' => exists d, a' = setd a d /\
      ((d = -1 /\ above (i_end a) (cut_of V seqs c k t S0 beam) = false) \/ (0 <= d /\ exists s', rd nxt d = Some s' /\ s_a s' = i_dst a /\ ole (i_end a) (s_f s'))))
      (garcs V seqs c k t p0 (fst x)) (snd x).
Proof.
  clear HT HR1 HR2 Hk.
  intros Hx. apply In_rd in Hx as (r & _ & Hr). destruct (Forall2_rd _ _ _ (fc_arcs _ _ _ _ _ _ _ _ _ _ FC)) as (L & F). pose proof (rd_Some_bound _ _ _ Hr) as B. destruct (rd_in_bound S0 r) as (s & Hs); [lia|].
  destruct (F _ _ _ Hs Hr) as (G1 & G2). subst s. rewrite rd_map in Hs. destruct (rd col r) as [x0|] eqn:E; [|discriminate]. injection Hs as Hs. exists x0. split; [eauto using rd_In|]. split; [exact Hs|exact G2].
Qed.
Lemma t_nonneg : 0 <= t. Proof. pose proof (ci_len _ _ _ CI). lia. Qed.
Definition pmf' : bool := if t =? TT - 1 then p0 else pmf.
Lemma p0_t : p0 = true -> t = TT - 1 /\ c_partial c = true.
Proof. unfold pm. intros X. apply andb_prop in X as (X1 & X2). apply andb_prop in X2 as (X2 & _). split; [lia|exact X2]. Qed.
Lemma Pt_t : Pt pmf' t = p0.
Proof. unfold Pt, pmf'. destruct (t =? TT - 1) eqn:E; [now rewrite andb_true_r|]. rewrite andb_false_r. destruct p0 eqn:Ep; [|reflexivity]. apply p0_t in Ep. lia. Qed.
Lemma Pt_i i : i < t -> Pt pmf' i = Pt pmf i.
Proof. intros Hi. unfold Pt, pmf'. destruct (t =? TT - 1) eqn:E; [|reflexivity]. replace (i =? TT - 1) with false by lia. now rewrite !andb_false_r. Qed.

(** a state of the next frame *)
Lemma nxt_in s' : In s' nxt -> s_b s' = None /\ exists x0 y j a w z, In x0 col /\ rd (all_arcs f) j = Some a /\ src a = s_a (fst x0) - vbk /\ s_a s' = vbk + tg p0 a /\ ll p0 t a = Some w /\ s_f (fst x0) = Some z /\ s_f s' = Some (z + w) /\ y = z + w /\ t < TT.
Proof.
  clear HT HR1 HR2.
  intros Hs. destruct (fc_st _ _ _ _ _ _ _ _ _ _ FC _ Hs) as (F1 & (s1 & a1 & F2 & F3 & F4 & F5) & (s2 & a2 & F6 & F7 & F8 & F9)). split; [exact F1|].
  assert (fin : exists z, s_f s' = Some z).
  { apply In_rd in F2 as (r & _ & Hr). destruct (Forall2_rd _ _ _ (fc_arcs _ _ _ _ _ _ _ _ _ _ FC)) as (L & F). pose proof (rd_Some_bound _ _ _ Hr) as B. destruct (rd_in_bound C r) as (x & Hx); [lia|]. destruct (F _ _ _ Hr Hx) as (G1 & G2).
    apply In_rd in F3 as (m & _ & Hm). destruct (Forall2_rd _ _ _ G2) as (L2 & G3). destruct (rd_in_bound (snd x) m) as (y & Hy); [apply rd_Some_bound in Hm; lia|].
    destruct (G3 _ _ _ Hm Hy) as (d & _ & [(_ & D)|(D0 & s'' & D1 & D2 & D3)]); [congruence|]. assert (s'' = s').
    { pose proof (fc_nd _ _ _ _ _ _ _ _ _ _ FC) as ND. apply In_rd in Hs as (r' & _ & Hr'). rewrite D2 in F4 || idtac. rewrite NoDup_nth_error in ND.
      assert (d = r'). { pose proof (rd_Some_bound _ _ _ D1) as BD. pose proof (rd_Some_bound _ _ _ Hr') as BR. assert (Z.to_nat d = Z.to_nat r'); [|lia]. apply ND; [rewrite map_length; unfold zlen in BD; lia|]. rewrite <- !rd_nth, !Z2Nat.id, !rd_map, D1, Hr' by lia. cbn. congruence. }
      congruence. }
    subst s''. destruct (i_end a1); [|discriminate F5]. destruct (s_f s'); [eauto|destruct D3]. }
  destruct fin as (z0 & Hz0). destruct (garcs_in _ _ _ _ F7) as (j & a & G1 & G2 & G3 & G4 & G5 & G6 & _). rewrite <- F9, G6 in Hz0.
  apply in_map_iff in F6 as (x0 & <- & F6). destruct (s_f (fst x0)) as [z|] eqn:Ez; [|discriminate]. destruct (ll p0 t a) as [w|] eqn:Ew; [|destruct z; discriminate].
  exists x0, (z + w), j, a, w, z. split; [exact F6|]. split; [exact G2|]. split; [exact G3|]. split; [congruence|]. split; [exact Ew|]. split; [exact Ez|]. split; [rewrite <- F9, G6; reflexivity|]. split; [reflexivity|].
  destruct (ci_rng _ _ _ CI t x0) as (R1 & R2 & R3); [exists col; auto|]. destruct (Z.eq_dec t TT) as [E|]; [|lia]. exfalso. apply R3 in E. destruct (fvalid) as (V1 & V2 & V3); [lia|]. destruct (V3 a (rd_In _ _ _ G2)) as (_ & _ & _ & N). apply N. unfold final. lia.
Qed.

Lemma on_cases i x : on H' i x -> (i < t /\ on H i x) \/ (i = t /\ In x C) \/ (i = t + 1 /\ exists s, In s nxt /\ x = (s, [])).
Proof.
  intros (col' & Hc & Hx). pose proof (rd_Some_bound _ _ _ Hc). destruct (Z_lt_ge_dec i t) as [L|G]; [left; split; [exact L|]; rewrite E0 in Hc by exact L; exists col'; auto|]. right.
  destruct (Z.eq_dec i t) as [->|Hn]; [left; split; [reflexivity|]; rewrite E2 in Hc; now injection Hc as ->|]. right. assert (i = t + 1) as -> by lia. split; [reflexivity|]. rewrite E3 in Hc. injection Hc as <-. apply in_map_iff in Hx as (s & <- & Hs). eauto.
Qed.

Lemma cinv_fwd : cinv pmf' H' e.
Proof.
  pose proof t_nonneg as Ht. split.
  - lia.
  - unfold pmf'. destruct (t =? TT - 1); [intros X; now apply p0_t in X|apply (ci_pm _ _ _ CI)].
  - destruct (ci_0 _ _ _ CI) as (c0 & A1 & A2 & A3). destruct (Z.eq_dec t 0) as [Et|Hz].
    + rewrite <- Et, E1 in A1. injection A1 as A1. subst c0. exists C. split; [rewrite <- Et; exact E2|]. split; [rewrite <- A2; unfold sas; rewrite <- !(map_map fst s_a), C_fst; reflexivity|].
      intros x Hx. destruct (C_in x Hx) as (x0 & B1 & B2 & _). rewrite <- B2. now apply A3.
    + exists c0. rewrite E0 by lia. auto.
  - intros i x Hx. destruct (on_cases _ _ Hx) as [(L & Ho)|[(-> & Hc)|(-> & s & Hs & ->)]]; [now apply (ci_rng _ _ _ CI)| |].
    + destruct (C_in x Hc) as (x0 & B1 & B2 & _). rewrite <- B2. apply (ci_rng _ _ _ CI). exists col; auto.
    + destruct (nxt_in _ Hs) as (_ & x0 & y & j & a & w & z & N1 & N2 & N3 & N4 & N5 & N6 & N7 & N8 & N9). cbn [fst]. rewrite N4. destruct (ll_fin p0 t a w ltac:(lia) (rd_In _ _ _ N2) (fun X => proj1 (p0_t X)) N5) as (F1 & F2). lia.
  - intros i x Hx. destruct (on_cases _ _ Hx) as [(L & Ho)|[(-> & Hc)|(-> & s & Hs & ->)]].
    + destruct (ci_gen _ _ _ CI _ _ Ho) as (G1 & G2). split; [exact G1|]. intros D. apply G2. unfold pmf' in D. destruct (t =? TT - 1) eqn:E; [right; lia|exact D].
    + destruct (C_in x Hc) as (x0 & B1 & B2 & _). rewrite <- B2. destruct (ci_gen _ _ _ CI t x0) as (G1 & G2); [exists col; auto|]. split; [exact G1|]. intros D. apply G2. unfold pmf' in D. destruct (t =? TT - 1) eqn:E; [right; lia|exact D].
    + destruct (nxt_in _ Hs) as (_ & x0 & y & j & a & w & z & N1 & N2 & N3 & N4 & N5 & N6 & N7 & N8 & N9). cbn [fst]. split; [eauto|]. intros D. destruct (ci_gen _ _ _ CI t x0) as (G1 & G2); [exists col; auto|].
      destruct G2 as (l & L1 & L2 & L3); [right; lia|]. assert (P0 : p0 = false). { destruct p0 eqn:Ep; [|reflexivity]. destruct (p0_t Ep) as (X & _). unfold pmf' in D. rewrite X, Z.eqb_refl in D. destruct D as [D|D]; [subst; congruence|lia]. }
      rewrite P0 in *. unfold tg in N4. exists (l ++ [j]). rewrite N4. replace (vbk + dst a - vbk) with (dst a) by lia. split; [apply ap_snoc; [rewrite N3; exact L1|exact N2]|]. split; [rewrite zlen_app, zlen_cons, zlen_nil; lia|].
      rewrite dense_app, L3, L2, N6. cbn [dense_score]. rewrite N2, N7. unfold ll in N5. rewrite Z.add_0_l. rewrite (oadd_comm (Some (sc a))), N5. cbn. f_equal. lia.
  - intros i c0 Hc. pose proof (rd_Some_bound _ _ _ Hc). destruct (Z_lt_ge_dec i t) as [L|G]; [rewrite E0 in Hc by lia; eapply (ci_nd _ _ _ CI); eauto|].
    destruct (Z.eq_dec i t) as [->|Hn].
    + rewrite E2 in Hc. injection Hc as <-. pose proof (ci_nd _ _ _ CI _ _ E1) as N. unfold sas in *. rewrite <- (map_map fst s_a) in N |- *. now rewrite C_fst.
    + assert (i = t + 1) as -> by lia. rewrite E3 in Hc. injection Hc as <-. unfold sas. rewrite map_map. cbn. exact (fc_nd _ _ _ _ _ _ _ _ _ _ FC).
  - intros i x y Hx Hy. destruct (on_cases _ _ Hx) as [(L & Ho)|[(-> & Hc)|(-> & s & Hs & ->)]]; [| |easy].
    + destruct (ci_arc _ _ _ CI _ _ _ Ho Hy) as (j & a & B1 & B2 & B3 & B4 & B5). exists j, a. rewrite (Pt_i i L). split; [exact B1|]. split; [exact B2|]. split; [exact B3|]. split; [exact B4|]. destruct B5 as [B5|(B5 & c1 & x' & D1 & D2 & D3 & D4)]; [now left|right]. split; [exact B5|].
      destruct (Z.eq_dec (i + 1) t) as [E|E]; [|exists c1, x'; rewrite E0 by lia; auto]. rewrite E in *. rewrite E1 in D1. injection D1 as <-.
      assert (EF : rd (map fst C) (i_dst y) = Some (fst x')) by (rewrite C_fst, rd_map, D2; reflexivity). rewrite rd_map in EF. destruct (rd C (i_dst y)) as [x''|] eqn:Ex; [|discriminate]. injection EF as EF.
      exists C, x''. rewrite EF. auto.
    + destruct (C_in x Hc) as (x0 & B1 & B2 & F). apply In_rd in Hy as (m & _ & Hm). destruct (Forall2_rd _ _ _ F) as (L & F'). destruct (rd_in_bound (garcs V seqs c k t p0 (fst x)) m) as (y0 & Hy0); [apply rd_Some_bound in Hm; lia|].
      destruct (F' _ _ _ Hy0 Hm) as (d & -> & D). destruct (garcs_in _ _ _ _ (rd_In _ _ _ Hy0)) as (j & a & G1 & G2 & G3 & G4 & G5 & G6 & G7). exists j, a. rewrite Pt_t. cbn. split; [exact G1|]. split; [exact G2|]. split; [exact G3|]. split.
      { split; [exact G4|]. intros Ep El. unfold pm in Ep. apply andb_prop in Ep as (_ & Ep). apply andb_prop in Ep as (_ & Ep). apply negb_true_iff in Ep. assert (X : existsb (fun s => existsb (fun a => lab a =? -1) (outs V c k s)) S0 = true); [|congruence]. apply existsb_exists. exists (fst x). split; [rewrite <- B2; now apply in_map|]. apply existsb_exists. exists a. split; [exact G7|lia]. }
      destruct D as [(D & _)|(D & s' & D1 & D2 & D3)]; [now left|right]. split; [exact D|]. exists (map (fun s => (s, [])) nxt), (s', []). split; [exact E3|]. split; [rewrite rd_map, D1; reflexivity|]. cbn. split; [congruence|]. rewrite G4, <- G6. exact D3.
  - intros i x Hx. destruct (on_cases _ _ Hx) as [(L & Ho)|[(-> & Hc)|(-> & s & Hs & ->)]]; [eapply (ci_and _ _ _ CI); eauto| |constructor].
    destruct (C_in x Hc) as (x0 & B1 & B2 & F). replace (map i_arc (snd x)) with (map i_arc (garcs V seqs c k t p0 (fst x))); [apply garcs_nd|]. clear - F. induction F as [|a a' l l' (d & -> & _) F IH]; cbn; [reflexivity|]. now rewrite IH.
  - intros i x y Hx Hy Hi. destruct (on_cases _ _ Hx) as [(L & Ho)|[(-> & Hc)|(-> & _)]]; [|lia|lia]. eapply (ci_clean _ _ _ CI); eauto.
Qed.
End Step.
End Inv.
