(** TopSort: in-degrees, batches and the loop, for every order of the kernels. *)
From Coq Require Import ZArith List Lia Bool Sorted Permutation.
From Coq Require Import ZifyBool ZifyNat.
From Verif Require Import Base RaggedModel RaggedSpec RaggedProofs FsaSpec FsaLemmas FsaOpsModel FsaOpsProofs FsaOpsProps SelectProofs
  EpsLoopProofs RaggedOpsModel RaggedOpsSpec RaggedOpsProofs RaggedOpsProps OpsModel OpsProofs FstSpec GraphProofs PropsModel PropsSpec PropsProofs PropsProps ReverseModel ReverseProofs ReverseProps
  VecElement ConnectModel ConnectSpec ConnectProofs ExtractProofs ConnectRun ConnectProps TopSortModel TopSortProofs.
Import ListNotations.
Open Scope Z_scope.

Definition batch_of (rows : list (list Z)) : batch := (mk_layer (splits_of rows) (ids_of rows), concat rows).

Section T.
Variable fs : list nfsa.
Hypothesis WF : Forall well_formed fs.
Let SO : Forall src_ok fs.
Proof. eapply Forall_impl; [|exact WF]. now intros f (H & _). Qed.
Let DO : Forall (fun f : nfsa => forall a, In a (all_arcs f) -> 0 <= dst a < nstates f) fs.
Proof. eapply Forall_impl; [|exact WF]. now intros f (_ & H). Qed.
Let Sn := zlen (concat fs).
Let An := zlen (concat (concat fs)).
Let v := flat_vec fs.
Let dests := gdest fs.
Let rids2 := ids_of (concat fs).

Definition srcq (q : Z) : Z := at0 (ids_of (concat fs)) q.
Definition dstq (q : Z) : Z := at0 (gdest fs) q.
Definition nl (q : Z) : bool := negb (dstq q =? srcq q).
Definition fin_of (k t : Z) : bool :=
  match rd fs k with Some f => (0 <? zlen f) && (t =? off1 fs k + zlen f - 1) | None => false end.
(** arcs other than self-loops that enter t from a state outside P, plus one
    for final states *)
Definition degP (P : Z -> bool) (t : Z) : Z :=
  count (fun q => nl q && (dstq q =? t) && negb (P (srcq q))) (zrange An) + count (fun k => fin_of k t) (zrange (zlen fs)).

Lemma Sn0 : 0 <= Sn. Proof. apply zlen_nonneg. Qed.
Lemma An0 : 0 <= An. Proof. apply zlen_nonneg. Qed.

Lemma arc_q q : 0 <= q < An -> exists k f j a, rd fs k = Some f /\ rd (all_arcs f) j = Some a /\ q = abase fs k + j /\
  0 <= src a < zlen f /\ 0 <= dst a < zlen f /\ srcq q = off1 fs k + src a /\ dstq q = off1 fs k + dst a /\
  rd (ids_of (concat fs)) q = Some (srcq q) /\ rd (gdest fs) q = Some (dstq q) /\ 0 <= srcq q < Sn /\ 0 <= dstq q < Sn.
Proof.
  intros Hq. destruct (every_arc fs q Hq) as (k & f & j & a & Hk & Ha & ->).
  destruct (arc_by_pos fs WF k f j a Hk Ha) as (P1 & P2 & _ & B1 & B2). exists k, f, j, a.
  assert (G : rd (gdest fs) (abase fs k + j) = Some (off1 fs k + dst a)).
  { destruct (rd_concat_inv _ _ _ Ha) as (r & st & i & H1 & H2 & -> & _). rewrite Z.add_assoc. now apply (rd_gdest fs k f r st i a). }
  assert (E1 : srcq (abase fs k + j) = off1 fs k + src a) by (unfold srcq, at0; now rewrite P2).
  assert (E2 : dstq (abase fs k + j) = off1 fs k + dst a) by (unfold dstq, at0; now rewrite G).
  pose proof (state_range fs k f _ Hk B1). pose proof (state_range fs k f _ Hk B2).
  rewrite E1, E2. unfold Sn. repeat split; auto; lia.
Qed.
Lemma arc_kj k f j a : rd fs k = Some f -> rd (all_arcs f) j = Some a ->
  0 <= abase fs k + j < An /\ srcq (abase fs k + j) = off1 fs k + src a /\ dstq (abase fs k + j) = off1 fs k + dst a.
Proof.
  intros Hk Ha. destruct (arc_by_pos fs WF k f j a Hk Ha) as (P1 & P2 & _ & B1 & B2).
  split; [apply rd_Some_bound in P1; auto|].
  assert (G : rd (gdest fs) (abase fs k + j) = Some (off1 fs k + dst a)).
  { destruct (rd_concat_inv _ _ _ Ha) as (r & st & i & H1 & H2 & -> & _). rewrite Z.add_assoc. now apply (rd_gdest fs k f r st i a). }
  unfold srcq, dstq, at0. now rewrite P2, G.
Qed.

(** ** In-degrees *)
Lemma in_degree_ok ord : fair ord -> ts_in_degree ord v rids2 dests = Some (map (degP (fun _ => false)) (zrange Sn)).
Proof.
  intros HF. pose proof Sn0. pose proof An0. unfold ts_in_degree. cbn [v flat_vec v_rs1 v_rs2 v_arcs]. rewrite !zlen_splits_of.
  replace (zlen (concat fs) + 1 - 1) with Sn by (unfold Sn; lia). replace (zlen fs + 1 - 1) with (zlen fs) by lia. fold An.
  assert (E1 : mapM (fun i => d <- rd dests i;; s <- rd rids2 i;; Some (negb (d =? s))) (zrange An) = Some (map nl (zrange An))).
  { apply mapM_Some_map. intros q Hq. apply in_zrange in Hq. destruct (arc_q q Hq) as (_ & _ & _ & _ & _ & _ & _ & _ & _ & _ & _ & R1 & R2 & _).
    unfold dests, rids2. now rewrite R1, R2. }
  rewrite E1. rewrite new2old_kept by (rewrite zlen_map, zlen_zrange by lia; apply HF). rewrite kept_from_zrange by lia.
  assert (E2 : mapM (rd dests) (filter nl (zrange An)) = Some (map dstq (filter nl (zrange An)))).
  { apply mapM_Some_map. intros q Hq. apply filter_In in Hq as (Hq & _). apply in_zrange in Hq.
    destruct (arc_q q Hq) as (_ & _ & _ & _ & _ & _ & _ & _ & _ & _ & _ & _ & R2 & _). exact R2. }
  rewrite E2. unfold get_counts.
  assert (LR : zlen (repeat 0 (Z.to_nat Sn)) = Sn) by (unfold zlen; rewrite repeat_length; lia).
  destruct (foldM_add 1 (map dstq (filter nl (zrange An))) (repeat 0 (Z.to_nat Sn))) as (c1 & F1 & L1 & R1).
  { rewrite LR. apply Forall_forall. intros t Ht. apply in_map_iff in Ht as (q & <- & Hq). apply filter_In in Hq as (Hq & _). apply in_zrange in Hq.
    destruct (arc_q q Hq) as (_ & _ & _ & _ & _ & _ & _ & _ & _ & _ & _ & _ & _ & _ & R2). exact R2. }
  rewrite F1.
  set (body := fun deg i => this <- rd (splits_of fs) i;; next <- rd (splits_of fs) (i + 1);; if this <? next then add_to 1 deg (next - 1) else Some deg).
  assert (G : forall l, (forall k, In k l -> 0 <= k < zlen fs) -> forall c, zlen c = Sn -> exists c', foldM body l c = Some c' /\ zlen c' = Sn /\
             forall t x, rd c t = Some x -> rd c' t = Some (x + count (fun k => fin_of k t) l)).
  { induction l as [|k l IH]; intros HR c Lc; cbn [foldM].
    - exists c. split; [|split]; auto. intros t x E. rewrite count_nil, Z.add_0_r. auto.
    - assert (Bk : 0 <= k < zlen fs) by (apply HR; now left). destruct (rd_in_bound fs k Bk) as (f & Hk).
      pose proof (off1_next fs k f Hk) as On. pose proof (off1_nonneg fs k) as On0.
      unfold body at 1. rewrite !rd_splits_off by lia. rewrite On.
      destruct (off1 fs k <? off1 fs k + zlen f) eqn:Ne.
      + assert (Bf : 0 <= off1 fs k + zlen f - 1 < zlen c).
        { rewrite Lc. pose proof (state_range fs k f (zlen f - 1) Hk ltac:(lia)). unfold Sn. lia. }
        destruct (foldM_add 1 [off1 fs k + zlen f - 1] c) as (c2 & F2 & L2 & R2). { constructor; auto. }
        cbn [foldM] in F2. destruct (add_to 1 c (off1 fs k + zlen f - 1)) as [c2'|] eqn:Ea; [|discriminate]. injection F2 as ->.
        destruct (IH ltac:(intros; apply HR; now right) c2 ltac:(lia)) as (c' & F3 & L3 & R3). exists c'. split; auto. split; auto.
        intros t x E. rewrite (R3 t _ (R2 t x E)). f_equal. rewrite !count_cons, count_nil. unfold fin_of at 2. rewrite Hk.
        replace (0 <? zlen f) with true by lia. cbn [andb]. lia.
      + destruct (IH ltac:(intros; apply HR; now right) c Lc) as (c' & F3 & L3 & R3). exists c'. split; auto. split; auto.
        intros t x E. rewrite (R3 t x E). f_equal. rewrite !count_cons. unfold fin_of at 2. rewrite Hk.
        replace (0 <? zlen f) with false by lia. cbn [andb b2z]. lia. }
  destruct (G (ord (zlen fs))) with (c := c1) as (c' & F2 & L2 & R2).
  { intros k Hk. now apply (in_sched _ _ _ (HF _)). }
  { lia. }
  rewrite F2. f_equal. apply list_ext_rd; [rewrite zlen_map, zlen_zrange by lia; auto|]. intros t Ht. rewrite L2 in Ht.
  rewrite rd_map, rd_zrange by lia. cbn [option_map].
  rewrite (R2 t (0 + 1 * count (Z.eqb t) (map dstq (filter nl (zrange An))))).
  - f_equal. unfold degP. rewrite count_map, count_filter. f_equal.
    + rewrite Z.add_0_l, Z.mul_1_l. apply count_ext. intros q _. rewrite andb_true_r, andb_comm. f_equal. apply Z.eqb_sym.
    + apply count_perm. apply HF.
  - apply R1. apply rd_repeat. lia.
Qed.

Definition rows_of (B : Z -> bool) : list (list Z) := map (filter B) (idx_rows fs).
Lemma concat_rows_of B : concat (rows_of B) = filter B (zrange Sn).
Proof. unfold rows_of. rewrite <- filter_concat. unfold idx_rows. now rewrite splits_concat_zrange. Qed.
Lemma zlen_rows_of B : zlen (rows_of B) = zlen fs.
Proof. unfold rows_of, idx_rows. now rewrite zlen_map, zlen_imap. Qed.
Lemma rd_rows_of B k f : rd fs k = Some f -> rd (rows_of B) k = Some (filter B (map (fun i => off1 fs k + i) (zrange (zlen f)))).
Proof. intros H. unfold rows_of. rewrite rd_map, (rd_idx_rows _ _ _ H). reflexivity. Qed.
Lemma in_rows_of B k f o s : rd fs k = Some f -> rd (rows_of B) k = Some o -> In s o <-> 0 <= s - off1 fs k < zlen f /\ B s = true.
Proof.
  intros Hk Ho. rewrite (rd_rows_of B k f Hk) in Ho. injection Ho as <-. rewrite filter_In, in_map_iff. split.
  - intros ((i & <- & Hi) & HK). apply in_zrange in Hi. split; auto. lia.
  - intros (H & HK). split; auto. exists (s - off1 fs k). split; [lia|]. now apply in_zrange.
Qed.
Lemma rows_of_ext B B' : (forall s, 0 <= s < Sn -> B s = B' s) -> rows_of B = rows_of B'.
Proof.
  intros H. apply list_ext_rd; [now rewrite !zlen_rows_of|]. intros k Hk. rewrite zlen_rows_of in Hk. destruct (rd_in_bound fs k Hk) as (f & Ef).
  rewrite !(rd_rows_of _ k f Ef). f_equal. apply filter_ext_in. intros s Hs. apply in_map_iff in Hs as (i & <- & Hi). apply in_zrange in Hi.
  apply H. apply (state_range fs k f); auto.
Qed.

(** ** The first batch *)
Lemma initial_ok ord deg : fair ord -> ts_initial ord (ids_of fs) (zlen fs) (map deg (zrange Sn)) =
  Some (batch_of (rows_of (fun t => deg t =? 0))).
Proof.
  intros HF. pose proof Sn0. unfold ts_initial. rewrite zlen_map, zlen_zrange by lia. rewrite map_map.
  rewrite new2old_kept by (rewrite zlen_map, zlen_zrange by lia; apply HF). rewrite kept_from_zrange by lia.
  pose proof (index_last_filter (fun t => deg t =? 0) (idx_rows fs)) as I. rewrite (ids_of_zlen fs (idx_rows fs)) in I by apply zlen_idx_rows.
  assert (E1 : concat (idx_rows fs) = zrange Sn) by (unfold idx_rows; apply splits_concat_zrange).
  rewrite E1, kept_from_zrange in I by lia.
  replace (zlen (idx_rows fs)) with (zlen fs) in I by (unfold idx_rows; now rewrite zlen_imap).
  unfold index_last in I. destruct (mapM (rd (ids_of fs)) _) as [ids|]; [|discriminate].
  destruct (row_ids_to_row_splits ids (zlen fs)) as [rs|]; [|discriminate]. injection I as -> ->.
  unfold batch_of. now rewrite concat_rows_of.
Qed.

Lemma check_start_ok B : (forall k f, rd fs k = Some f -> 0 < zlen f -> B (off1 fs k) = true) ->
  ts_check_start (splits_of fs) (batch_of (rows_of B)) = Some true.
Proof.
  intros H. unfold ts_check_start. rewrite zlen_splits_of. replace (zlen fs + 1 - 1) with (zlen fs) by lia.
  match goal with |- context [mapM ?g ?l] => assert (E : mapM g l = Some (map (fun _ => true) (zrange (zlen fs)))) end.
  { apply mapM_Some_map. intros k Hk. apply in_zrange in Hk. destruct (rd_in_bound fs k Hk) as (f & Ef).
    pose proof (off1_next fs k f Ef) as On. rewrite !rd_splits_off by lia. rewrite On.
    destruct (off1 fs k <? off1 fs k + zlen f) eqn:Ne; [|reflexivity]. specialize (H k f Ef ltac:(lia)).
    cbn [batch_of fst snd l_rs]. rewrite rd_splits_off by (rewrite zlen_rows_of; lia).
    pose proof (rd_rows_of B k f Ef) as Er. rewrite zrange_cons in Er by lia. cbn [map filter] in Er.
    rewrite Z.add_0_r, H in Er. match type of Er with _ = Some (?h :: ?tl) => pose proof (rd_concat_off (rows_of B) k (h :: tl) 0 h Er (rd_cons_0 _ _)) as (P & _) end.
    rewrite Z.add_0_r in P. rewrite P, Z.eqb_refl. reflexivity. }
  rewrite E. f_equal. apply forallb_forall. intros x Hx. now apply in_map_iff in Hx as (_ & <- & _).
Qed.
Lemma check_start_inv B : ts_check_start (splits_of fs) (batch_of (rows_of B)) = Some true ->
  forall k f, rd fs k = Some f -> 0 < zlen f -> B (off1 fs k) = true.
Proof.
  unfold ts_check_start. rewrite zlen_splits_of. replace (zlen fs + 1 - 1) with (zlen fs) by lia.
  match goal with |- context [mapM ?g ?l] => destruct (mapM g l) as [flags|] eqn:E; [|discriminate] end.
  intros H k f Hk Hf. injection H as H. rewrite forallb_forall in H. pose proof (rd_Some_bound _ _ _ Hk) as Bk.
  assert (Rk : rd (zrange (zlen fs)) k = Some k) by (apply rd_zrange; auto).
  assert (Bk' : 0 <= k < zlen flags) by (rewrite <- (zlen_zrange (zlen fs)) in Bk by lia; pose proof (mapM_length _ _ _ E); unfold zlen in *; lia).
  destruct (rd_in_bound flags k Bk') as (fl & Efl). destruct (mapM_rd _ _ _ _ _ E Efl) as (k' & K1 & K2).
  assert (k' = k) by congruence. subst k'. rewrite (H fl (rd_In _ _ _ Efl)) in K2. pose proof (off1_next fs k f Hk) as On.
  rewrite !rd_splits_off in K2 by lia. rewrite On in K2. replace (off1 fs k <? off1 fs k + zlen f) with true in K2 by lia.
  cbn [batch_of fst snd l_rs] in K2. rewrite rd_splits_off in K2 by (rewrite zlen_rows_of; lia).
  destruct (rd (concat (rows_of B)) (off1 (rows_of B) k)) as [first|] eqn:Ef; [|discriminate]. injection K2 as K2.
  assert (first = off1 fs k) by lia. subst first. apply rd_In in Ef. rewrite concat_rows_of in Ef. apply filter_In in Ef. tauto.
Qed.

(** ** The next batch *)
Definition b_arcs (B : Z -> bool) : list (list (Z * Z * Z)) :=
  imap (fun k row => concat (map (fun s => map (fun q => (k, s, q)) (arow fs s)) row)) 0 (rows_of B).

Lemma arcs_of_ok B : ts_arcs (splits_of (concat fs)) (batch_of (rows_of B)) = Some (concat (b_arcs B)).
Proof.
  unfold ts_arcs. cbn [batch_of fst snd l_ids].
  set (X := imap (fun k row => map (fun s => map (fun q => (k, s, q)) (arow fs s)) row) 0 (rows_of B)).
  assert (EX : b_arcs B = map (@concat _) X).
  { unfold b_arcs, X. apply list_ext_rd; [now rewrite zlen_map, !zlen_imap|]. intros i _. rewrite rd_map, !rd_imap. now destruct (rd (rows_of B) i). }
  rewrite EX, concat_map_concat.
  assert (LX : map zlen X = map zlen (rows_of B)).
  { unfold X. apply list_ext_rd; [now rewrite !zlen_map, zlen_imap|]. intros i _. rewrite !rd_map, rd_imap. destruct (rd (rows_of B) i); cbn; auto. f_equal. apply zlen_map. }
  assert (LC : zlen (concat X) = zlen (concat (rows_of B))).
  { destruct (map_zlen_rd (rows_of B) X LX) as (L1 & _ & L3 & _). rewrite <- (off1_all X), <- (off1_all (rows_of B)). rewrite L1. apply L3. }
  match goal with |- context [mapM ?g ?l] => assert (E : mapM g l = Some (concat X)) end.
  { rewrite <- LC. apply GraphProofs.mapM_zrange. intros i x Hx. destruct (rd_concat_inv _ _ _ Hx) as (k & xr & j & R1 & R2 & -> & _).
    unfold X in R1. rewrite rd_imap in R1. destruct (rd (rows_of B) k) as [row|] eqn:Er; [|discriminate]. cbn [option_map] in R1. injection R1 as <-.
    rewrite rd_map in R2. destruct (rd row j) as [s|] eqn:Es; [|discriminate]. cbn [option_map] in R2. injection R2 as <-.
    destruct (map_zlen_rd (rows_of B) X LX) as (_ & _ & L3 & _). rewrite L3.
    destruct (rd_concat_off (rows_of B) k row j s Er Es) as (P1 & P2). rewrite P1, P2. rewrite Z.add_0_l.
    assert (Bs : 0 <= s < Sn). { pose proof (rd_In _ _ _ P1) as I. rewrite concat_rows_of in I. apply filter_In in I as (I & _). now apply in_zrange in I. }
    destruct (rd_in_bound (concat fs) s Bs) as (st & Hst). pose proof (off1_next (concat fs) s st Hst) as On.
    rewrite !rd_splits_off by (unfold Sn in Bs; lia). rewrite On. f_equal. unfold arow. rewrite (rd_idx_rows _ _ _ Hst), map_map.
    replace (off1 (concat fs) s + zlen st - off1 (concat fs) s) with (zlen st) by lia. reflexivity. }
  now rewrite E.
Qed.

Lemma in_b_arcs B k l x : rd (b_arcs B) k = Some l -> In x l ->
  exists f s q, x = (k, s, q) /\ rd fs k = Some f /\ 0 <= q < An /\ srcq q = s /\ B s = true /\ 0 <= s - off1 fs k < zlen f /\ 0 <= dstq q - off1 fs k < zlen f.
Proof.
  intros Hk Hx. unfold b_arcs in Hk. rewrite rd_imap in Hk. destruct (rd (rows_of B) k) as [row|] eqn:Er; [|discriminate]. cbn [option_map] in Hk. injection Hk as <-.
  apply in_concat in Hx as (l & Hl & Hx). apply in_map_iff in Hl as (s & <- & Hs). apply in_map_iff in Hx as (q & <- & Hq).
  assert (Bk : 0 <= k < zlen fs) by (rewrite <- (zlen_rows_of B); now apply rd_Some_bound in Er).
  destruct (rd_in_bound fs k Bk) as (f & Ef). pose proof (proj1 (in_rows_of B k f row s Ef Er) Hs) as (Bs & HB).
  replace s with (off1 fs k + (s - off1 fs k)) in Hq by lia. destruct (arow_inv fs WF k f _ q Ef Bs Hq) as (j & a & Ha & -> & E3).
  destruct (arc_kj k f j a Ef Ha) as (A1 & A2 & A3). destruct (arc_by_pos fs WF k f j a Ef Ha) as (_ & _ & _ & B1 & B2).
  exists f, s, (abase fs k + j). rewrite Z.add_0_l, A2, A3. repeat split; auto; lia.
Qed.

Lemma b_arcs_pos B : map snd (concat (b_arcs B)) = filter (fun q => B (srcq q)) (zrange An).
Proof.
  assert (E0 : concat (idx_rows (concat fs)) = zrange An) by (unfold idx_rows; apply splits_concat_zrange).
  rewrite <- E0, (idx_rows_arow fs), filter_concat, map_map.
  transitivity (concat (map (arow fs) (filter B (zrange Sn)))).
  - rewrite <- concat_rows_of. rewrite concat_map. unfold b_arcs.
    generalize (rows_of B) 0. induction l as [|row l IH]; intros k; auto. cbn [imap map concat]. rewrite IH. rewrite map_app, concat_app. f_equal.
    rewrite concat_map, map_map. f_equal. apply map_ext. intros s. rewrite map_map. cbn [snd]. apply map_id.
  - etransitivity; [|apply (concat_filter_nil B)].
    + f_equal. apply map_ext_in. intros s Hs. apply filter_In in Hs as (Hs & HB). apply in_zrange in Hs. symmetry.
      destruct (state_pos fs s Hs) as (k & f & i & st & Hk & Hi & -> & Bi).
      rewrite (filter_ext_in (fun q => B (srcq q)) (fun _ => true)).
      * clear. induction (arow fs (off1 fs k + i)); cbn; congruence.
      * intros q Hq. destruct (arow_inv fs WF k f i q Hk Bi Hq) as (j & a & Ha & -> & E3). destruct (arc_kj k f j a Hk Ha) as (_ & A2 & _).
        now rewrite A2, E3.
    + intros s Hs HB. apply in_zrange in Hs. destruct (state_pos fs s Hs) as (k & f & i & st & Hk & Hi & -> & Bi).
      rewrite (filter_ext_in (fun q => B (srcq q)) (fun _ => false)).
      * clear. induction (arow fs (off1 fs k + i)); cbn; congruence.
      * intros q Hq. destruct (arow_inv fs WF k f i q Hk Bi Hq) as (j & a & Ha & -> & E3). destruct (arc_kj k f j a Hk Ha) as (_ & A2 & _).
        now rewrite A2, E3.
Qed.

Lemma NoDup_parts {X} (l1 l2 : list X) : NoDup (l1 ++ l2) -> NoDup l1 /\ NoDup l2.
Proof using.
  clear. induction l1 as [|x l1 IH]; intros H; [split; auto; constructor|]. cbn in H. inversion H as [|? ? H1 H2]; subst. destruct (IH H2).
  split; auto. constructor; auto. intros I. apply H1, in_or_app. auto.
Qed.
Lemma sorted_strict (l : list Z) : NoDup l -> StronglySorted (fun a b => (b <? a) = false) l -> StronglySorted Z.lt l.
Proof using.
  clear. induction l as [|x l IH]; intros N S; constructor; inversion N as [|? ? N1 N2]; inversion S as [|? ? S1 F]; subst; auto.
  rewrite Forall_forall in *. intros y Hy. specialize (F y Hy). assert (x <> y) by (intros ->; auto). lia.
Qed.

Definition nextB (P P' : Z -> bool) (t : Z) : bool := (0 <? degP P t) && (degP P' t <=? 0).

Lemma next_ok ord P B : fair ord -> (forall s, B s = true -> P s = false) ->
  let P' := fun s => P s || B s in
  ts_next ord v dests (map (degP P) (zrange Sn)) (batch_of (rows_of B)) =
  Some (map (degP P') (zrange Sn), if existsb (nextB P P') (zrange Sn) then Some (batch_of (rows_of (nextB P P'))) else None).
Proof.
  intros HF HB P'. pose proof Sn0 as HS. pose proof An0 as HA. unfold ts_next. cbn [v flat_vec v_rs1 v_rs2 v_arcs]. rewrite zlen_splits_of.
  replace (zlen fs + 1 - 1) with (zlen fs) by lia. rewrite arcs_of_ok. set (AR := b_arcs B). set (arcs := concat AR).
  assert (IA : forall f s p, In (f, s, p) arcs -> 0 <= p < An /\ srcq p = s).
  { intros f s p I. apply in_concat in I as (l & Hl & I). apply In_rd in Hl as (k & _ & Hk). destruct (in_b_arcs B k l _ Hk I) as (f0 & s0 & q0 & E & _ & B0 & E0 & _).
    injection E as -> -> ->. auto. }
  assert (Ldeg : zlen (map (degP P) (zrange Sn)) = Sn) by (rewrite zlen_map, zlen_zrange; lia).
  assert (Lg : zlen dests = An) by (apply zlen_gdest).
  destruct (dec_fold dests arcs) with (l := ord (zlen arcs)) (deg := map (degP P) (zrange Sn)) (kp := repeat (@None (Z * Z)) (length arcs))
    as (deg' & kp & F1 & F2 & F3 & F4 & F5 & F6 & F7).
  { intros f s p I. rewrite Lg. now apply IA in I. }
  { apply (Permutation_NoDup (l := zrange (zlen arcs))); [apply Permutation_sym, HF|apply NoDup_zrange]. }
  { intros i Hi. now apply (in_sched _ _ _ (HF _)). }
  { unfold zlen. now rewrite repeat_length. }
  { intros t Ht. rewrite Ldeg. pose proof (gdest_range fs SO DO) as G. rewrite Forall_forall in G. apply G. exact Ht. }
  rewrite F1. cbn [fst snd].
  assert (Lk : zlen kp = zlen arcs) by (rewrite F3; unfold zlen; now rewrite repeat_length).
  (* counting *)
  assert (CT : forall t, count (fun i => match rd arcs i with Some (f, s, p) => negb (at0 dests p =? s) && (at0 dests p =? t) | None => false end) (ord (zlen arcs)) =
               degP P t - degP P' t).
  { intros t. rewrite (count_perm _ _ (zrange (zlen arcs))) by apply HF.
    transitivity (count (fun q => nl q && (dstq q =? t)) (map snd arcs)).
    - rewrite count_map. rewrite <- (count_index (fun x => nl (snd x) && (dstq (snd x) =? t)) arcs). apply count_ext. intros i _.
      destruct (rd arcs i) as [[[f s] p]|] eqn:Ei; auto. cbn [snd]. destruct (IA f s p (rd_In _ _ _ Ei)) as (_ & E). unfold nl. rewrite E. reflexivity.
    - unfold arcs, AR. rewrite b_arcs_pos, count_filter. unfold degP.
      rewrite (count_split (fun q => nl q && (dstq q =? t) && negb (P (srcq q))) (fun q => B (srcq q))).
      rewrite (count_ext (fun x => nl x && (dstq x =? t) && negb (P (srcq x)) && B (srcq x)) (fun x => nl x && (dstq x =? t) && B (srcq x))).
      + rewrite (count_ext (fun x => nl x && (dstq x =? t) && negb (P (srcq x)) && negb (B (srcq x))) (fun q => nl q && (dstq q =? t) && negb (P' (srcq q)))); [lia|].
        intros q _. unfold P'. now rewrite negb_orb, andb_assoc.
      + intros q _. destruct (B (srcq q)) eqn:Eb; [rewrite (HB _ Eb)|]; cbn [negb]; now rewrite ?andb_true_r, ?andb_false_r. }
  assert (ED : deg' = map (degP P') (zrange Sn)).
  { apply list_ext_rd; [rewrite F2, !zlen_map; auto|]. intros t Ht. rewrite F2, Ldeg in Ht.
    rewrite (F4 t (degP P t)) by (rewrite rd_map, rd_zrange by lia; auto). rewrite rd_map, rd_zrange by lia. cbn. f_equal. rewrite CT. lia. }
  rewrite ED.
  (* released states *)
  assert (CF : forall t, 0 <= t < Sn -> count (Z.eqb t) (map fst (somes kp)) = b2z (nextB P P' t)).
  { intros t Ht. rewrite count_somes, <- count_index, Lk. rewrite <- (count_perm _ (ord (zlen arcs))) by apply HF.
    rewrite (F7 t (degP P t)) by (rewrite rd_map, rd_zrange by lia; auto). rewrite CT. unfold nextB. f_equal. f_equal. f_equal. lia. }
  destruct (regroup AR kp Lk) as (KP & EK & LK). set (NW := map somes KP). set (NR := map (map fst) NW).
  assert (EN : somes kp = concat NW) by (rewrite <- EK; apply somes_concat).
  assert (ER : map fst (somes kp) = concat NR) by (rewrite EN; unfold NR; now rewrite concat_map).
  destruct (map_zlen_rd AR KP LK) as (LK1 & LK2 & LK3 & LK4).
  assert (LA : zlen AR = zlen fs) by (unfold AR, b_arcs; rewrite zlen_imap; apply zlen_rows_of).
  assert (LN : zlen NR = zlen fs) by (unfold NR, NW; rewrite !zlen_map; lia).
  assert (IW : forall k l t f, rd NW k = Some l -> In (t, f) l -> f = k /\ exists f0, rd fs k = Some f0 /\ 0 <= t - off1 fs k < zlen f0).
  { intros k l t f Hk I. unfold NW in Hk. rewrite rd_map in Hk. destruct (rd KP k) as [kl|] eqn:Ek; [|discriminate]. cbn in Hk. injection Hk as <-.
    apply in_somes in I. apply In_rd in I as (j & Bj & Ej). destruct (rd_concat_off KP k kl j _ Ek Ej) as (Q & _). rewrite EK in Q.
    assert (Bk : 0 <= k < zlen AR) by (rewrite <- LK1; now apply rd_Some_bound in Ek). destruct (rd_in_bound AR k Bk) as (al & Ea).
    assert (Bj' : 0 <= j < zlen al) by (rewrite <- (LK4 k al kl Ea Ek); auto). destruct (rd_in_bound al j Bj') as (x & Ex).
    destruct (rd_concat_off AR k al j x Ea Ex) as (Q' & _). fold arcs in Q'. rewrite LK3 in Q.
    destruct (in_b_arcs B k al x Ea (rd_In _ _ _ Ex)) as (f0 & s & q & -> & Hf & _ & _ & _ & _ & Bd).
    destruct (F6 (off1 AR k + j)) as [E|E].
    - apply (in_sched _ _ _ (HF _)). now apply rd_Some_bound in Q'.
    - congruence.
    - rewrite E in Q. injection Q as <- <-. rewrite Q'. split; auto. exists f0. split; auto. }
  assert (RI : map snd (somes kp) = ids_of NW).
  { rewrite EN. apply rows_carry_ids. intros r l [t f] Hr I. cbn. now apply (IW r l t f Hr I). }
  assert (LNW : map zlen NR = map zlen NW) by (unfold NR; rewrite map_map; apply map_ext; intros; apply zlen_map).
  rewrite (ids_of_zlen NR NW) in RI by auto.
  assert (IR : forall k l f0 t, rd NR k = Some l -> rd fs k = Some f0 -> In t l <-> 0 <= t - off1 fs k < zlen f0 /\ nextB P P' t = true).
  { intros k l f0 t Hk Hf. assert (T1 : forall k l f0 t, rd NR k = Some l -> rd fs k = Some f0 -> In t l -> 0 <= t - off1 fs k < zlen f0).
    { clear - IW. intros k l f0 t Hk Hf I. unfold NR in Hk. rewrite rd_map in Hk. destruct (rd NW k) as [wl|] eqn:Ew; [|discriminate]. cbn in Hk. injection Hk as <-.
      apply in_map_iff in I as ([t' f] & <- & I). destruct (IW k wl t' f Ew I) as (_ & f1 & Hf1 & Bd). cbn. congruence. }
    split.
    - intros I. pose proof (T1 k l f0 t Hk Hf I) as Bd. split; auto.
      assert (In t (concat NR)) by (apply in_concat; exists l; split; auto; eapply rd_In; eauto). rewrite <- ER in H. apply count_in in H.
      pose proof (state_range fs k f0 (t - off1 fs k) Hf Bd) as SR. replace (off1 fs k + (t - off1 fs k)) with t in SR by lia.
      rewrite CF in H by auto. destruct (nextB P P' t); auto; cbn in H; lia.
    - intros (Bd & HN). pose proof (state_range fs k f0 (t - off1 fs k) Hf Bd) as SR. replace (off1 fs k + (t - off1 fs k)) with t in SR by lia.
      assert (I : In t (map fst (somes kp))) by (apply count_in; rewrite CF, HN by auto; cbn; lia). rewrite ER in I.
      apply in_concat in I as (l' & Hl' & I). apply In_rd in Hl' as (k' & Bk' & Hk'). rewrite LN in Bk'.
      destruct (rd_in_bound fs k' Bk') as (f' & Hf'). pose proof (T1 k' l' f' t Hk' Hf' I) as Bd'.
      destruct (row_unique fs k f0 (t - off1 fs k) k' f' (t - off1 fs k') Hf Hf' Bd Bd' ltac:(lia)) as (<- & _). congruence. }
  assert (NDR : NoDup (concat NR)).
  { rewrite <- ER. apply count_nodup. intros t. destruct (Z_lt_le_dec 0 (count (Z.eqb t) (map fst (somes kp)))) as [C|C]; [|lia].
    apply count_in in C. pose proof C as C'. rewrite ER in C'. apply in_concat in C' as (l' & Hl' & I). apply In_rd in Hl' as (k' & Bk' & Hk'). rewrite LN in Bk'.
    destruct (rd_in_bound fs k' Bk') as (f' & Hf'). pose proof (proj1 (IR k' l' f' t Hk' Hf') I) as (Bd' & HN).
    pose proof (state_range fs k' f' (t - off1 fs k') Hf' Bd') as SR. replace (off1 fs k' + (t - off1 fs k')) with t in SR by lia.
    rewrite CF, HN by auto. cbn. lia. }
  assert (LS : zlen (map is_some kp) = zlen arcs) by (rewrite zlen_map; lia).
  rewrite new2old_kept by (rewrite LS; apply HF).
  assert (LE : zlen (kept_from 0 (map is_some kp)) = zlen (concat NR)).
  { pose proof (somes_gather kp) as G. apply mapM_length in G. rewrite <- ER. rewrite zlen_map. unfold zlen. lia. }
  rewrite LE.
  assert (IC : forall t, 0 <= t < Sn -> In t (concat NR) <-> nextB P P' t = true).
  { intros t Ht. rewrite <- ER, count_in, CF by auto. destruct (nextB P P' t); cbn; split; auto; try lia; discriminate. }
  destruct (zlen (concat NR) =? 0) eqn:E0.
  - assert (concat NR = []) by (apply zlen_0_nil; lia).
    assert (X : existsb (nextB P P') (zrange Sn) = false).
    { destruct (existsb (nextB P P') (zrange Sn)) eqn:Ex; auto. apply existsb_exists in Ex as (t & Ht & HN). apply in_zrange in Ht. apply IC in HN; auto.
      rewrite H in HN. destruct HN. }
    rewrite X. reflexivity.
  - assert (X : existsb (nextB P P') (zrange Sn) = true).
    { destruct (concat NR) as [|t tl] eqn:Ec; [change (zlen (@nil Z)) with 0 in E0; discriminate|].
      assert (I : In t (concat NR)) by (rewrite Ec; now left). apply existsb_exists. exists t.
      pose proof I as I'. apply in_concat in I' as (l' & Hl' & I'). apply In_rd in Hl' as (k' & Bk' & Hk'). rewrite LN in Bk'.
      destruct (rd_in_bound fs k' Bk') as (f' & Hf'). pose proof (proj1 (IR k' l' f' t Hk' Hf') I') as (Bd' & HN). split; auto. apply in_zrange.
      pose proof (state_range fs k' f' (t - off1 fs k') Hf' Bd') as SR. replace (off1 fs k' + (t - off1 fs k')) with t in SR by lia. auto. }
    rewrite X. rewrite somes_gather, RI, ER. rewrite <- LN at 1. rewrite splits_of_row_ids.
    destruct (C08_sort_sublists Z Z.ltb) with (x := NR) as (outs & S1 & S2 & S3).
    { intros; lia. } { intros; lia. }
    rewrite S1. cbn [fst].
    assert (EO : map fst outs = rows_of (nextB P P')).
    { apply list_ext_rd; [rewrite zlen_map, zlen_rows_of; lia|]. intros k Hk. rewrite zlen_map, S2, LN in Hk. destruct (rd_in_bound fs k Hk) as (f & Hf).
      destruct (rd_in_bound NR k ltac:(lia)) as (row & Hr). destruct (S3 k row Hr) as (vals & order & O1 & _ & _ & O4 & _ & O6).
      rewrite rd_map, O1. cbn [option_map fst]. rewrite (rd_rows_of _ k f Hf). f_equal. apply sorted_unique.
      - apply sorted_strict; auto. apply (Permutation_NoDup O4). destruct (in_split _ _ (rd_In _ _ _ Hr)) as (l1 & l2 & El). rewrite El, concat_app in NDR. cbn [concat] in NDR.
        apply NoDup_parts in NDR as (_ & NDR). now apply NoDup_parts in NDR.
      - apply sorted_filter. rewrite (map_ext (fun i => off1 fs k + i) (fun i => i + off1 fs k)) by (intros; lia). apply sorted_map_shift, sorted_zrange.
      - intros t. rewrite filter_In, in_map_iff. split.
        + intros I. apply (Permutation_in _ (Permutation_sym O4)) in I. apply (IR k row f t Hr Hf) in I as (Bd & HN). split; auto.
          exists (t - off1 fs k). split; [lia|]. now apply in_zrange.
        + intros ((i & <- & Hi) & HN). apply in_zrange in Hi. apply (Permutation_in _ O4). apply (IR k row f _ Hr Hf). split; auto. lia. }
    rewrite EO. f_equal. f_equal. f_equal. unfold batch_of.
    assert (LL : map zlen NR = map zlen (rows_of (nextB P P'))).
    { rewrite <- EO. apply list_ext_rd; [rewrite !zlen_map; lia|]. intros k Hk. rewrite zlen_map, LN in Hk. rewrite !rd_map.
      destruct (rd_in_bound NR k ltac:(lia)) as (row & Hr). destruct (S3 k row Hr) as (vals & order & O1 & _ & _ & O4 & _ & O6).
      rewrite Hr, O1. cbn. f_equal. unfold zlen. now rewrite (Permutation_length O4). }
    destruct (map_zlen_rd _ _ LL) as (_ & -> & _). now rewrite (ids_of_zlen _ _ LL).
Qed.

(** ** The loop *)
Fixpoint Pn (i : nat) (t : Z) : bool := match i with O => false | Datatypes.S i => degP (Pn i) t =? 0 end.
Definition Bn (i : nat) (t : Z) : bool := Pn (Datatypes.S i) t && negb (Pn i t).

Lemma degP_nonneg P t : 0 <= degP P t.
Proof. unfold degP. pose proof (count_nonneg (fun q => nl q && (dstq q =? t) && negb (P (srcq q))) (zrange An)). pose proof (count_nonneg (fun k => fin_of k t) (zrange (zlen fs))). lia. Qed.
Lemma degP_mono P P' t : (forall s, P s = true -> P' s = true) -> degP P' t <= degP P t.
Proof.
  intros H. unfold degP. enough (count (fun q => nl q && (dstq q =? t) && negb (P' (srcq q))) (zrange An) <= count (fun q => nl q && (dstq q =? t) && negb (P (srcq q))) (zrange An)) by lia.
  apply count_mono_le. intros q _. specialize (H (srcq q)). destruct (P (srcq q)); [rewrite H by auto; rewrite andb_false_r; discriminate|].
  cbn [negb]. rewrite andb_true_r. intros X. apply andb_true_iff in X. tauto.
Qed.
Lemma degP_ext P P' t : (forall s, P s = P' s) -> degP P t = degP P' t.
Proof. intros H. unfold degP. f_equal. apply count_ext. intros q _. now rewrite H. Qed.
Lemma Pn_mono i : forall t, Pn i t = true -> Pn (Datatypes.S i) t = true.
Proof.
  induction i as [|i IH]; intros t H; [discriminate|]. cbn [Pn] in H |- *. pose proof (degP_nonneg (Pn (Datatypes.S i)) t).
  pose proof (degP_mono (Pn i) (Pn (Datatypes.S i)) t IH). cbn [Pn] in *. lia.
Qed.
Lemma Pn_mono_le i j t : (i <= j)%nat -> Pn i t = true -> Pn j t = true.
Proof. induction 1; auto. intros X. apply Pn_mono. auto. Qed.
Lemma Pn_step i s : (Pn i s || Bn i s) = Pn (Datatypes.S i) s.
Proof. unfold Bn. pose proof (Pn_mono i s). destruct (Pn i s); [rewrite H by auto; auto|]. cbn [orb negb]. apply andb_true_r. Qed.

Lemma step_ok ord i : fair ord ->
  ts_next ord v dests (map (degP (Pn i)) (zrange Sn)) (batch_of (rows_of (Bn i))) =
  Some (map (degP (Pn (Datatypes.S i))) (zrange Sn), if existsb (Bn (Datatypes.S i)) (zrange Sn) then Some (batch_of (rows_of (Bn (Datatypes.S i)))) else None).
Proof.
  intros HF. pose proof (next_ok ord (Pn i) (Bn i) HF) as N. cbv zeta in N. rewrite N.
  2: { intros s. unfold Bn. intros X. apply andb_true_iff in X as (_ & X). now apply negb_true_iff in X. }
  assert (E1 : forall t, degP (fun s => Pn i s || Bn i s) t = degP (Pn (Datatypes.S i)) t) by (intros t; apply degP_ext, Pn_step).
  assert (E2 : forall t, nextB (Pn i) (fun s => Pn i s || Bn i s) t = Bn (Datatypes.S i) t).
  { intros t. unfold nextB. rewrite E1. unfold Bn. cbn [Pn]. pose proof (degP_nonneg (Pn i) t). pose proof (degP_nonneg (Pn (Datatypes.S i)) t).
    cbn [Pn] in *. lia. }
  f_equal. f_equal; [apply map_ext; auto|].
  assert (E3 : existsb (nextB (Pn i) (fun s => Pn i s || Bn i s)) (zrange Sn) = existsb (Bn (Datatypes.S i)) (zrange Sn)).
  { generalize (zrange Sn). clear - E2. intros l. induction l; cbn; auto. rewrite E2. congruence. }
  rewrite E3. destruct (existsb (Bn (Datatypes.S i)) (zrange Sn)); auto. f_equal. f_equal. apply rows_of_ext. auto.
Qed.

Lemma loop_ok ords : Forall fair ords -> forall i bs, ts_loop ords v dests (map (degP (Pn i)) (zrange Sn)) (batch_of (rows_of (Bn i))) = Some bs ->
  exists m, bs = map (fun j => batch_of (rows_of (Bn j))) (seq i (Datatypes.S m)) /\ existsb (Bn (i + Datatypes.S m)) (zrange Sn) = false /\
    forall j, (i < j <= i + m)%nat -> existsb (Bn j) (zrange Sn) = true.
Proof.
  induction 1 as [|ord ords HF _ IH]; intros i bs H; cbn [ts_loop] in H; [discriminate|]. rewrite step_ok in H by auto. cbn [snd fst] in H.
  destruct (existsb (Bn (Datatypes.S i)) (zrange Sn)) eqn:E.
  - destruct (ts_loop ords v dests _ _) as [bs'|] eqn:EL; [|discriminate]. injection H as <-. destruct (IH _ _ EL) as (m & -> & E2 & E3).
    exists (Datatypes.S m). split; [reflexivity|]. split; [now replace (i + Datatypes.S (Datatypes.S m))%nat with (Datatypes.S i + Datatypes.S m)%nat by lia|].
    intros j Hj. destruct (Nat.eq_dec j (Datatypes.S i)) as [->|]; auto. apply E3. lia.
  - injection H as <-. exists O. split; [reflexivity|]. split; [now replace (i + 1)%nat with (Datatypes.S i) by lia|]. intros; lia.
Qed.
Lemma loop_ends ords : Forall fair ords -> forall i, Sn - count (Pn (Datatypes.S i)) (zrange Sn) < zlen ords ->
  ts_loop ords v dests (map (degP (Pn i)) (zrange Sn)) (batch_of (rows_of (Bn i))) <> None.
Proof.
  pose proof Sn0 as HS.
  assert (CB : forall P, count P (zrange Sn) <= Sn).
  { intros P. rewrite <- (zlen_zrange Sn) at 2 by auto. unfold count. clear. induction (zrange Sn) as [|x l IH]; cbn [filter]; [reflexivity|]. destruct (P x); rewrite !zlen_cons; lia. }
  induction 1 as [|ord ords HF _ IH]; intros i H; cbn [ts_loop].
  - change (zlen (@nil order)) with 0 in H. specialize (CB (Pn (Datatypes.S i))). lia.
  - rewrite step_ok by auto. cbn [snd fst]. rewrite zlen_cons in H. destruct (existsb (Bn (Datatypes.S i)) (zrange Sn)) eqn:E; [|discriminate].
    specialize (IH (Datatypes.S i)). destruct (ts_loop ords v dests _ _); [discriminate|]. exfalso. apply IH; auto.
    rewrite (count_split (Pn (Datatypes.S (Datatypes.S i))) (Pn (Datatypes.S i))).
    enough (count (Pn (Datatypes.S i)) (zrange Sn) <= count (fun x => Pn (Datatypes.S (Datatypes.S i)) x && Pn (Datatypes.S i) x) (zrange Sn) /\
            0 < count (Bn (Datatypes.S i)) (zrange Sn)) by (unfold Bn in H0; lia). split.
    + apply count_mono_le. intros x _ Hx. rewrite Hx, (Pn_mono _ _ Hx). reflexivity.
    + apply existsb_exists in E as (t & Ht & HB). pose proof (count_nonneg (Bn (Datatypes.S i)) (zrange Sn)).
      destruct (Z.eq_dec (count (Bn (Datatypes.S i)) (zrange Sn)) 0) as [C|]; [|lia]. rewrite count_zero in C. rewrite (C t Ht) in HB. discriminate.
Qed.

(** ** The final batch *)
Definition fin_rows : list (list Z) := imap (fun k f => if 0 <? zlen f then [off1 fs k + zlen f - 1] else []) 0 fs.
Lemma rd_fin_rows k f : rd fs k = Some f -> rd fin_rows k = Some (if 0 <? zlen f then [off1 fs k + zlen f - 1] else []).
Proof. intros H. unfold fin_rows. rewrite rd_imap, H. cbn. now rewrite Z.add_0_l. Qed.
Lemma final_ok : ts_final (splits_of fs) = Some (batch_of fin_rows).
Proof.
  unfold ts_final. rewrite zlen_splits_of. replace (zlen fs + 1 - 1) with (zlen fs) by lia.
  assert (E1 : fsa_nonempty (splits_of fs) = map zlen fin_rows).
  { rewrite fsa_nonempty_eq. apply list_ext_rd; [unfold fin_rows; now rewrite !zlen_map, zlen_imap|]. intros k _. rewrite !rd_map.
    destruct (rd fs k) as [f|] eqn:E; cbn.
    - rewrite (rd_fin_rows k f E). cbn. f_equal. destruct (0 <? zlen f); reflexivity.
    - unfold fin_rows. rewrite rd_imap, E. reflexivity. }
  rewrite E1. change (exsum (map zlen fin_rows)) with (splits_of fin_rows).
  assert (LF : zlen fin_rows = zlen fs) by (unfold fin_rows; apply zlen_imap). rewrite <- LF at 1.
  rewrite RaggedCatProofs.rd_splits_last, row_ids_of_splits.
  assert (E2 : mapM (fun i => e <- rd (splits_of fs) (i + 1);; Some (e - 1)) (ids_of fin_rows) = Some (concat fin_rows)).
  { apply mapM_by_rd; [unfold ids_of; now rewrite zlen_ids_from|]. intros p k Hp.
    assert (Bp : 0 <= p < zlen (concat fin_rows)) by (apply rd_Some_bound in Hp; unfold ids_of in Hp; now rewrite zlen_ids_from in Hp).
    destruct (rd_in_bound _ p Bp) as (t & Ht). destruct (rd_concat_inv _ _ _ Ht) as (k' & l & j & R1 & R2 & -> & R4).
    assert (k' = k) by congruence. subst k'. rewrite Ht.
    assert (Bk : 0 <= k < zlen fs) by (rewrite <- LF; now apply rd_Some_bound in R1). destruct (rd_in_bound fs k Bk) as (f & Hf).
    rewrite (rd_fin_rows k f Hf) in R1. injection R1 as <-. rewrite rd_splits_off by lia. rewrite (off1_next fs k f Hf).
    destruct (0 <? zlen f); [|rewrite rd_nil in R2; discriminate]. rewrite rd_cons in R2. destruct (j =? 0); [|rewrite rd_nil in R2; discriminate]. now injection R2 as <-. }
  now rewrite E2.
Qed.
End T.
