(** * Proofs about the tensor form of FsaVecs *)
From Coq Require Import ZArith List Lia Bool Permutation Sorting.Sorted.
From Coq Require Import ZifyBool.
From Verif Require Import Base RaggedModel RaggedSpec RaggedProofs FsaSpec FsaLemmas RaggedOpsProofs OpsModel PropsModel PropsSpec PropsProofs PropsProps LinearProofs SerialModel SerialProofs.
Import ListNotations.
Open Scope Z_scope.

Lemma ints_arcs_ok arcs : ints_arcs (concat (map arc_ints arcs)) = Some arcs.
Proof. induction arcs as [|[s d l x] arcs IH]; cbn; auto. cbn in IH. now rewrite IH. Qed.
Lemma ints_arcs_inv n : forall t arcs, (length t <= n)%nat -> ints_arcs t = Some arcs -> concat (map arc_ints arcs) = t.
Proof.
  induction n as [|n IH]; intros t arcs Hn.
  - destruct t; [|cbn in Hn; lia]. cbn. intros [= <-]. reflexivity.
  - destruct t as [|s [|d [|l [|x r]]]]; cbn [ints_arcs]; try discriminate.
    + intros [= <-]. reflexivity.
    + destruct (ints_arcs r) as [q|] eqn:E; [|discriminate]. intros [= <-]. cbn. do 4 f_equal. apply IH; auto. cbn in Hn. lia.
Qed.
Lemma zlen_arc_ints arcs : zlen (concat (map arc_ints arcs)) = 4 * zlen arcs.
Proof. induction arcs as [|a arcs IH]; [reflexivity|]. cbn [map concat]. rewrite zlen_app, IH, zlen_cons. change (zlen (arc_ints a)) with 4. lia. Qed.

(** the row ids of the states of the arcs *)
Lemma make_ids2 fs : Forall src_ok fs ->
  mapM (fun i => f <- rd (ids_of (map (@concat arc) fs)) i;; s0x <- rd (splits_of fs) f;; a <- rd (concat (concat fs)) i;; Some (s0x + src a))
    (zrange (zlen (concat (concat fs)))) = Some (ids_of (concat fs)).
Proof.
  intros H. apply RaggedOpsProofs.mapM_zrange; [apply zlen_nonneg|unfold ids_of; now rewrite zlen_ids_from|].
  intros i Hi. destruct (rd_in_bound (concat (concat fs)) i Hi) as (a & Ha).
  destruct (rd_concat3 fs i a Ha) as (k & f & r & st & j & K1 & K2 & K3 & K4 & K5 & K6).
  assert (Hs : src a = r).
  { rewrite Forall_forall in H. apply (H f (rd_In _ _ _ K1) r st a); auto. eapply rd_In; eauto. }
  destruct (rd_concat_off f r st j a K2 K3) as (Q1 & _).
  destruct (rd_concat_off (map (@concat arc) fs) k (concat f) (off1 f r + j) a) as (_ & Q2); auto.
  { rewrite rd_map, K1. reflexivity. }
  replace (off1 (map (concat (A:=arc)) fs) k + (off1 f r + j)) with i in Q2 by lia. rewrite Q2, K4.
  pose proof (rd_Some_bound _ _ _ K1). rewrite rd_splits_off by lia. rewrite Ha. now rewrite Hs.
Qed.

Lemma keyed_ids_pos {A} (ll : list (list A)) i : 0 <= i < zlen (concat ll) -> exists r, rd (ids_of ll) i = Some r /\
  0 <= r < zlen ll /\ off1 ll r <= i < off1 ll (r + 1).
Proof.
  intros Hi. destruct (rd_in_bound _ _ Hi) as (a & Ha). destruct (rd_concat_inv _ _ _ Ha) as (r & l & j & K1 & K2 & K3 & K4).
  exists r. split; auto. pose proof (rd_Some_bound _ _ _ K1). split; auto. pose proof (rd_Some_bound _ _ _ K2).
  rewrite (off1_next ll r l) by auto. lia.
Qed.
Lemma ids_sorted {A} (ll : list (list A)) i j r r' : rd (ids_of ll) i = Some r -> rd (ids_of ll) j = Some r' -> i <= j -> r <= r'.
Proof.
  intros Hi Hj Hij. assert (L : zlen (ids_of ll) = zlen (concat ll)) by (unfold ids_of; now rewrite zlen_ids_from).
  pose proof (rd_Some_bound _ _ _ Hi). pose proof (rd_Some_bound _ _ _ Hj).
  destruct (keyed_ids_pos ll i) as (x & X1 & X2 & X3); [lia|]. destruct (keyed_ids_pos ll j) as (y & Y1 & Y2 & Y3); [lia|].
  assert (x = r) by congruence. assert (y = r') by congruence. subst.
  destruct (Z_le_gt_dec r r'); auto. pose proof (off1_mono ll (r' + 1) r ltac:(lia)). lia.
Qed.

Lemma validate_both_ok {A} (ll : list (list A)) : validate_row_splits_and_ids (splits_of ll) (ids_of ll) = Some true.
Proof.
  unfold validate_row_splits_and_ids. rewrite zlen_splits_of. replace (zlen ll + 1 - 1) with (zlen ll) by lia.
  assert (L : zlen (ids_of ll) = zlen (concat ll)) by (unfold ids_of; now rewrite zlen_ids_from). rewrite L.
  pose proof (zlen_nonneg ll). pose proof (zlen_nonneg (concat ll)).
  assert (E1 : (zlen ll <? 0) || (zlen ll =? 0) && (0 <? zlen (concat ll)) = false).
  { destruct ll as [|l ll']; [reflexivity|]. rewrite zlen_cons in *. pose proof (zlen_nonneg ll'). lia. }
  rewrite E1. rewrite rd_splits_off by lia. rewrite off1_0.
  assert (E2 : exists i0, (if 0 <? zlen (concat ll) then rd (ids_of ll) 0 else Some 0) = Some i0 /\ 0 <= i0).
  { destruct (0 <? zlen (concat ll)) eqn:Z0; [|exists 0; split; auto; lia]. destruct (keyed_ids_pos ll 0) as (r & R1 & R2 & _); [lia|]. exists r. split; auto; lia. }
  destruct E2 as (i0 & -> & P0). change (0 =? 0) with true. cbn [negb orb]. replace (i0 <? 0) with false by lia.
  rewrite rd_splits_off by lia. rewrite off1_all, Z.eqb_refl. cbn [negb].
  rewrite (mapM_Some_map _ (fun _ => true)).
  - f_equal. apply forallb_forall. intros b Hb. apply in_map_iff in Hb. destruct Hb as (? & <- & _). reflexivity.
  - intros i Hi. apply in_zrange in Hi.
    assert (O1 : (if i <? zlen ll then a <- rd (splits_of ll) i;; b <- rd (splits_of ll) (i + 1);; Some (a <=? b) else Some true) = Some true).
    { destruct (i <? zlen ll) eqn:C; auto. rewrite !rd_splits_off by lia. pose proof (off1_mono ll i (i + 1) ltac:(lia)). f_equal. lia. }
    rewrite O1.
    assert (O2 : (if i <? zlen (concat ll) - 1 then a <- rd (ids_of ll) i;; b <- rd (ids_of ll) (i + 1);; Some (a <=? b) else Some true) = Some true).
    { destruct (i <? zlen (concat ll) - 1) eqn:C; auto. destruct (keyed_ids_pos ll i) as (r & R1 & _); [lia|]. destruct (keyed_ids_pos ll (i + 1)) as (r' & R1' & _); [lia|].
      rewrite R1, R1'. pose proof (ids_sorted ll i (i + 1) r r' R1 R1' ltac:(lia)). f_equal. lia. }
    rewrite O2. destruct (i <? zlen (concat ll)) eqn:C; auto.
    destruct (keyed_ids_pos ll i) as (r & R1 & R2 & R3); [lia|]. rewrite R1. replace ((r <? 0) || (zlen ll <=? r)) with false by lia.
    rewrite !rd_splits_off by lia. f_equal. cbn [andb]. lia.
Qed.

Lemma checked_ok {A} (ll : list (list A)) : row_ids_to_row_splits_checked (ids_of ll) (zlen ll) = Some (splits_of ll).
Proof.
  unfold row_ids_to_row_splits_checked. assert (L : zlen (ids_of ll) = zlen (concat ll)) by (unfold ids_of; now rewrite zlen_ids_from).
  pose proof (zlen_nonneg ll). pose proof (zlen_nonneg (concat ll)). replace (0 <=? zlen ll) with true by lia. rewrite L.
  assert (E : (zlen (concat ll) =? 0) || (0 <? zlen ll) = true).
  { destruct ll; [reflexivity|]. rewrite zlen_cons. pose proof (zlen_nonneg ll). lia. }
  rewrite E. destruct (0 <? zlen (concat ll)) eqn:Z0.
  - destruct (keyed_ids_pos ll (zlen (concat ll) - 1)) as (r & R1 & R2 & _); [lia|]. rewrite R1. replace (r <? zlen ll) with true by lia. apply splits_of_row_ids.
  - apply splits_of_row_ids.
Qed.

Lemma exsum_sorted sizes : Forall (fun x => 0 <= x) sizes -> StronglySorted Z.le (exsum sizes).
Proof.
  unfold exsum. assert (G : forall s acc, Forall (fun x => 0 <= x) s -> StronglySorted Z.le (exsum_from acc s) /\ Forall (fun x => acc <= x) (exsum_from acc s)).
  { clear. induction s as [|x s IH]; intros acc H; cbn.
    - split; repeat constructor; lia.
    - inversion H; subst. destruct (IH (acc + x)) as (I1 & I2); auto. split.
      + constructor; auto. eapply Forall_impl; [|exact I2]. cbn. lia.
      + constructor; [lia|]. eapply Forall_impl; [|exact I2]. cbn. lia. }
  apply G.
Qed.
Lemma sorted_exsum rs : rd rs 0 = Some 0 -> StronglySorted Z.le rs -> exists sizes, Forall (fun x => 0 <= x) sizes /\ rs = exsum sizes.
Proof.
  unfold exsum. destruct rs as [|x rs]; [now rewrite rd_nil|]. rewrite rd_cons_0. intros [= ->].
  assert (G : forall acc, StronglySorted Z.le (acc :: rs) -> exists sizes, Forall (fun x => 0 <= x) sizes /\ acc :: rs = exsum_from acc sizes).
  2:{ apply G. }
  induction rs as [|y rs IH]; intros acc H.
  - exists []. split; [constructor|reflexivity].
  - inversion H as [|? ? H1 H2]; subst. inversion H2 as [|? ? H3 H4]; subst. destruct (IH y H1) as (s & S1 & S2).
    exists (y - acc :: s). split; [constructor; auto; lia|]. cbn. replace (acc + (y - acc)) with y by lia. now rewrite S2.
Qed.
Lemma cut_sizes {A} sizes : Forall (fun x => 0 <= x) sizes -> forall l : list A, zsum sizes = zlen l -> exists ll, concat ll = l /\ map zlen ll = sizes.
Proof.
  induction 1 as [|x s Hx Hs IH]; intros l E.
  - exists []. split; auto. cbn in E. symmetry in E. apply zlen_0_nil in E. auto.
  - cbn in E. assert (0 <= zsum s) by (clear -Hs; induction Hs; cbn; lia).
    destruct (IH (skipn (Z.to_nat x) l)) as (ll & L1 & L2).
    { unfold zlen in *. rewrite skipn_length. lia. }
    exists (firstn (Z.to_nat x) l :: ll). cbn. rewrite L1, firstn_skipn, L2. split; auto. f_equal.
    unfold zlen in *. rewrite firstn_length. lia.
Qed.
Lemma ri2rs_sorted ids : forall cur i r, ri2rs_loop cur i ids = Some r -> StronglySorted Z.le ids /\ Forall (fun x => cur <= x) ids.
Proof.
  induction ids as [|x ids IH]; intros cur i r; cbn [ri2rs_loop]; [split; constructor|].
  destruct (cur <=? x) eqn:E; [|discriminate]. destruct (ri2rs_loop x (i + 1) ids) eqn:G; [|discriminate]. intros _.
  destruct (IH _ _ _ G) as (H1 & H2). split; constructor; auto; [lia|]. eapply Forall_impl; [|exact H2]. cbn. lia.
Qed.
Lemma row_splits_sorted ids n rs : row_ids_to_row_splits ids n = Some rs -> StronglySorted Z.le ids.
Proof.
  unfold row_ids_to_row_splits. destruct (zlen ids =? 0) eqn:E.
  - intros _. assert (ids = []) by (apply zlen_0_nil; lia). subst. constructor.
  - destruct (ri2rs_loop (-1) 0 ids) eqn:G; [|discriminate]. intros _. eapply ri2rs_sorted; eauto.
Qed.
