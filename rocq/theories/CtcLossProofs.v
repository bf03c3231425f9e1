(** * Proofs: the CTC loss of any decoding graph. *)
From Coq Require Import ZArith List Lia Lra Bool Reals.
From Coq Require Import ZifyBool ZifyNat.
From Verif Require Import Base RaggedModel RaggedSpec RaggedProofs RaggedOpsModel OpsModel FsaSpec FsaLemmas ConnectSpec PropsSpec LogReal MutualInfoProofs BatchModel ScoreModel ScoreSpec
  PathSums ScorePaths ScoreProps ShortestSpec IntersectSpec IntersectPaths IDenseModel IDenseSpec IDenseProps IPrunedCut NbestProps SufRadix DenseConvProps CtcLossModel CtcLossSpec.
From Verif Require ReplaceProps SufText SufStats.
Import ListNotations.
Open Scope Z_scope.

(** ** log-sums *)
Lemma sumf_map {A B} (g : B -> R) (h : A -> B) l : sumf g (map h l) = sumf (fun x => g (h x)) l.
Proof. unfold sumf. induction l as [|x l IH]; [reflexivity|]. cbn [map fold_right]. now rewrite IH. Qed.
Lemma sumf_ext_in {A} (g h : A -> R) l : (forall x, In x l -> g x = h x) -> sumf g l = sumf h l.
Proof. unfold sumf. induction l as [|x l IH]; intros H; [reflexivity|]. cbn [fold_right]. rewrite (H x) by now left. rewrite IH; [reflexivity|]. intros y Hy. apply H. now right. Qed.
Lemma sumf_exp_pos {A} (w : A -> R) x l : (0 < sumf (fun x => exp (w x)) (x :: l))%R.
Proof.
  assert (H : forall l, (0 <= sumf (fun x => exp (w x)) l)%R).
  { induction l0 as [|y l0 IH]; unfold sumf in *; cbn [fold_right]; [lra|]. pose proof (exp_pos (w y)). lra. }
  unfold sumf in *. cbn [fold_right]. pose proof (exp_pos (w x)). specialize (H l). lra.
Qed.
Lemma lneg_ssum {A} (w : A -> R) L : lneg (ssum true (map (fun x => Some (w x)) L)) = minus_log_sum w L.
Proof.
  destruct L as [|x L]; [reflexivity|]. unfold minus_log_sum. pose proof (sumf_exp_pos w x L) as P.
  assert (E : ssum true (map (fun x => Some (w x)) (x :: L)) = Some (ln (sumf (fun x => exp (w x)) (x :: L)))).
  { apply expo_inj. rewrite expo_ssum, sumf_map. cbn [expo]. rewrite exp_ln by exact P. reflexivity. }
  rewrite E. reflexivity.
Qed.
Lemma minus_log_sum_ext {A} (w w' : A -> R) L : (forall x, In x L -> w x = w' x) -> minus_log_sum w L = minus_log_sum w' L.
Proof.
  intros H. unfold minus_log_sum. destruct L as [|x L]; [reflexivity|]. do 2 f_equal. f_equal. apply sumf_ext_in. intros y Hy. now rewrite H.
Qed.
Lemma minus_log_sum_map {A B} (h : A -> B) (w : B -> R) L : minus_log_sum w (map h L) = minus_log_sum (fun x => w (h x)) L.
Proof. destruct L as [|x L]; [reflexivity|]. unfold minus_log_sum. cbn [map]. rewrite <- (sumf_map (fun y => exp (w y)) h (x :: L)). reflexivity. Qed.

Lemma off1_all {A} (ll : list (list A)) : off1 ll (zlen ll) = zlen (concat ll).
Proof. unfold off1, zlen. now rewrite Nat2Z.id, firstn_all. Qed.
Lemma last_split {A} (ll : list (list A)) : rd (splits_of ll) (zlen (splits_of ll) - 1) = Some (zlen (concat ll)).
Proof. rewrite zlen_splits_of. replace (zlen ll + 1 - 1) with (zlen ll) by lia. pose proof (zlen_nonneg ll). rewrite rd_splits_off, off1_all by lia. reflexivity. Qed.

Section Loss.
Variables (V : list nfsa) (auxs : list (list Z)) (logits : list (list (list Z))) (n : Z) (u dp : R) (beam : Z).
Hypothesis HI : loss_inputs V logits n.
Notation seqs := (map (segment_rows n) logits).

Lemma zlen_segment lg : zlen (segment_rows n lg) = zlen lg + 1.
Proof. unfold segment_rows. rewrite zlen_app, zlen_map. reflexivity. Qed.
Lemma inputs_ok : dense_inputs V seqs None (zrange (zlen V)) (n + 1) (n + 1).
Proof.
  destruct HI as (H1 & H2 & H3 & H4 & H5 & H6). split; [exact H1|]. split; [|split; [|split; [|split; [lia|split; [lia|]]]]].
  - intros f Hf. destruct (H4 f Hf) as ((V1 & V2 & V3) & X2 & X3). split; [exact V1|]. split; [exact X2|]. intros a Ha. specialize (X3 a Ha). destruct (V3 a Ha) as (D & L & _). lia.
  - intros s Hs. apply in_map_iff in Hs as (lg & <- & Hl). destruct (H5 lg Hl) as (L1 & L2 & _). rewrite zlen_segment. split; [lia|]. intros r Hr. unfold segment_rows in Hr. apply in_app_or in Hr as [Hr|[<-|[]]].
    + apply in_map_iff in Hr as (r' & <- & Hr'). rewrite Forall_forall in L2. rewrite zlen_cons, zlen_map, (L2 r' Hr'). lia.
    + rewrite zlen_cons. unfold zlen. rewrite repeat_length. lia.
  - intros i j s s' Hij Hi Hj. rewrite rd_map in Hi, Hj. destruct (rd logits i) as [lg|] eqn:E1; [|discriminate]. destruct (rd logits j) as [lg'|] eqn:E2; [|discriminate]. injection Hi as <-. injection Hj as <-. rewrite !zlen_segment. pose proof (H6 i j lg lg' Hij E1 E2). lia.
  - split; [rewrite zlen_map; lia|reflexivity].
Qed.
Lemma limits_ok s : In s seqs -> (zlen s + 1) * zlen (concat V) <= 15000000 /\ (zlen s + 1) * zlen (concat (concat V)) <= 1073741824.
Proof.
  intros Hs. apply in_map_iff in Hs as (lg & <- & Hl). rewrite zlen_segment. destruct HI as (_ & _ & _ & _ & H5 & _). destruct (H5 lg Hl) as (_ & _ & X). replace (zlen lg + 1 + 1) with (zlen lg + 2) by lia. exact X.
Qed.

Variables (gs : list nfsa) (mapa mapb : list Z).
Hypothesis HB : dense_batch V seqs (zrange (zlen V)) (n + 1) beam gs mapa mapb.

Notation am k := (fun i => at0 mapa (arcs_before gs k + i) - arcs_before V k).
Notation bm k := (fun i => at0 mapb (arcs_before gs k + i)).
Definition ftime (k j : Z) : Z := bm k j / (n + 1) - off1 seqs k.

Lemma before_off fs k : arcs_before fs k = off1 (map all_arcs fs) k.
Proof. unfold arcs_before, off1. now rewrite firstn_map. Qed.
Lemma at_k k f g : rd V k = Some f -> rd gs k = Some g -> exists lg,
  rd logits k = Some lg /\ is_dense_intersection f (segment_rows n lg) beam (concat (concat seqs)) (fun t l => (off1 seqs k + t) * (n + 1) + (l + 1)) g (am k) (bm k) /\
  well_formed g /\ p_topsorted_acyclic g.
Proof.
  intros Hf Hg. destruct HB as (_ & _ & _ & B). destruct (B k f Hf) as (j & rows & g' & J1 & J2 & J3 & J4 & _ & J5). rewrite Hg in J3. injection J3 as <-.
  rewrite rd_zrange in J1 by exact (rd_Some_bound _ _ _ Hf). injection J1 as <-. rewrite rd_map in J2. destruct (rd logits k) as [lg|] eqn:E; [|discriminate]. injection J2 as <-. exists lg. split; [reflexivity|]. split; [exact J4|]. exact J5.
Qed.
Lemma g_of k f : rd V k = Some f -> exists g, rd gs k = Some g.
Proof. intros Hf. apply rd_in_bound. destruct HB as (B & _). rewrite B. exact (rd_Some_bound _ _ _ Hf). Qed.
Lemma f_of k g : rd gs k = Some g -> exists f, rd V k = Some f.
Proof. intros Hg. apply rd_in_bound. destruct HB as (B & _). rewrite <- B. exact (rd_Some_bound _ _ _ Hg). Qed.
Hypothesis HA : map zlen auxs = map (fun f => zlen (all_arcs f)) V.
Lemma aux_of_k k f : rd V k = Some f -> exists aux, rd auxs k = Some aux /\ zlen aux = zlen (all_arcs f).
Proof.
  intros Hf. assert (E : rd (map zlen auxs) k = Some (zlen (all_arcs f))) by (rewrite HA, rd_map, Hf; reflexivity). rewrite rd_map in E. destruct (rd auxs k) as [aux|]; [|discriminate]. injection E as E. eauto.
Qed.
Lemma off_aux k : off1 auxs k = arcs_before V k.
Proof.
  rewrite before_off. unfold off1. rewrite <- !zsum_zlen_concat, <- !firstn_map, HA, map_map. reflexivity.
Qed.

(** What is known of an arc of the lattice *)
Lemma arc_facts k f g lg j a : rd V k = Some f -> rd gs k = Some g -> rd logits k = Some lg -> rd (all_arcs g) j = Some a ->
  0 <= am k j < zlen (all_arcs f) /\ 0 <= ftime k j < zlen lg + 1 /\ bm k j = (off1 seqs k + ftime k j) * (n + 1) + (lab a + 1) /\ 0 <= lab a + 1 < n + 1.
Proof.
  intros Hf Hg Hl Ha. destruct (at_k k f g Hf Hg) as (lg' & Hl' & (D1 & D2 & D3 & D4 & D5 & D6) & _). rewrite Hl in Hl'. injection Hl' as <-.
  destruct (D5 j a Ha) as (b & x & B1 & B2 & B3 & B4). pose proof (rd_Some_bound _ _ _ B1) as Bb.
  destruct (D3 j (rd_Some_bound _ _ _ Ha)) as (q & Q1 & Q2 & Q3). apply In_rd in Q2 as (t & Ht & Et). destruct (D1 q Q1) as ((_ & L) & _ & _ & T4). rewrite zlen_map, zlen_segment in L. specialize (T4 t j a Et Ha). cbv beta in T4.
  assert (LB : 0 <= lab a + 1 < n + 1).
  { rewrite B3. destruct HI as (_ & _ & _ & H4 & _). destruct (H4 f (rd_In _ _ _ Hf)) as ((_ & _ & V3) & _ & X3). specialize (X3 b (rd_In _ _ _ B1)). destruct (V3 b (rd_In _ _ _ B1)) as (_ & X & _). lia. }
  assert (FT : ftime k j = t).
  { unfold ftime. rewrite T4. rewrite (Z.add_comm _ (lab a + 1)), Z.div_add by lia. rewrite Z.div_small by lia. lia. }
  rewrite FT. split; [exact Bb|]. split; [lia|]. split; [exact T4|exact LB].
Qed.
Lemma time_on_path k f g q t j : rd V k = Some f -> rd gs k = Some g -> successful g q -> rd q t = Some j -> ftime k j = t.
Proof.
  intros Hf Hg Hq Hj. destruct (at_k k f g Hf Hg) as (lg & Hl & (D1 & _) & _). destruct (D1 q Hq) as (_ & _ & _ & T4).
  assert (Bj : 0 <= j < zlen (all_arcs g)) by (destruct Hq as (_ & Hq); exact (apath_arcs g _ _ _ j Hq (rd_In _ _ _ Hj))). destruct (rd_in_bound _ _ Bj) as (a & Ha).
  specialize (T4 t j a Hj Ha). cbv beta in T4. destruct (arc_facts k f g lg j a Hf Hg Hl Ha) as (_ & _ & _ & LB).
  unfold ftime. rewrite T4. rewrite (Z.add_comm _ (lab a + 1)), Z.div_add by lia. rewrite Z.div_small by lia. lia.
Qed.

(** The place of an arc in the batch *)
Lemma arc_split i a : rd (concat (concat gs)) i = Some a -> exists k f g lg aux j,
  rd V k = Some f /\ rd gs k = Some g /\ rd logits k = Some lg /\ rd auxs k = Some aux /\ zlen aux = zlen (all_arcs f) /\ rd (all_arcs g) j = Some a /\ i = arcs_before gs k + j /\
  exists s, rd (ids_of (concat gs)) i = Some s /\ rd (ids_of gs) s = Some k.
Proof.
  intros H. destruct (rd_concat3 gs i a H) as (k & g & r & st & j & H1 & H2 & H3 & H4 & H5 & H6). destruct (f_of k g H1) as (f & Hf). destruct (at_k k f g Hf H1) as (lg & Hl & _). destruct (aux_of_k k f Hf) as (aux & A1 & A2).
  exists k, f, g, lg, aux, (off1 g r + j). do 5 (split; [assumption|]). split; [exact (proj1 (rd_concat_off g r st j a H2 H3))|]. split; [rewrite before_off; change (map all_arcs gs) with (map (@concat arc) gs); lia|]. exists (off1 gs k + r). auto.
Qed.
Lemma arc_place k g j a : rd gs k = Some g -> rd (all_arcs g) j = Some a -> rd (concat (concat gs)) (arcs_before gs k + j) = Some a.
Proof.
  intros Hg Ha. rewrite before_off, <- concat_map_concat. refine (proj1 (rd_concat_off (map (@concat arc) gs) k (all_arcs g) j a _ Ha)). rewrite rd_map, Hg. reflexivity.
Qed.
Lemma place_inj k g j a k' g' j' a' : rd gs k = Some g -> rd (all_arcs g) j = Some a -> rd gs k' = Some g' -> rd (all_arcs g') j' = Some a' ->
  arcs_before gs k + j = arcs_before gs k' + j' -> k' = k /\ j' = j.
Proof.
  intros F2 F4 F2' F4' E0. assert (R : rd (map all_arcs gs) k = Some (all_arcs g)) by (rewrite rd_map, F2; reflexivity). assert (R' : rd (map all_arcs gs) k' = Some (all_arcs g')) by (rewrite rd_map, F2'; reflexivity).
  pose proof (proj2 (rd_concat_off (map all_arcs gs) k _ j a R F4)) as E. pose proof (proj2 (rd_concat_off (map all_arcs gs) k' _ j' a' R' F4')) as E'. rewrite <- before_off in E, E'. rewrite <- E0, E in E'. injection E' as <-. split; [reflexivity|lia].
Qed.

Notation NA := (zlen (concat (concat gs))).
Definition pen (k : Z) (aux : list Z) (T j : Z) : R :=
  let b := at0 aux (am k j) in if (b =? 0) || (b =? -1) then 0%R else (- dp * IZR (ftime k j - T / 2))%R.

Lemma mapb_at i a : rd (concat (concat gs)) i = Some a -> forall k f g lg j, rd V k = Some f -> rd gs k = Some g -> rd logits k = Some lg -> rd (all_arcs g) j = Some a -> i = arcs_before gs k + j ->
  rd mapb i = Some (bm k j) /\ rd mapa i = Some (am k j + arcs_before V k).
Proof.
  intros H k f g lg j Hf Hg Hl Ha ->. destruct HB as (_ & L1 & L2 & _). pose proof (rd_Some_bound _ _ _ H) as B.
  rewrite !at0_rd by lia. split; [reflexivity|]. f_equal. lia.
Qed.
Lemma seq_row k lg t : rd logits k = Some lg -> 0 <= t < zlen lg + 1 -> rd (ids_of seqs) (off1 seqs k + t) = Some k /\ 0 <= off1 seqs k + t < zlen (concat seqs).
Proof.
  intros Hl Ht. assert (R : rd seqs k = Some (segment_rows n lg)) by (rewrite rd_map, Hl; reflexivity).
  destruct (rd_in_bound (segment_rows n lg) t ltac:(rewrite zlen_segment; lia)) as (r & Hr). destruct (rd_concat_off seqs k _ t r R Hr) as (C1 & C2). split; [exact C2|exact (rd_Some_bound _ _ _ C1)].
Qed.
Lemma frame_idxs_ok : exists fi, frame_idxs (splits_of seqs) (n + 1) mapb = Some fi /\ zlen fi = NA /\
  forall k f g lg j a, rd V k = Some f -> rd gs k = Some g -> rd logits k = Some lg -> rd (all_arcs g) j = Some a -> rd fi (arcs_before gs k + j) = Some (ftime k j).
Proof.
  unfold frame_idxs. rewrite last_split, row_ids_of_splits.
  assert (ZB : zlen mapb = NA) by (destruct HB as (_ & _ & B & _); exact B).
  assert (FQ : forall i, 0 <= i < NA -> exists k f g lg j a, rd V k = Some f /\ rd gs k = Some g /\ rd logits k = Some lg /\ rd (all_arcs g) j = Some a /\ i = arcs_before gs k + j /\
              rd (map (fun b => b / (n + 1)) mapb) i = Some (off1 seqs k + ftime k j) /\ 0 <= ftime k j < zlen lg + 1).
  { intros i Hi. destruct (rd_in_bound _ _ Hi) as (a & Ha). destruct (arc_split i a Ha) as (k & f & g & lg & aux & j & F1 & F2 & F3 & _ & _ & F4 & F5 & _). exists k, f, g, lg, j, a.
    destruct (mapb_at i a Ha k f g lg j F1 F2 F3 F4 F5) as (M & _). destruct (arc_facts k f g lg j a F1 F2 F3 F4) as (_ & T1 & T2 & T3). do 5 (split; [assumption|]). split; [|exact T1].
    rewrite rd_map, M. cbn [option_map]. f_equal. unfold ftime. lia. }
  assert (RG : Forall (fun i => 0 <= i < zlen (ids_of seqs)) (map (fun b => b / (n + 1)) mapb)).
  { apply Forall_forall. intros x Hx. apply In_rd in Hx as (i & Hi & Ex). rewrite zlen_map, ZB in Hi. destruct (FQ i Hi) as (k & f & g & lg & j & a & F1 & F2 & F3 & F4 & F5 & F6 & F7). rewrite Ex in F6. injection F6 as ->. destruct (seq_row k lg _ F3 F7) as (S1 & S2). exact (rd_Some_bound _ _ _ S1). }
  rewrite index_select1_ok by exact RG.
  assert (RG2 : Forall (fun i => 0 <= i < zlen (splits_of seqs)) (map (attr_at (ids_of seqs)) (map (fun b => b / (n + 1)) mapb))).
  { apply Forall_forall. intros x Hx. apply In_rd in Hx as (i & Hi & Ex). rewrite !zlen_map, ZB in Hi. destruct (FQ i Hi) as (k & f & g & lg & j & a & F1 & F2 & F3 & F4 & F5 & F6 & F7). rewrite rd_map, F6 in Ex. injection Ex as <-. destruct (seq_row k lg _ F3 F7) as (S1 & S2). unfold attr_at. rewrite S1. rewrite zlen_splits_of, zlen_map. pose proof (rd_Some_bound _ _ _ F3). lia. }
  rewrite index_select1_ok by exact RG2.
  assert (FI : forall i, 0 <= i < NA -> exists k f g lg j a, rd V k = Some f /\ rd gs k = Some g /\ rd logits k = Some lg /\ rd (all_arcs g) j = Some a /\ i = arcs_before gs k + j /\
     rd (map (fun b => b / (n + 1)) mapb) i = Some (off1 seqs k + ftime k j) /\
     rd (map (attr_at (splits_of seqs)) (map (attr_at (ids_of seqs)) (map (fun b => b / (n + 1)) mapb))) i = Some (off1 seqs k)).
  { intros i Hi. destruct (FQ i Hi) as (k & f & g & lg & j & a & F1 & F2 & F3 & F4 & F5 & F6 & F7). exists k, f, g, lg, j, a. do 6 (split; [assumption|]).
    rewrite rd_map, rd_map, F6. cbn [option_map]. destruct (seq_row k lg _ F3 F7) as (S1 & S2). unfold attr_at. rewrite S1. rewrite rd_splits_off; [reflexivity|]. rewrite zlen_map. pose proof (rd_Some_bound _ _ _ F3). lia. }
  rewrite zlen_map, ZB.
  match goal with |- context [mapM ?body _] =>
    destruct (mapM_exists body (fun i y => forall k f g lg j a, rd V k = Some f -> rd gs k = Some g -> rd logits k = Some lg -> rd (all_arcs g) j = Some a -> i = arcs_before gs k + j -> y = ftime k j) NA (zlen_nonneg _)) as (ys & Y1 & Y2 & Y3) end.
  { intros i Hi. destruct (FI i Hi) as (k & f & g & lg & j & a & F1 & F2 & F3 & F4 & F5 & F6 & F7). rewrite F6, F7. eexists. split; [reflexivity|].
    intros k' f' g' lg' j' a' F1' F2' F3' F4' F5'. destruct (place_inj k g j a k' g' j' a' F2 F4 F2' F4' ltac:(lia)) as (-> & ->). lia. }
  exists ys. split; [exact Y1|]. split; [exact Y2|]. intros k f g lg j a F1 F2 F3 F4.
  pose proof (rd_Some_bound _ _ _ (arc_place k g j a F2 F4)) as B. destruct (rd_in_bound ys (arcs_before gs k + j) ltac:(lia)) as (y & Ey). rewrite Ey. f_equal. exact (Y3 _ _ Ey k f g lg j a F1 F2 F3 F4 eq_refl).
Qed.

(** A list computed arc by arc *)
Lemma by_arc {X} (body : Z -> option X) (val : Z -> list Z -> Z -> Z -> X) :
  (forall k f g lg aux j a s, rd V k = Some f -> rd gs k = Some g -> rd logits k = Some lg -> rd auxs k = Some aux -> zlen aux = zlen (all_arcs f) -> rd (all_arcs g) j = Some a ->
     rd (ids_of (concat gs)) (arcs_before gs k + j) = Some s -> rd (ids_of gs) s = Some k -> body (arcs_before gs k + j) = Some (val k aux (zlen lg) j)) ->
  exists ys, mapM body (zrange NA) = Some ys /\ zlen ys = NA /\
    forall k f g lg aux j a, rd V k = Some f -> rd gs k = Some g -> rd logits k = Some lg -> rd auxs k = Some aux -> rd (all_arcs g) j = Some a -> rd ys (arcs_before gs k + j) = Some (val k aux (zlen lg) j).
Proof.
  intros HBD. destruct (mapM_exists body (fun i y => body i = Some y) NA (zlen_nonneg _)) as (ys & Y1 & Y2 & Y3).
  { intros i Hi. destruct (rd_in_bound _ _ Hi) as (a & Ha). destruct (arc_split i a Ha) as (k & f & g & lg & aux & j & F1 & F2 & F3 & F4 & F4' & F5 & F6 & s & F7 & F8). subst i.
    eexists. split; [|]; exact (HBD k f g lg aux j a s F1 F2 F3 F4 F4' F5 F7 F8). }
  exists ys. split; [exact Y1|]. split; [exact Y2|]. intros k f g lg aux j a F1 F2 F3 F4 F5. pose proof (arc_place k g j a F2 F5) as P. pose proof (rd_Some_bound _ _ _ P) as B.
  destruct (rd_in_bound ys (arcs_before gs k + j) ltac:(lia)) as (y & Ey). pose proof (Y3 _ _ Ey) as Eb. rewrite Ey.
  destruct (arc_split _ a P) as (k' & f' & g' & lg' & aux' & j' & G1 & G2 & G3 & G4 & G4' & G5 & G6 & s & G7 & G8). destruct (place_inj k g j a k' g' j' a F2 F5 G2 G5 G6) as (-> & ->).
  rewrite F3 in G3. injection G3 as <-. rewrite F4 in G4. injection G4 as <-. rewrite F1 in G1. injection G1 as <-. rewrite (HBD k f g lg aux j a s F1 F2 F3 F4 G4' F5 G7 G8) in Eb. congruence.
Qed.

Lemma durations_ok : dense_durations (splits_of seqs) = Some (map zlen logits).
Proof.
  unfold dense_durations. rewrite zlen_splits_of, zlen_map. replace (zlen logits + 1 - 1) with (zlen logits) by lia.
  rewrite (mapM_Some_map _ (fun k => match rd logits k with Some lg => zlen lg | None => 0 end)).
  - f_equal. apply list_ext_rd; rewrite !zlen_map; [apply zlen_zrange, zlen_nonneg|]. intros k Hk. rewrite zlen_zrange in Hk by apply zlen_nonneg. rewrite !rd_map, rd_zrange by lia. cbn [option_map]. destruct (rd_in_bound logits k Hk) as (lg & ->). reflexivity.
  - intros k Hk. apply in_zrange in Hk. destruct (rd_in_bound logits k Hk) as (lg & El). rewrite El. rewrite !rd_splits_off by (rewrite zlen_map; lia).
    assert (R : rd seqs k = Some (segment_rows n lg)) by (rewrite rd_map, El; reflexivity). rewrite (off1_next _ _ _ R), zlen_segment. f_equal. lia.
Qed.

Lemma penalties_ok : exists pens, delay_penalties dp (splits_of gs) (splits_of (concat gs)) (splits_of seqs) (n + 1) (concat auxs) mapa mapb = Some pens /\ zlen pens = NA /\
  forall k f g lg aux j a, rd V k = Some f -> rd gs k = Some g -> rd logits k = Some lg -> rd auxs k = Some aux -> rd (all_arcs g) j = Some a -> rd pens (arcs_before gs k + j) = Some (pen k aux (zlen lg) j).
Proof.
  unfold delay_penalties. destruct frame_idxs_ok as (fi & -> & Zf & Hf). rewrite !last_split, !row_ids_of_splits.
  assert (ZA : zlen mapa = NA) by (destruct HB as (_ & B & _); exact B).
  assert (IDS : exists ids, mapM (rd (ids_of gs)) (ids_of (concat gs)) = Some ids /\ zlen ids = NA /\ forall i s k, rd (ids_of (concat gs)) i = Some s -> rd (ids_of gs) s = Some k -> rd ids i = Some k).
  { exists (map (at0 (ids_of gs)) (ids_of (concat gs))). split.
    - apply mapM_Some_map. intros s Hs. apply at0_rd. apply In_rd in Hs as (i & Hi & Es). rewrite zlen_ids_of in Hi. destruct (rd_in_bound _ _ Hi) as (a & Ha). destruct (arc_split i a Ha) as (k & f & g & lg & aux & j & _ & _ & _ & _ & _ & _ & _ & s' & F7 & F8). rewrite Es in F7. injection F7 as <-. exact (rd_Some_bound _ _ _ F8).
    - split; [rewrite zlen_map; apply zlen_ids_of|]. intros i s k H1 H2. rewrite rd_map, H1. cbn [option_map]. unfold at0. now rewrite H2. }
  destruct IDS as (ids & -> & Zi & Hi). rewrite durations_ok. unfold add_per_sublist. rewrite zlen_splits_of, !zlen_map.
  assert (ZV : zlen gs = zlen logits) by (destruct HB as (B & _); destruct HI as (_ & E & _); lia). replace (zlen gs + 1 - 1 =? zlen logits) with true by lia. rewrite Zf.
  match goal with |- context [mapM ?body (zrange NA)] => destruct (by_arc body (fun k aux T j => ftime k j - T / 2)) as (off & -> & Zo & Ho) end.
  { intros k f g lg aux j a s F1 F2 F3 F4 F4' F5 F6 F7. rewrite (Hi _ _ _ F6 F7). rewrite !rd_map, F3. cbn [option_map]. rewrite (Hf k f g lg j a F1 F2 F3 F5). f_equal. rewrite Z.shiftr_div_pow2 by lia. change (2 ^ 1) with 2. lia. }
  rewrite index_select1_ok.
  2:{ apply Forall_forall. intros x Hx. apply In_rd in Hx as (i & Hx & Ex). rewrite ZA in Hx. destruct (rd_in_bound _ _ Hx) as (a & Ha). destruct (arc_split i a Ha) as (k & f & g & lg & aux & j & F1 & F2 & F3 & F4 & F4' & F5 & F6 & _).
      destruct (mapb_at i a Ha k f g lg j F1 F2 F3 F5 F6) as (_ & M). rewrite Ex in M. injection M as ->. destruct (arc_facts k f g lg j a F1 F2 F3 F5) as (A1 & _). pose proof (off_aux k) as OA.
      destruct (rd_in_bound aux _ ltac:(rewrite F4'; exact A1)) as (v & Ev). pose proof (rd_Some_bound _ _ _ (proj1 (rd_concat_off auxs k aux _ v F4 Ev))). cbv beta in *. lia. }
  rewrite Zo. match goal with |- context [mapM ?body (zrange NA)] => destruct (by_arc body pen) as (pens & -> & Zp & Hp) end.
  { intros k f g lg aux j a s F1 F2 F3 F4 F4' F5 F6 F7. rewrite (Ho k f g lg aux j a F1 F2 F3 F4 F5). pose proof (arc_place k g j a F2 F5) as P. destruct (mapb_at _ a P k f g lg j F1 F2 F3 F5 eq_refl) as (_ & M).
    rewrite rd_map, M. cbn [option_map]. unfold pen. destruct (arc_facts k f g lg j a F1 F2 F3 F5) as (A1 & _). destruct (rd_in_bound aux _ ltac:(rewrite F4'; exact A1)) as (v & Ev).
    pose proof (proj1 (rd_concat_off auxs k aux _ v F4 Ev)) as C. rewrite off_aux in C. unfold attr_at. rewrite (Z.add_comm (at0 mapa _ - _)), C. unfold at0 at 1 3. rewrite Ev. reflexivity. }
  exists pens. auto.
Qed.

Definition arc_sc (k j : Z) : Z := match rd gs k with Some g => match rd (all_arcs g) j with Some a => sc a | None => 0 end | None => 0 end.
Lemma scores_ok : exists scores,
  (let scores := map (fun a => option_map (fun z => (u * IZR z)%R) (snd a)) (map (fun a => (src a, dst a, lab a, Some (sc a))) (concat (concat gs))) in
   if Rlt_dec 0 dp then
     penalty <- delay_penalties dp (splits_of gs) (splits_of (concat gs)) (splits_of seqs) (n + 1) (concat auxs) mapa mapb;;
     mapM (fun j => s <- rd scores j;; p <- rd penalty j;; Some (ladd s (Some p))) (zrange (zlen scores))
   else Some scores) = Some scores /\ zlen scores = NA /\
  forall k f g lg aux j a, rd V k = Some f -> rd gs k = Some g -> rd logits k = Some lg -> rd auxs k = Some aux -> rd (all_arcs g) j = Some a ->
    arc_score gs scores k j = Some (u * IZR (sc a) + (if Rlt_dec 0 dp then pen k aux (zlen lg) j else 0))%R.
Proof.
  cbv zeta. rewrite map_map. cbn [snd option_map].
  assert (SC : forall k g j a, rd gs k = Some g -> rd (all_arcs g) j = Some a -> rd (map (fun a => Some (u * IZR (sc a))%R) (concat (concat gs))) (arcs_before gs k + j) = Some (Some (u * IZR (sc a))%R)) by (intros k g j a Hg Ha; rewrite rd_map, (arc_place k g j a Hg Ha); reflexivity).
  destruct (Rlt_dec 0 dp) as [Hd|Hd].
  - destruct penalties_ok as (pens & -> & Zp & Hp). rewrite zlen_map.
    match goal with |- context [mapM ?body (zrange NA)] => destruct (by_arc body (fun k aux T j => Some (u * IZR (arc_sc k j) + pen k aux T j)%R)) as (ys & -> & Zy & Hy) end.
    { intros k f g lg aux j a s F1 F2 F3 F4 F4' F5 F6 F7. rewrite (SC k g j a F2 F5), (Hp k f g lg aux j a F1 F2 F3 F4 F5). unfold arc_sc. rewrite F2, F5. reflexivity. }
    exists ys. split; [reflexivity|]. split; [exact Zy|]. intros k f g lg aux j a F1 F2 F3 F4 F5. unfold arc_score. rewrite <- before_off, (Hy k f g lg aux j a F1 F2 F3 F4 F5). unfold arc_sc. rewrite F2, F5. reflexivity.
  - eexists. split; [reflexivity|]. split; [apply zlen_map|]. intros k f g lg aux j a F1 F2 F3 F4 F5. unfold arc_score. rewrite <- before_off, (SC k g j a F2 F5). f_equal. lra.
Qed.

Lemma Rmax_pen : (if Rlt_dec 0 dp then dp else 0)%R = Rmax 0 dp.
Proof. unfold Rmax. destruct (Rlt_dec 0 dp), (Rle_dec 0 dp); lra. Qed.
Lemma pweight_sum (w : Z -> option R) (e : Z -> R) g s q t : apath g s q t ->
  (forall j a, In j q -> rd (all_arcs g) j = Some a -> w j = Some (u * IZR (sc a) + e j)%R) ->
  pweight w q = Some (u * IZR (score (arcs_at g q)) + sumf e q)%R.
Proof.
  induction 1 as [s|j a q t Ha Hq IH]; intros HW; [unfold pweight, lzero; cbn; f_equal; lra|].
  unfold pweight. cbn [fold_right]. fold (pweight w q). rewrite IH by (intros; apply HW; [now right|assumption]). rewrite (HW j a (or_introl eq_refl) Ha). cbn [ladd]. f_equal.
  rewrite (arcs_at_cons g j q a Ha). unfold sumf. cbn [fold_right]. unfold score. cbn [map]. rewrite ReplaceProps.zsum_cons, plus_IZR. lra.
Qed.
Lemma sumf_scale {A} (c : R) (d : A -> Z) l : sumf (fun x => (c * IZR (d x))%R) l = (c * IZR (zsum (map d l)))%R.
Proof. unfold sumf. induction l as [|x l IH]; [cbn; lra|]. cbn [fold_right map]. rewrite IH, ReplaceProps.zsum_cons, plus_IZR. lra. Qed.

Lemma path_weight_ok scores k f g lg aux q :
  (forall j a, rd (all_arcs g) j = Some a -> arc_score gs scores k j = Some (u * IZR (sc a) + (if Rlt_dec 0 dp then pen k aux (zlen lg) j else 0))%R) ->
  rd V k = Some f -> rd gs k = Some g -> rd logits k = Some lg -> successful g q ->
  fits f lg (map (am k) q) /\ pweight (arc_score gs scores k) q = Some (path_weight u dp f aux lg (map (am k) q)).
Proof.
  intros HW Hf Hg Hl Hq. destruct (at_k k f g Hf Hg) as (lg' & Hl' & (D1 & D2 & D3 & D4 & D5 & D6) & _). rewrite Hl in Hl'. injection Hl' as <-.
  destruct (D1 q Hq) as (P1 & P2 & P3 & P4). pose proof HI as (_ & _ & _ & H4 & H5 & _). destruct (H4 f (rd_In _ _ _ Hf)) as (VF & _ & LF). destruct (H5 lg (rd_In _ _ _ Hl)) as (_ & LL & _).
  apply (C42_scores f n lg _ VF LF LL) in P1 as (S1 & S2 & S3). split; [split; assumption|].
  rewrite P3 in S3. injection S3 as S3. destruct Hq as (Hn & Hq).
  rewrite (pweight_sum _ (fun j => if Rlt_dec 0 dp then pen k aux (zlen lg) j else 0)%R g 0 q _ Hq) by (intros j a _ Ha; exact (HW j a Ha)). f_equal. unfold path_weight. unfold path_score. rewrite <- S3. 
  set (d := fun j => let b := at0 aux (am k j) in if (b =? 0) || (b =? -1) then 0 else ftime k j - zlen lg / 2).
  assert (E1 : sumf (fun j => if Rlt_dec 0 dp then pen k aux (zlen lg) j else 0)%R q = (- Rmax 0 dp * IZR (zsum (map d q)))%R).
  { rewrite <- sumf_scale. apply sumf_ext_in. intros j _. rewrite <- Rmax_pen. unfold pen, d. cbv zeta. destruct (_ || _), (Rlt_dec 0 dp); lra. }
  rewrite E1. assert (E2 : zsum (map d q) = path_delay aux (zlen lg) (map (am k) q)).
  { unfold path_delay. rewrite <- (SufStats.map_at0_zrange q) at 1. rewrite map_map, zlen_map. f_equal. apply map_ext_in. intros t Ht. apply in_zrange in Ht. unfold d. cbv zeta.
    pose proof (at0_rd q t Ht) as R. rewrite (time_on_path k f g q t _ Hf Hg (conj Hn Hq) R). rewrite (SufText.at0_map (am k) q t Ht). reflexivity. }
  rewrite E2. lra.
Qed.
End Loss.
