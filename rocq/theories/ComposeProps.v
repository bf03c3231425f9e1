(** * C26: composition of FSTs *)
From Coq Require Import ZArith List Lia Bool Permutation.
From Coq Require Import ZifyBool.
From Verif Require Import Base RaggedModel RaggedSpec FsaSpec FsaLemmas RaggedOpsModel RaggedOpsProofs OpsModel PropsModel PropsSpec PropsProofs PropsProps ScoreModel ScoreSpec ShortestSpec FstSpec GraphProofs IntersectModel IntersectSpec IntersectProofs IntersectPaths IntersectProps ComposeModel.
Import ListNotations.
Open Scope Z_scope.

(** [T] relates [x] to [y] with score [s]; [eps]: label 0 is epsilon, otherwise an
    ordinary label. *)
Definition st (eps : bool) (w : list Z) : list Z := if eps then strip w else w.
Definition rel (eps : bool) (T : nfst) (x y : list Z) (s : Z) : Prop :=
  exists p, tpath (concat T) 0 p (zlen T - 1) /\ st eps (ilabels p) = x ++ [-1] /\ st eps (olabels p) = y ++ [-1] /\ tscore p = s.

(** ** Paths by positions *)
Lemma tpath_pos {B} f (ta : list (arc * B)) : zlen ta = zlen (all_arcs f) ->
  (forall i u t, rd (all_arcs f) i = Some u -> rd ta i = Some t -> src u = src (fst t) /\ dst u = dst (fst t)) ->
  forall s p t, tpath ta s p t <-> exists q, apath f s q t /\ mapM (rd ta) q = Some p.
Proof.
  intros ZT H s p t. split.
  - induction 1 as [s|x p t Hx P (q & Q1 & Q2)]; [exists []; split; [constructor|reflexivity]|].
    apply In_rd in Hx. destruct Hx as (j & Bj & Hj). destruct (rd_in_bound (all_arcs f) j ltac:(lia)) as (u & Hu). destruct (H j u x Hu Hj) as (E1 & E2).
    exists (j :: q). split; [rewrite <- E1; apply ap_cons; auto; now rewrite E2|]. cbn. now rewrite Hj, Q2.
  - intros (q & Q1 & Q2). revert p Q2. induction Q1 as [s|j u q t Hu Q IH]; intros p E; [injection E as <-; constructor|].
    cbn in E. destruct (rd ta j) as [x|] eqn:Hx; [|discriminate]. destruct (mapM (rd ta) q) as [p'|]; [|discriminate]. injection E as <-. destruct (H j u x Hu Hx) as (E1 & E2).
    rewrite E1. apply tpath_cons; [eapply rd_In; eauto|]. rewrite <- E2. auto.
Qed.
Lemma tpath_incl {B} (T T' : list (arc * B)) : (forall x, In x T -> In x T') -> forall s p t, tpath T s p t -> tpath T' s p t.
Proof. intros H s p t P. induction P; [constructor|]. constructor; auto. Qed.

(** labels through a map with -1 *)
Lemma st_cons eps l w w' : st eps w = st eps w' -> st eps (l :: w) = st eps (l :: w').
Proof. unfold st. destruct eps; [|congruence]. unfold strip. cbn. destruct (negb (l =? 0)); congruence. Qed.
Lemma lab_proj {X Y} eps (tc : list X) (ta : list Y) (g : X -> Z) (g' : Y -> Z) m oc oa :
  (forall j t, rd tc j = Some t -> exists i, rd m (oc + j) = Some i /\
     ((i = -1 /\ eps = true /\ g t = 0) \/ (i <> -1 /\ exists t', rd ta (i - oa) = Some t' /\ g t = g' t'))) ->
  forall q p p1, mapM (rd tc) q = Some p -> mapM (rd ta) (proj m oc oa q) = Some p1 -> st eps (map g p) = st eps (map g' p1).
Proof.
  intros H. induction q as [|j q IH]; intros p p1 E E1.
  - cbn in *. injection E as <-. injection E1 as <-. reflexivity.
  - cbn [mapM] in E. destruct (rd tc j) as [t|] eqn:Et; [|discriminate]. destruct (mapM (rd tc) q) as [p'|] eqn:Ep; [|discriminate]. injection E as <-.
    destruct (H j t Et) as (i & Hi & C). assert (EP : proj m oc oa (j :: q) = (if i =? -1 then [] else [i - oa]) ++ proj m oc oa q) by (unfold proj; cbn [flat_map]; now rewrite Hi).
    rewrite EP in E1. destruct C as [(-> & -> & G)|(Ni & t' & Ht' & G)].
    + change (-1 =? -1) with true in E1. cbn [app] in E1. specialize (IH _ _ eq_refl E1). cbn [map]. rewrite G. exact IH.
    + destruct (i =? -1) eqn:?; [lia|]. cbn [app mapM] in E1. rewrite Ht' in E1. destruct (mapM (rd ta) (proj m oc oa q)) as [p1'|] eqn:E2; [|discriminate]. injection E1 as <-.
      cbn [map]. rewrite G. apply st_cons. now apply IH.
Qed.
Lemma mapM_total {X} (l : list X) q : (forall j, In j q -> 0 <= j < zlen l) -> exists p, mapM (rd l) q = Some p.
Proof.
  induction q as [|j q IH]; intros H; [exists []; reflexivity|]. destruct (rd_in_bound l j (H j (or_introl eq_refl))) as (x & Hx). destruct IH as (p & Hp); [intros; apply H; now right|].
  exists (x :: p). cbn. now rewrite Hx, Hp.
Qed.
(** tape facts about whole paths *)
Lemma tape_labels {X} f (ta : list X) (g : X -> Z) (h : arc -> Z) : (forall i u t, rd (all_arcs f) i = Some u -> rd ta i = Some t -> h u = g t) ->
  forall q p s t, apath f s q t -> mapM (rd ta) q = Some p -> map h (arcs_at f q) = map g p.
Proof.
  intros H q p s t A. revert p. induction A as [s|j u q t Hu Q IH]; intros p E; [injection E as <-; reflexivity|].
  cbn in E. destruct (rd ta j) as [x|] eqn:Hx; [|discriminate]. destruct (mapM (rd ta) q) as [p'|]; [|discriminate]. injection E as <-.
  rewrite (arcs_at_cons f j q u Hu). cbn [map]. rewrite (H j u x Hu Hx). f_equal. auto.
Qed.
Lemma ends_final f q : valid f -> successful f q -> exists w, labels (arcs_at f q) = w ++ [-1].
Proof.
  intros (_ & V2 & V3) (_ & A). assert (G : forall s t, apath f s q t -> s <> t -> t = nstates f - 1 -> exists w, labels (arcs_at f q) = w ++ [-1]).
  { clear A. induction q as [|j q IH]; intros s t A N E; inversion A as [|? u ? ? Hu A1]; subst; [contradiction|]. rewrite (arcs_at_cons f j q u Hu). cbn [labels map].
    destruct (Z.eq_dec (dst u) (nstates f - 1)) as [Ed|Ed].
    - destruct q as [|j' q].
      + exists []. cbn. f_equal. destruct (V3 u (rd_In _ _ _ Hu)) as (_ & _ & V & _). apply V. exact Ed.
      + exfalso. inversion A1 as [|? u' ? ? Hu' A2]; subst. destruct (V3 u' (rd_In _ _ _ Hu')) as (_ & _ & _ & V). apply V. unfold final, nstates in *. lia.
    - destruct (IH (dst u) _ A1 Ed eq_refl) as (w & Ew). unfold labels in Ew. rewrite Ew. exists (lab u :: w). reflexivity. }
  apply (G 0 (nstates f - 1)); auto. lia.
Qed.

(** ** From intersection to composition, for one pair *)
Section Core.
Variables (eps : bool) (a b c : nfsa) (ta tb tc : list tarc) (ma mb : list Z) (oc oa ob : Z).
Hypothesis (Va : valid a) (Vb : valid b).
Hypothesis IS : is_intersection eps a b c (proj ma oc oa) (proj mb oc ob).
Hypothesis (Za : zlen ta = zlen (all_arcs a)) (Zb : zlen tb = zlen (all_arcs b)) (Zc : zlen tc = zlen (all_arcs c)).
Hypothesis Ha : forall i u t, rd (all_arcs a) i = Some u -> rd ta i = Some t -> src u = src (fst t) /\ dst u = dst (fst t) /\ sc u = sc (fst t) /\ lab u = snd t.
Hypothesis Hb : forall i u t, rd (all_arcs b) i = Some u -> rd tb i = Some t -> u = fst t.
Hypothesis Hc : forall i u t, rd (all_arcs c) i = Some u -> rd tc i = Some t -> src u = src (fst t) /\ dst u = dst (fst t) /\ sc u = sc (fst t).
Hypothesis Hil : forall j t, rd tc j = Some t -> exists i, rd ma (oc + j) = Some i /\
  ((i = -1 /\ eps = true /\ lab (fst t) = 0) \/ (i <> -1 /\ exists t', rd ta (i - oa) = Some t' /\ lab (fst t) = lab (fst t'))).
Hypothesis Hol : forall j t, rd tc j = Some t -> exists i, rd mb (oc + j) = Some i /\
  ((i = -1 /\ eps = true /\ snd t = 0) \/ (i <> -1 /\ exists t', rd tb (i - ob) = Some t' /\ snd t = snd t')).

Lemma core : nstates c = 0 \/ 0 < nstates c -> forall x z s,
  (exists p, tpath tc 0 p (nstates c - 1) /\ st eps (ilabels p) = x ++ [-1] /\ st eps (olabels p) = z ++ [-1] /\ tscore p = s) <->
  exists y s1 s2, (exists p, tpath ta 0 p (nstates a - 1) /\ st eps (ilabels p) = x ++ [-1] /\ st eps (olabels p) = y ++ [-1] /\ tscore p = s1) /\
    (exists p, tpath tb 0 p (nstates b - 1) /\ st eps (ilabels p) = y ++ [-1] /\ st eps (olabels p) = z ++ [-1] /\ tscore p = s2) /\ s = s1 + s2.
Proof.
  intros NC x z s.
  pose proof (tpath_pos a ta Za (fun i u t H1 H2 => conj (proj1 (Ha i u t H1 H2)) (proj1 (proj2 (Ha i u t H1 H2))))) as TA.
  assert (TB : forall s p t, tpath tb s p t <-> exists q, apath b s q t /\ mapM (rd tb) q = Some p) by (apply tpath_pos; auto; intros i u t H1 H2; rewrite (Hb i u t H1 H2); auto).
  pose proof (tpath_pos c tc Zc (fun i u t H1 H2 => conj (proj1 (Hc i u t H1 H2)) (proj1 (proj2 (Hc i u t H1 H2))))) as TC.
  pose proof Va as (_ & Va2 & _). pose proof Vb as (_ & Vb2 & _). destruct IS as (I1 & I2 & _).
  assert (FA : forall q p t, apath a 0 q t -> mapM (rd ta) q = Some p -> labels (arcs_at a q) = olabels p /\ score (arcs_at a q) = tscore p).
  { intros q p t A E. split; [exact (tape_labels a ta snd lab (fun i u t H1 H2 => proj2 (proj2 (proj2 (Ha i u t H1 H2)))) q p 0 t A E)|].
    unfold score, tscore. f_equal. exact (tape_labels a ta (fun x => sc (fst x)) sc (fun i u t H1 H2 => proj1 (proj2 (proj2 (Ha i u t H1 H2)))) q p 0 t A E). }
  assert (FB : forall q p t, apath b 0 q t -> mapM (rd tb) q = Some p -> labels (arcs_at b q) = ilabels p /\ score (arcs_at b q) = tscore p).
  { intros q p t A E. split; [refine (tape_labels b tb (fun x => lab (fst x)) lab _ q p 0 t A E)|unfold score, tscore; f_equal; refine (tape_labels b tb (fun x => sc (fst x)) sc _ q p 0 t A E)]; intros i u w H1 H2; now rewrite (Hb i u w H1 H2). }
  assert (FC : forall q p t, apath c 0 q t -> mapM (rd tc) q = Some p -> score (arcs_at c q) = tscore p).
  { intros q p t A E. unfold score, tscore. f_equal. exact (tape_labels c tc (fun x => sc (fst x)) sc (fun i u t H1 H2 => proj2 (proj2 (Hc i u t H1 H2))) q p 0 t A E). }
  split.
  - intros (p & P & L1 & L2 & S). apply TC in P. destruct P as (q & Q & E).
    assert (SQ : successful c q). { split; auto. destruct NC as [NC|]; auto. exfalso. inversion Q as [|j u ? ? Hu]; subst; [lia|]. destruct c as [|r0 c0]; [cbn in Hu; rewrite rd_nil in Hu; discriminate|]. unfold nstates in NC. rewrite zlen_cons in NC. pose proof (zlen_nonneg c0). lia. }
    destruct (I1 q SQ) as (A & B & LA & LB & SC). destruct A as (A0 & A). destruct B as (B0 & B).
    destruct (mapM_total ta _ (fun j Hj => eq_ind_r (fun n => 0 <= j < n) (apath_pos _ _ _ _ A j Hj) Za)) as (p1 & P1). destruct (mapM_total tb _ (fun j Hj => eq_ind_r (fun n => 0 <= j < n) (apath_pos _ _ _ _ B j Hj) Zb)) as (p2 & P2).
    destruct (FA _ _ _ A P1) as (G1 & G2). destruct (FB _ _ _ B P2) as (G3 & G4).
    destruct (ends_final a _ Va (conj A0 A)) as (y & Ey). exists (st eps y), (tscore p1), (tscore p2).
    assert (SY : st eps (y ++ [-1]) = st eps y ++ [-1]). { unfold st. destruct eps; auto. unfold strip. rewrite filter_app. reflexivity. }
    split; [|split].
    + exists p1. split; [apply TA; eauto|]. split; [|split; auto].
      * rewrite <- L1. symmetry. exact (lab_proj eps tc ta (fun x => lab (fst x)) (fun x => lab (fst x)) ma oc oa Hil q p p1 E P1).
      * rewrite <- G1, Ey. exact SY.
    + exists p2. split; [apply TB; eauto|]. split; [|split; auto].
      * rewrite <- SY, <- Ey, <- G3. unfold same_labels, st in *. destruct eps; congruence.
      * rewrite <- L2. symmetry. exact (lab_proj eps tc tb snd snd mb oc ob Hol q p p2 E P2).
    + rewrite <- S, <- (FC _ _ _ (proj2 SQ) E), <- G2, <- G4. exact SC.
  - intros (y & s1 & s2 & (p1 & P1 & L1 & M1 & S1) & (p2 & P2 & L2 & M2 & S2) & ->). apply TA in P1. apply TB in P2. destruct P1 as (q1 & Q1 & E1). destruct P2 as (q2 & Q2 & E2).
    destruct (FA _ _ _ Q1 E1) as (G1 & G2). destruct (FB _ _ _ Q2 E2) as (G3 & G4).
    destruct (I2 q1 q2) as (q & SQ & X1 & X2); [split; [lia|auto]|split; [lia|auto]|rewrite G1, G3; unfold same_labels, st in *; destruct eps; congruence|].
    destruct (mapM_total tc q (fun j Hj => eq_ind_r (fun n => 0 <= j < n) (apath_pos _ _ _ _ (proj2 SQ) j Hj) Zc)) as (p & P). exists p. split; [apply TC; exists q; split; [apply SQ|auto]|].
    destruct (I1 q SQ) as (_ & _ & _ & _ & SC). subst q1 q2.
    split; [|split].
    + rewrite <- L1. exact (lab_proj eps tc ta (fun x => lab (fst x)) (fun x => lab (fst x)) ma oc oa Hil q p p1 P E1).
    + rewrite <- M2. exact (lab_proj eps tc tb snd snd mb oc ob Hol q p p2 P E2).
    + rewrite <- (FC _ _ _ (proj2 SQ) P), SC, G2, G4. lia.
Qed.
End Core.

(** ** Shapes and tapes *)
Lemma app_eq_len {B} (a b c d : list B) : length a = length c -> a ++ b = c ++ d -> a = c /\ b = d.
Proof. revert c. induction a as [|x a IH]; intros [|y c] L E; try discriminate; auto. injection L as L. injection E as -> E. destruct (IH c L E) as (-> & ->). auto. Qed.
Lemma shape_eq {B} (x y : list (list B)) : map zlen x = map zlen y -> concat x = concat y -> x = y.
Proof.
  revert y. induction x as [|r x IH]; intros [|r' y] H C; try discriminate; auto. injection H as H1 H2. cbn in C.
  assert (G : r = r' /\ concat x = concat y). { apply app_eq_len; auto. unfold zlen in H1. lia. } destruct G as (-> & G). f_equal. auto.
Qed.
Lemma map_zlen_map {B C} (g : B -> C) (x : list (list B)) : map zlen (map (map g) x) = map zlen x.
Proof. rewrite map_map. apply map_ext. intros. apply zlen_map. Qed.
Lemma splits_map {B C} (g : B -> C) (x : list (list B)) : splits_of (map (map g) x) = splits_of x.
Proof. unfold splits_of. now rewrite map_zlen_map. Qed.
Lemma ids_map {B C} (g : B -> C) (x : list (list B)) : ids_of (map (map g) x) = ids_of x.
Proof. apply ids_of_zlen, map_zlen_map. Qed.
Lemma flat_vec_map {B} (g : B -> arc) (Ts : list (list (list B))) :
  flat_vec (map (map (map g)) Ts) = mkVec (splits_of Ts) (splits_of (concat Ts)) (map g (concat (concat Ts))).
Proof. unfold flat_vec. rewrite splits_map, <- concat_map, splits_map, <- concat_map. reflexivity. Qed.
Lemma regroup3 {B C} (g : C -> B) (fs : list (list (list B))) (l : list C) : map g l = concat (concat fs) ->
  exists Ts, fs = map (map (map g)) Ts /\ concat (concat Ts) = l.
Proof.
  intros H. destruct (regroup (concat fs) l) as (y & Y1 & Y2); [now rewrite <- H, zlen_map|].
  assert (E1 : concat fs = map (map g) y). { apply shape_eq; [now rewrite map_zlen_map|]. rewrite <- concat_map, Y1. auto. }
  destruct (regroup fs y) as (Ts & T1 & T2); [rewrite E1, zlen_map; auto|]. exists Ts. split; [|now rewrite T1].
  apply shape_eq; [now rewrite map_zlen_map|]. rewrite <- concat_map, T1. auto.
Qed.
Lemma off1_map3 {B C} (g : B -> C) (Ts : list (list (list B))) k : off1 (map (@concat C) (map (map (map g)) Ts)) k = off1 (map (@concat B) Ts) k.
Proof.
  apply map_zlen_rd. rewrite !map_map. apply map_ext. intros. now rewrite <- concat_map, zlen_map.
Qed.

(** The arc with its output label as label *)
Definition relab (t : tarc) : arc := mkArc (src (fst t)) (dst (fst t)) (snd t) (sc (fst t)).
Definition inv_of (T : nfst) : nfsa := map (map relab) T.

Lemma set_labels_ok sched (Ts : list nfst) : is_sched (zlen (concat (concat Ts))) sched -> Forall p_valid (map inv_of Ts) ->
  set_labels sched (vec_of Ts) (map snd (concat (concat Ts))) = Some (flat_vec (map inv_of Ts)).
Proof.
  intros Hs V. set (F := concat (concat Ts)) in *. unfold set_labels, vec_of. unfold inv_of in *. rewrite (flat_vec_map fst). cbn [v_arcs]. fold F. rewrite !zlen_map, Z.eqb_refl.
  assert (FX : fix_vec (mkVec (splits_of Ts) (splits_of (concat Ts)) (map fst F)) (map snd F) = Some (map snd F)).
  { unfold fix_vec. cbn [v_rs1 v_rs2 v_arcs]. rewrite zlen_splits_of, zlen_map. replace (zlen (concat Ts) + 1 - 1) with (zlen (concat Ts)) by lia. unfold F at 1. rewrite !row_ids_of_splits.
    apply mapM_by_rd; [now rewrite zlen_map, zlen_zrange by apply zlen_nonneg|]. intros i i' Hi. pose proof (rd_Some_bound _ _ _ Hi) as Bi. rewrite zlen_zrange in Bi by apply zlen_nonneg.
    rewrite rd_zrange in Hi by auto. injection Hi as <-. destruct (rd_in_bound F i Bi) as (x & Hx). rewrite !rd_map, Hx. cbn [option_map].
    destruct (rd_concat3 Ts i x Hx) as (k & f & r & stt & j & H1 & H2 & H3 & H4 & H5 & _). rewrite H4, H5. pose proof (rd_Some_bound _ _ _ H1).
    rewrite !rd_splits_off by lia. rewrite (off1_next Ts k f H1). rewrite Forall_forall in V.
    destruct (V (map (map relab) f)) as (_ & V2); [apply in_map; eapply rd_In; eauto|].
    destruct (V2 (relab x)) as (W1 & W2 & W3); [unfold all_arcs; rewrite <- concat_map; apply in_map; apply in_concat; exists stt; split; eapply rd_In; eauto|].
    unfold final in W3. rewrite zlen_map in W3. cbn [relab dst lab] in *. unfold fix_label.
    destruct (dst (fst x) + off1 Ts k + 1 =? off1 Ts k + zlen f) eqn:E; destruct (snd x =? -1) eqn:E2; cbn [negb]; auto; exfalso; lia. }
  rewrite FX. cbv zeta. assert (RL : relabel (mkVec (splits_of Ts) (splits_of (concat Ts)) (map fst F)) (map snd F) = flat_vec (map (map (map relab)) Ts)).
  { rewrite flat_vec_map. unfold relabel. cbn [v_rs1 v_rs2 v_arcs]. f_equal. fold F. clear. induction F as [|x F IH]; auto. cbn. now rewrite IH. }
  rewrite RL. destruct (proj2 (C15_properties_raises sched (map (map (map relab)) Ts) ltac:(rewrite <- !concat_map, zlen_map; exact Hs)) V) as (p & ->). reflexivity.
Qed.

Lemma pos_fsa {B} (Ts : list (list (list B))) p x s k T : rd (concat (concat Ts)) p = Some x -> rd (ids_of (concat Ts)) p = Some s -> rd (ids_of Ts) s = Some k -> rd Ts k = Some T -> In x (concat T).
Proof.
  intros H1 H2 H3 H4. destruct (rd_concat3 Ts p x H1) as (k' & f & r & stt & j & K1 & K2 & K3 & K4 & K5 & _). rewrite K4 in H2. injection H2 as <-. rewrite K5 in H3. injection H3 as <-. rewrite K1 in H4. injection H4 as <-.
  apply in_concat. exists stt. split; eapply rd_In; eauto.
Qed.
Lemma fsa_pos {B} (Ts : list (list (list B))) k T x : rd Ts k = Some T -> In x (concat T) ->
  exists p s, rd (concat (concat Ts)) p = Some x /\ rd (ids_of (concat Ts)) p = Some s /\ rd (ids_of Ts) s = Some k.
Proof.
  intros H I. apply in_concat in I. destruct I as (stt & I1 & I2). apply In_rd in I1, I2. destruct I1 as (r & _ & R). destruct I2 as (j & _ & J).
  destruct (rd_concat_off Ts k T r stt H R) as (A1 & A2). destruct (rd_concat_off (concat Ts) _ stt j x A1 J) as (B1 & B2). eauto 7.
Qed.
Lemma mapM_at {B C} (f : B -> option C) l ys i a : mapM f l = Some ys -> rd l i = Some a -> rd ys i = f a.
Proof.
  intros E H. pose proof (mapM_length _ _ _ E) as L. destruct (rd_in_bound ys i) as (y & Hy); [unfold zlen; rewrite L; exact (rd_Some_bound _ _ _ H)|].
  destruct (mapM_rd _ _ _ _ _ E Hy) as (x & X1 & X2). congruence.
Qed.
Lemma mapM_zlen {B C} (f : B -> option C) l ys : mapM f l = Some ys -> zlen ys = zlen l.
Proof. intros E. unfold zlen. now rewrite (mapM_length _ _ _ E). Qed.
Lemma mapM_rd_map {B C} (g : B -> C) (l : list B) m : mapM (rd (map g l)) m = option_map (map g) (mapM (rd l) m).
Proof.
  induction m as [|i m IH]; [reflexivity|]. cbn. rewrite rd_map, IH. destruct (rd l i); [|reflexivity]. cbn. destruct (mapM (rd l) m); reflexivity.
Qed.
Lemma sort_tape (Ts : list nfst) fs' m : sorted_version (map inv_of Ts) fs' m ->
  exists Ts', fs' = map inv_of Ts' /\ mapM (rd (concat (concat Ts))) m = Some (concat (concat Ts')) /\ map zlen Ts' = map zlen Ts /\
    forall k T T', rd Ts k = Some T -> rd Ts' k = Some T' -> forall x, In x (concat T) <-> In x (concat T').
Proof.
  intros (S1 & S2 & S3 & S4 & _). unfold inv_of in *. rewrite <- !concat_map in *. rewrite zlen_map in S2.
  rewrite mapM_rd_map in S3. destruct (mapM (rd (concat (concat Ts))) m) as [l|] eqn:El; [|discriminate]. injection S3 as S3.
  destruct (regroup3 relab fs' l S3) as (Ts' & E & C). exists Ts'. split; [exact E|]. split; [now rewrite C|]. subst fs'.
  rewrite !map_zlen_map in S1. split; [exact S1|]. rewrite <- concat_map, !ids_map in S4. subst l.
  intros k T T' HT HT' x. pose proof (ids_of_zlen Ts Ts' S1) as IE. split.
  - intros I. destruct (fsa_pos Ts k T x HT I) as (p & s & P1 & P2 & P3).
    assert (Ip : In p m). { apply (Permutation_in _ (Permutation_sym S2)). apply in_zrange. eapply rd_Some_bound; eauto. }
    apply In_rd in Ip. destruct Ip as (p' & _ & Hp'). pose proof (mapM_at _ _ _ p' p El Hp') as M1. pose proof (mapM_at _ _ _ p' p S4 Hp') as M2.
    rewrite P1 in M1. rewrite P2 in M2. apply (pos_fsa Ts' p' x s k T'); auto. now rewrite IE.
  - intros I. destruct (fsa_pos Ts' k T' x HT' I) as (p' & s & P1 & P2 & P3).
    assert (exists p, rd m p' = Some p) as (p & Hp). { apply rd_in_bound. rewrite <- (mapM_zlen _ _ _ El). eapply rd_Some_bound; eauto. }
    pose proof (mapM_at _ _ _ p' p El Hp) as M1. pose proof (mapM_at _ _ _ p' p S4 Hp) as M2.
    rewrite P1 in M1. rewrite P2 in M2. apply (pos_fsa Ts p x s k T); auto. now rewrite <- IE.
Qed.
Lemma index_select_ok {X} (src : list X) index d : src <> [] -> (forall i, In i index -> i = -1 \/ 0 <= i < zlen src) ->
  exists r, index_select1 src index d = Some r /\ zlen r = zlen index /\ forall p i, rd index p = Some i -> rd r p = if i =? -1 then Some d else rd src i.
Proof.
  intros N H. unfold index_select1. assert (zlen src <> 0) by (intros Z; apply zlen_0_nil in Z; auto). destruct (zlen index =? 0) eqn:E1; [|destruct (zlen src =? 0) eqn:E2; [lia|]]; cbn [orb].
  - exists []. split; auto. assert (index = []) by (apply zlen_0_nil; lia). subst. split; auto. intros p i Hp. rewrite rd_nil in Hp. discriminate.
  - assert (exists r, index1 d src index = Some r) as (r & R).
    { unfold index1. clear E1 E2. induction index as [|i l IH]; [exists []; reflexivity|]. destruct IH as (r & R); [intros; apply H; now right|]. cbn. rewrite R.
      destruct (H i (or_introl eq_refl)) as [->|Hi]; [exists (d :: r); reflexivity|]. destruct (rd_in_bound src i Hi) as (x & Hx). destruct (i <? 0) eqn:?; [lia|]. rewrite Hx. exists (x :: r). reflexivity. }
    exists r. split; auto. split; [exact (mapM_zlen _ _ _ R)|]. intros p i Hp. pose proof (mapM_at _ _ _ p i R Hp) as M. cbn in M. destruct (H i (rd_In _ _ _ Hp)) as [->|Hi]; [exact M|]. destruct (i =? -1) eqn:?; [lia|]. destruct (i <? 0) eqn:?; [lia|]. auto.
Qed.

Lemma index_select_some {X} (src : list X) m d y : src <> [] -> mapM (rd src) m = Some y -> index_select1 src m d = Some y.
Proof.
  intros N E. assert (H : forall i, In i m -> 0 <= i < zlen src). { intros i Hi. apply In_rd in Hi. destruct Hi as (p & _ & Hp). pose proof (mapM_at _ _ _ p i E Hp) as R. destruct (rd_in_bound y p) as (v & V); [rewrite (mapM_zlen _ _ _ E); eapply rd_Some_bound; eauto|]. rewrite V in R. eapply rd_Some_bound; eauto. }
  destruct (index_select_ok src m d N) as (r & R1 & R2 & R3); [auto|]. rewrite R1. f_equal. apply list_ext_rd; [rewrite R2; symmetry; exact (mapM_zlen _ _ _ E)|].
  intros p Hp. rewrite R2 in Hp. destruct (rd_in_bound m p Hp) as (i & Hi). rewrite (R3 p i Hi), (mapM_at _ _ _ p i E Hi). pose proof (H i (rd_In _ _ _ Hi)). destruct (i =? -1) eqn:?; [lia|auto].
Qed.
Lemma combine_split {X Y} (a : list X) (b : list Y) : zlen a = zlen b -> map fst (combine a b) = a /\ map snd (combine a b) = b.
Proof. unfold zlen. intros L. assert (L' : length a = length b) by lia. clear L. revert b L'. induction a as [|x a IH]; intros [|y b] L; try discriminate; auto. injection L as L. cbn. destruct (IH b L) as (-> & ->). auto. Qed.
Lemma rd_combine {X Y} (a : list X) (b : list Y) p x y : rd a p = Some x -> rd b p = Some y -> rd (combine a b) p = Some (x, y).
Proof.
  revert b p. induction a as [|u a IH]; intros [|v b] p H1 H2; try (rewrite rd_nil in *; discriminate). cbn [combine]. rewrite !rd_cons in *.
  destruct (p =? 0); [congruence|]. auto.
Qed.

(** ** Composition *)
Definition fst_ok (T : nfst) : Prop :=
  (T = [] \/ valid (fsa_of T)) /\ int32_labels (fsa_of T) /\
  forall t, In t (concat T) -> -1 <= snd t < 2 ^ 31 /\ (snd t = -1 <-> dst (fst t) = zlen T - 1).

Lemma all_arcs_map {B} (g : B -> arc) (T : list (list B)) : all_arcs (map (map g) T) = map g (concat T).
Proof. unfold all_arcs. now rewrite <- concat_map. Qed.
Lemma inv_valid T : fst_ok T -> T = [] \/ valid (inv_of T).
Proof.
  intros ([H|H] & _ & O); auto. right. destruct H as (V1 & V2 & V3). unfold inv_of, fsa_of, nstates in *. rewrite zlen_map in V2. split; [|split; [unfold nstates; now rewrite zlen_map|]].
  - intros i stt a Hi Ha. rewrite rd_map in Hi. destruct (rd T i) as [x|] eqn:Hx; [|discriminate]. injection Hi as <-. apply in_map_iff in Ha. destruct Ha as (t & <- & Ht). cbn [relab src].
    apply (V1 i (map fst x)); [now rewrite rd_map, Hx|]. apply in_map. auto.
  - intros a Ha. rewrite all_arcs_map in Ha. apply in_map_iff in Ha. destruct Ha as (t & <- & Ht). destruct (O t Ht) as (O1 & O2). destruct (V3 (fst t)) as (W1 & _ & _ & W4); [rewrite all_arcs_map; now apply in_map|].
    unfold final, nstates in *. rewrite !zlen_map in *. cbn [relab src dst lab] in *. split; [auto|]. split; [lia|]. split; auto.
Qed.
Lemma inv_int32 T : fst_ok T -> int32_labels (inv_of T).
Proof. intros (_ & _ & O) a Ha. unfold inv_of in Ha. rewrite all_arcs_map in Ha. apply in_map_iff in Ha. destruct Ha as (t & <- & Ht). cbn [relab lab]. destruct (O t Ht). lia. Qed.
Lemma zlen_permute {B} (x y : list B) : Permutation x y -> zlen x = zlen y.
Proof. intros H. unfold zlen. now rewrite (Permutation_length H). Qed.
Lemma p_valid_nil : p_valid [].
Proof. split; [intros i stt a Hi; rewrite rd_nil in Hi; discriminate|intros a []]. Qed.
Lemma valid_p_valid f : valid f -> p_valid f.
Proof. intros (V1 & V2 & V3). split; auto. intros a Ha. destruct (V3 a Ha) as (? & ? & ? & _). auto. Qed.
Lemma rel_nil eps x y s : ~ rel eps [] x y s.
Proof. intros (p & P & _). change (zlen (@nil (list tarc)) - 1) with (-1) in P. inversion P as [|a ? ? I]; subst. destruct I. Qed.
Lemma rel_incl eps (T T' : nfst) : zlen T = zlen T' -> (forall x, In x (concat T) <-> In x (concat T')) -> forall x y s, rel eps T x y s <-> rel eps T' x y s.
Proof. intros Z H x y s. unfold rel. rewrite Z. split; intros (p & P & R); exists p; split; auto; revert P; apply tpath_incl; intros t; apply H. Qed.

(** C26.  [Cs] is the batch of compositions. *)
Theorem C26_compose : forall s1 s2 s3 eps (As Bs : list nfst) aux_b,
  is_sched (zlen (concat (concat As))) s1 -> is_sched (zlen (concat (concat As))) s2 -> is_sched (zlen (concat (concat Bs))) s3 ->
  concat (concat As) <> [] -> concat (concat Bs) <> [] -> zlen As = zlen Bs \/ zlen As = 1 \/ zlen Bs = 1 ->
  (forall A, In A As -> fst_ok A) -> (forall B, In B Bs -> input (fsa_of B) /\ p_arcsorted (fsa_of B)) ->
  aux_b = Some (concat (map aux_of Bs)) \/ (aux_b = None /\ forall t, In t (concat (concat Bs)) -> snd t = lab (fst t)) ->
  exists Cs, zlen Cs = Z.max (zlen As) (zlen Bs) /\
    (forall s4, is_sched (zlen (concat (concat Cs))) s4 ->
       compose s1 s2 s3 s4 eps (vec_of As) (concat (map aux_of As)) (vec_of Bs) aux_b = Some (vec_of Cs, concat (map aux_of Cs))) /\
    forall k A B C, rd As (if zlen As =? 1 then 0 else k) = Some A -> rd Bs (if zlen Bs =? 1 then 0 else k) = Some B -> rd Cs k = Some C ->
      (C = [] \/ valid (fsa_of C)) /\
      forall x z s, rel eps C x z s <-> exists y s1 s2, rel eps A x y s1 /\ rel eps B y z s2 /\ s = s1 + s2.
Proof.
  intros s1 s2 s3 eps As Bs aux_b Hs1 Hs2 Hs3 NA NB Sz OA OB Aux.
  assert (AX : forall Ts : list nfst, concat (map aux_of Ts) = map snd (concat (concat Ts))).
  { clear. intros Ts. induction Ts as [|T Ts IH]; auto. cbn. rewrite IH, concat_app, map_app. reflexivity. }
  rewrite !AX in *.
  assert (VI : Forall p_valid (map inv_of As)).
  { apply Forall_forall. intros f Hf. apply in_map_iff in Hf. destruct Hf as (A & <- & HA). destruct (inv_valid A (OA A HA)) as [->|V]; [apply p_valid_nil|now apply valid_p_valid]. }
  pose proof (set_labels_ok s1 As Hs1 VI) as SL.
  destruct (C18_arc_sort_python s1 (map inv_of As)) as (fs' & m & ES & SV); [unfold inv_of; rewrite <- !concat_map, zlen_map; auto| |auto|].
  { apply Forall_forall. intros f Hf. apply in_map_iff in Hf. destruct Hf as (A & <- & HA). apply inv_int32; auto. }
  destruct (sort_tape As fs' m SV) as (Ts & -> & MT & ZT & IT). destruct SV as (_ & PM & _ & _ & SP).
  destruct (map_zlen_rd As Ts ZT) as (LT & _ & _ & ZTk).
  assert (SH : forall k A T, rd As k = Some A -> rd Ts k = Some T -> zlen T = zlen A) by auto.
  assert (HT : forall k T, rd Ts k = Some T -> exists A, rd As k = Some A).
  { intros k T H. apply rd_in_bound. rewrite <- LT. eapply rd_Some_bound; eauto. }
  assert (OT : forall T, In T Ts -> (T = [] \/ valid (inv_of T)) /\ int32_labels (inv_of T) /\ p_arcsorted (inv_of T) /\ forall t, In t (concat T) -> (lab (fst t) = -1 <-> snd t = -1) /\ -1 <= lab (fst t)).
  { intros T I. apply In_rd in I. destruct I as (k & _ & I). destruct (HT k T I) as (A & HA). pose proof (OA A (rd_In _ _ _ HA)) as O. pose proof (IT k A T HA I) as E. pose proof (SH k A T HA I) as Zk.
    assert (AL : forall a, In a (all_arcs (inv_of T)) <-> In a (all_arcs (inv_of A))). { intros a. unfold inv_of. rewrite !all_arcs_map, !in_map_iff. split; intros (t & <- & Ht); exists t; split; auto; now apply E. }
    assert (RW : forall r a b, rd (inv_of A) r = Some a -> rd (inv_of T) r = Some b -> Permutation a b /\ Sorting.Sorted.StronglySorted arc_le b).
    { intros r a b R1 R2. apply (SP k (inv_of A) (inv_of T) r); auto; rewrite rd_map; [now rewrite HA|now rewrite I]. }
    assert (ZI : zlen (inv_of T) = zlen (inv_of A)) by (unfold inv_of; now rewrite !zlen_map).
    split; [|split; [|split]].
    - destruct (inv_valid A O) as [->|(V1 & V2 & V3)]; [left; apply zlen_0_nil; rewrite Zk; reflexivity|right]. split; [|split].
      + intros r b a R Ha. destruct (rd_in_bound (inv_of A) r) as (a0 & R0); [rewrite <- ZI; eapply rd_Some_bound; eauto|]. destruct (RW r a0 b R0 R) as (P & _). apply (V1 r a0); auto. eapply Permutation_in; [apply Permutation_sym; eauto|auto].
      + unfold nstates in *. lia.
      + intros a Ha. apply AL in Ha. unfold nstates, final in *. rewrite ZI. auto.
    - intros a Ha. apply AL in Ha. revert a Ha. apply inv_int32; auto.
    - intros b Hb. apply In_rd in Hb. destruct Hb as (r & _ & R). destruct (rd_in_bound (inv_of A) r) as (a0 & R0); [rewrite <- ZI; eapply rd_Some_bound; eauto|]. now destruct (RW r a0 b R0 R).
    - intros t Ht. apply E in Ht. destruct O as ([->|(_ & _ & V3)] & _ & O3); [destruct Ht|]. destruct (O3 t Ht) as (_ & O4). destruct (V3 (fst t)) as (_ & V4 & V5 & _); [unfold fsa_of; rewrite all_arcs_map; now apply in_map|].
      unfold final, fsa_of in V5. rewrite zlen_map in V5. split; auto. tauto. }
  set (FT := concat (concat Ts)) in *. assert (ZF : zlen FT = zlen (concat (concat As))) by (rewrite (mapM_zlen _ _ _ MT), (zlen_permute _ _ PM); unfold inv_of; rewrite <- !concat_map, zlen_map, zlen_zrange by apply zlen_nonneg; auto).
  assert (NT : FT <> []). { intros E. rewrite E in ZF. change (zlen (@nil tarc)) with 0 in ZF. apply NA, zlen_0_nil. lia. }
  set (FB := concat (concat Bs)) in *.
  (* the left labels *)
  assert (EL : index_select1 (map lab (v_arcs (vec_of As))) m 0 = Some (map (fun t => lab (fst t)) FT)).
  { unfold vec_of. rewrite flat_vec_map. cbn [v_arcs]. rewrite map_map. apply index_select_some; [intros E; apply map_eq_nil in E; auto|]. rewrite mapM_rd_map, MT. reflexivity. }
  assert (NAs : 0 < zlen As). { destruct As; [now contradiction NA|rewrite zlen_cons; pose proof (zlen_nonneg As); lia]. }
  assert (NBs : 0 < zlen Bs). { destruct Bs; [now contradiction NB|rewrite zlen_cons; pose proof (zlen_nonneg Bs); lia]. }
  destruct (C25_intersect s2 s3 eps (map inv_of Ts) (map fsa_of Bs)) as (cl & ma & mb & EI & Zcl & Zma & Zmb & IK).
  { unfold inv_of. rewrite <- !concat_map, zlen_map. fold FT. now rewrite ZF. }
  { unfold fsa_of. rewrite <- !concat_map, zlen_map. exact Hs3. }
  { rewrite zlen_map. lia. } { rewrite zlen_map. lia. } { rewrite !zlen_map. lia. }
  { intros f Hf. apply in_map_iff in Hf. destruct Hf as (T & <- & H). destruct (OT T H) as (O1 & O2 & O3 & _). split; auto. split; auto. destruct O1 as [->|]; auto. }
  { intros f Hf. apply in_map_iff in Hf. destruct Hf as (B & <- & H). auto. }
  assert (BT : forall k, bidx (map inv_of Ts) k = if zlen As =? 1 then 0 else k) by (intros; unfold bidx; now rewrite zlen_map, LT).
  assert (BB : forall k, bidx (map fsa_of Bs) k = if zlen Bs =? 1 then 0 else k) by (intros; unfold bidx; now rewrite zlen_map).
  rewrite !zlen_map in Zcl. rewrite LT in Zcl.
  assert (FA1 : forall k, first_arc (map inv_of Ts) k = off1 (map (@concat tarc) Ts) k) by (intros; unfold first_arc, inv_of; apply off1_map3).
  assert (FB1 : forall k, first_arc (map fsa_of Bs) k = off1 (map (@concat tarc) Bs) k) by (intros; unfold first_arc, fsa_of; apply off1_map3).
  assert (TK : forall k, 0 <= k < zlen cl -> exists T B, rd Ts (bidx (map inv_of Ts) k) = Some T /\ rd Bs (bidx (map fsa_of Bs) k) = Some B).
  { intros k Hk. destruct (rd_in_bound Ts (bidx (map inv_of Ts) k)) as (T & HT1); [rewrite BT, LT; destruct (zlen As =? 1) eqn:?; lia|]. destruct (rd_in_bound Bs (bidx (map fsa_of Bs) k)) as (B & HB1); [rewrite BB; destruct (zlen Bs =? 1) eqn:?; lia|]. eauto. }
  assert (OR : forall k T B c j u, rd Ts (bidx (map inv_of Ts) k) = Some T -> rd Bs (bidx (map fsa_of Bs) k) = Some B -> rd cl k = Some c -> rd (all_arcs c) j = Some u ->
    exists i i', rd ma (first_arc cl k + j) = Some i /\ rd mb (first_arc cl k + j) = Some i' /\
      ((i = -1 /\ eps = true /\ lab u = 0) \/ (i <> -1 /\ exists t, rd (concat T) (i - first_arc (map inv_of Ts) (bidx (map inv_of Ts) k)) = Some t /\ rd FT i = Some t /\ lab u = snd t)) /\
      ((i' = -1 /\ eps = true /\ lab u = 0) \/ (i' <> -1 /\ exists t, rd (concat B) (i' - first_arc (map fsa_of Bs) (bidx (map fsa_of Bs) k)) = Some t /\ rd FB i' = Some t /\ lab u = lab (fst t)))).
  { intros k T B c j u HT1 HB1 Hc Hu.
    destruct (IK k (inv_of T) (fsa_of B) c) as (_ & _ & _ & O); [now rewrite rd_map, HT1|now rewrite rd_map, HB1|auto|]. destruct (O j u Hu) as (i & i' & I1 & I2 & OO). exists i, i'. split; [auto|]. split; [auto|].
    set (oa := first_arc (map inv_of Ts) (bidx (map inv_of Ts) k)) in *. set (ob := first_arc (map fsa_of Bs) (bidx (map fsa_of Bs) k)) in *.
    assert (XA : forall x, rd (all_arcs (inv_of T)) (i - oa) = Some x -> i <> -1 /\ exists t, rd (concat T) (i - oa) = Some t /\ rd FT i = Some t /\ lab x = snd t).
    { intros x Hx. pose proof (rd_Some_bound _ _ _ Hx). unfold inv_of in Hx. rewrite all_arcs_map, rd_map in Hx. destruct (rd (concat T) (i - oa)) as [t|] eqn:Et; [|discriminate]. injection Hx as <-.
      assert (O0 : 0 <= oa) by (unfold oa; rewrite FA1; apply off1_nonneg). split; [lia|]. exists t. split; [reflexivity|]. split; [|reflexivity].
      destruct (rd_concat_off (map (@concat tarc) Ts) (bidx (map inv_of Ts) k) (concat T) (i - oa) t) as (Q & _); [now rewrite rd_map, HT1|auto|]. rewrite concat_map_concat, <- FA1 in Q. fold oa in Q. replace (oa + (i - oa)) with i in Q by lia. exact Q. }
    assert (XB : forall x, rd (all_arcs (fsa_of B)) (i' - ob) = Some x -> i' <> -1 /\ exists t, rd (concat B) (i' - ob) = Some t /\ rd FB i' = Some t /\ lab x = lab (fst t)).
    { intros x Hx. pose proof (rd_Some_bound _ _ _ Hx). unfold fsa_of in Hx. rewrite all_arcs_map, rd_map in Hx. destruct (rd (concat B) (i' - ob)) as [t|] eqn:Et; [|discriminate]. injection Hx as <-.
      assert (O0 : 0 <= ob) by (unfold ob; rewrite FB1; apply off1_nonneg). split; [lia|]. exists t. split; [reflexivity|]. split; [|reflexivity].
      destruct (rd_concat_off (map (@concat tarc) Bs) (bidx (map fsa_of Bs) k) (concat B) (i' - ob) t) as (Q & _); [now rewrite rd_map, HB1|auto|]. rewrite concat_map_concat, <- FB1 in Q. fold ob in Q. replace (ob + (i' - ob)) with i' in Q by lia. exact Q. }
    destruct OO as [(x & y & Hx & Hy & L1 & L2 & _)|[(He & L & -> & x & Hx & L1 & _)|(He & L & -> & y & Hy & L1 & _)]].
    - destruct (XA x Hx) as (N1 & t1 & ? & ? & ?). destruct (XB y Hy) as (N2 & t2 & ? & ? & ?). split; right; (split; [auto|]); eexists; (split; [eauto|]); (split; [eauto|]); congruence.
    - destruct (XA x Hx) as (N1 & t1 & ? & ? & ?). split; [right|left; auto]. split; [auto|]. eexists; (split; [eauto|]); (split; [eauto|]); congruence.
    - destruct (XB y Hy) as (N1 & t1 & ? & ? & ?). split; [left; auto|right]. split; [auto|]. eexists; (split; [eauto|]); (split; [eauto|]); congruence. }
  assert (PO : forall p u, rd (concat (concat cl)) p = Some u -> exists k c j, rd cl k = Some c /\ rd (all_arcs c) j = Some u /\ p = first_arc cl k + j).
  { intros p u Hp. rewrite <- concat_map_concat in Hp. destruct (rd_concat_inv _ _ _ Hp) as (k & l & j & H1 & H2 & H3 & _). rewrite rd_map in H1. destruct (rd cl k) as [c|] eqn:Hc; [|discriminate]. injection H1 as <-. exists k, c, j. auto. }
  assert (GO : forall p u, rd (concat (concat cl)) p = Some u -> exists i i', rd ma p = Some i /\ rd mb p = Some i' /\
      ((i = -1 /\ lab u = 0) \/ (i <> -1 /\ exists t, rd FT i = Some t /\ lab u = snd t)) /\ ((i' = -1 /\ lab u = 0) \/ (i' <> -1 /\ exists t, rd FB i' = Some t /\ lab u = lab (fst t)))).
  { intros p u Hp. destruct (PO p u Hp) as (k & c & j & Hc & Hu & ->). destruct (TK k (rd_Some_bound _ _ _ Hc)) as (T & B & HT1 & HB1). destruct (OR k T B c j u HT1 HB1 Hc Hu) as (i & i' & I1 & I2 & J1 & J2).
    exists i, i'. split; auto. split; auto. split; [destruct J1 as [(?&?&?)|(?&t&?&?&?)]; eauto 6|destruct J2 as [(?&?&?)|(?&t&?&?&?)]; eauto 6]. }
  destruct (index_select_ok (map (fun t => lab (fst t)) FT) ma 0) as (ll & Ell & Zll & Rll).
  { intros E. apply map_eq_nil in E. auto. }
  { intros i Hi. apply In_rd in Hi. destruct Hi as (p & Bp & Hp). destruct (rd_in_bound (concat (concat cl)) p) as (u & Hu); [lia|]. destruct (GO p u Hu) as (i1 & _ & E1 & _ & [(-> & _)|(_ & t & Ht & _)] & _); rewrite Hp in E1; injection E1 as ->; auto. right. rewrite zlen_map. eapply rd_Some_bound; eauto. }
  destruct (index_select_ok (map snd FB) mb 0) as (aux & Eaux & Zaux & Raux).
  { intros E. apply map_eq_nil in E. auto. }
  { intros i Hi. apply In_rd in Hi. destruct Hi as (p & Bp & Hp). destruct (rd_in_bound (concat (concat cl)) p) as (u & Hu); [lia|]. destruct (GO p u Hu) as (_ & i1 & _ & E1 & _ & [(-> & _)|(_ & t & Ht & _)]); rewrite Hp in E1; injection E1 as ->; auto. right. rewrite zlen_map. eapply rd_Some_bound; eauto. }
  assert (EA : match aux_b with Some x => index_select1 x mb 0 | None => Some (map lab (concat (concat cl))) end = Some aux).
  { destruct Aux as [->|(-> & AL)]; [exact Eaux|]. f_equal. apply list_ext_rd; [rewrite zlen_map; lia|]. intros p Hp. rewrite zlen_map in Hp. destruct (rd_in_bound _ _ Hp) as (u & Hu). rewrite rd_map, Hu. cbn [option_map].
    destruct (GO p u Hu) as (_ & i & _ & I2 & _ & J). rewrite (Raux p i I2). destruct J as [(-> & ->)|(N & t & Ht & ->)]; [reflexivity|]. destruct (i =? -1) eqn:?; [lia|]. rewrite rd_map, Ht. cbn. now rewrite (AL t (rd_In _ _ _ Ht)). }
  set (FC := concat (concat cl)) in *.
  destruct (combine_split FC ll) as (K1 & K2); [lia|].
  destruct (regroup3 fst cl (combine FC ll)) as (Tc & ETc & CTc); [exact K1|].
  destruct (combine_split (map relab (combine FC ll)) aux) as (K3 & K4). { rewrite zlen_map, <- (zlen_map fst), K1. lia. }
  assert (FI : concat (concat (map inv_of Tc)) = map relab (combine FC ll)) by (unfold inv_of; rewrite <- !concat_map, CTc; reflexivity).
  destruct (regroup3 fst (map inv_of Tc) (combine (map relab (combine FC ll)) aux)) as (Cs & ECs & CCs); [now rewrite K3, FI|].
  assert (PC : forall p t, rd (concat (concat Cs)) p = Some t -> exists u l x, rd FC p = Some u /\ rd ll p = Some l /\ rd aux p = Some x /\ t = (mkArc (src u) (dst u) l (sc u), x)).
  { intros p t Hp. rewrite CCs in Hp. assert (Bp : 0 <= p < zlen FC). { apply rd_Some_bound in Hp. rewrite <- (zlen_map fst), K3, zlen_map, <- (zlen_map fst), K1 in Hp. exact Hp. }
    destruct (rd_in_bound FC p Bp) as (u & Hu). destruct (rd_in_bound ll p) as (l & Hl); [lia|]. destruct (rd_in_bound aux p) as (x & Hx); [lia|]. exists u, l, x. split; auto. split; auto. split; auto.
    pose proof (rd_combine FC ll p u l Hu Hl) as Q. rewrite (rd_combine _ aux p (relab (u, l)) x) in Hp; [injection Hp as <-; reflexivity|now rewrite rd_map, Q|auto]. }
  assert (LU : forall p u l, rd FC p = Some u -> rd ll p = Some l -> (l = -1 <-> lab u = -1) /\ -1 <= l).
  { intros p u l Hu Hl. destruct (GO p u Hu) as (i & _ & I1 & _ & J & _). rewrite (Rll p i I1) in Hl. destruct J as [(-> & ->)|(N & t & Ht & ->)]; [injection Hl as <-; lia|]. destruct (i =? -1) eqn:?; [lia|]. rewrite rd_map, Ht in Hl. injection Hl as <-.
    unfold FT in Ht. apply rd_In in Ht. apply in_concat in Ht. destruct Ht as (row & R1 & R2). apply in_concat in R1. destruct R1 as (T & R0 & R1). destruct (OT T R0) as (_ & _ & _ & O). apply O. apply in_concat. eauto. }
  assert (ZCs : zlen Cs = zlen cl). { rewrite <- (zlen_map (map (map fst)) Cs), <- ECs, ETc, !zlen_map. reflexivity. }
  (* element k *)
  assert (EK : forall k C, rd Cs k = Some C -> exists Tk c, rd Tc k = Some Tk /\ rd cl k = Some c /\ c = map (map fst) Tk /\ fsa_of C = inv_of Tk).
  { intros k C HC. destruct (rd_in_bound Tc k) as (Tk & HTk). { pose proof (rd_Some_bound _ _ _ HC). rewrite ETc, zlen_map in ZCs. lia. }
    exists Tk, (map (map fst) Tk). split; auto. split; [rewrite ETc, rd_map, HTk; reflexivity|]. split; auto. unfold fsa_of.
    assert (Q : rd (map inv_of Tc) k = rd (map (map (map fst)) Cs) k) by now rewrite ECs. rewrite !rd_map, HTk, HC in Q. injection Q as Q. auto. }
  assert (OFC : forall k, off1 (map (@concat tarc) Cs) k = first_arc cl k).
  { intros k. rewrite <- (off1_map3 (@fst arc Z)), <- ECs. unfold inv_of. rewrite off1_map3. unfold first_arc. rewrite ETc. unfold all_arcs. now rewrite off1_map3. }
  assert (CP : forall k C j t, rd Cs k = Some C -> rd (concat C) j = Some t -> exists c u l x, rd cl k = Some c /\ rd (all_arcs c) j = Some u /\ rd ll (first_arc cl k + j) = Some l /\ rd aux (first_arc cl k + j) = Some x /\ t = (mkArc (src u) (dst u) l (sc u), x)).
  { intros k C j t HC Ht. destruct (EK k C HC) as (Tk & c & HTk & Hc & Ec & Ef). destruct (rd_concat_off (map (@concat tarc) Cs) k (concat C) j t) as (Q & _); [now rewrite rd_map, HC|auto|]. rewrite concat_map_concat, OFC in Q.
    destruct (PC _ _ Q) as (u & l & x & Hu & Hl & Hx & ->). exists c, u, l, x. split; auto. split; [|auto].
    destruct (rd_in_bound (all_arcs c) j) as (u' & Hu'). { pose proof (rd_Some_bound _ _ _ Ht). assert (Zj : zlen (all_arcs (fsa_of C)) = zlen (all_arcs (inv_of Tk))) by now rewrite Ef. unfold fsa_of, inv_of in Zj. rewrite !all_arcs_map, !zlen_map in Zj. rewrite Ec, all_arcs_map, zlen_map. lia. }
    destruct (rd_concat_off (map (@concat arc) cl) k (all_arcs c) j u') as (Q' & _); [now rewrite rd_map, Hc|auto|]. rewrite concat_map_concat in Q'. fold FC in Q'. change (off1 (map (@concat arc) cl) k) with (first_arc cl k) in Q'. rewrite Q' in Hu. congruence. }
  assert (NC : forall k C c, rd Cs k = Some C -> rd cl k = Some c -> zlen C = zlen c).
  { intros k C c HC Hc. destruct (EK k C HC) as (Tk & c' & HTk & Hc' & Ec & Ef). rewrite Hc in Hc'. injection Hc' as <-. rewrite Ec, zlen_map. rewrite <- (zlen_map (map (@fst arc Z)) C). change (map (map fst) C) with (fsa_of C). rewrite Ef. unfold inv_of. apply zlen_map. }
  assert (ZA : forall k C c, rd Cs k = Some C -> rd cl k = Some c -> zlen (concat C) = zlen (all_arcs c)).
  { intros k C c HC Hc. destruct (EK k C HC) as (Tk & c' & HTk & Hc' & Ec & Ef). rewrite Hc in Hc'. injection Hc' as <-. assert (Zj : zlen (all_arcs (fsa_of C)) = zlen (all_arcs (inv_of Tk))) by now rewrite Ef. unfold fsa_of, inv_of in Zj. rewrite !all_arcs_map, !zlen_map in Zj. now rewrite Ec, all_arcs_map, zlen_map. }
  assert (VC : forall k C c, rd Cs k = Some C -> rd cl k = Some c -> valid c -> valid (fsa_of C)).
  { intros k C c HC Hc (V1 & V2 & V3). pose proof (NC k C c HC Hc) as Zk. unfold fsa_of. split; [|split].
    - intros r row a Hr Ha. destruct (EK k C HC) as (Tk & c' & HTk & Hc' & Ec & Ef). rewrite Hc in Hc'. injection Hc' as <-. unfold fsa_of in Ef. rewrite Ef in Hr. unfold inv_of in Hr. rewrite rd_map in Hr. destruct (rd Tk r) as [rk|] eqn:Hrk; [|discriminate]. injection Hr as <-. apply in_map_iff in Ha. destruct Ha as (t & <- & Ht). cbn [relab src].
      apply (V1 r (map fst rk)); [now rewrite Ec, rd_map, Hrk|now apply in_map].
    - unfold nstates in *. rewrite zlen_map. lia.
    - intros a Ha. rewrite all_arcs_map in Ha. apply in_map_iff in Ha. destruct Ha as (t & <- & Ht). apply In_rd in Ht. destruct Ht as (j & _ & Ht). destruct (CP k C j t HC Ht) as (c' & u & l & x & Hc' & Hu & Hl & Hx & ->). rewrite Hc in Hc'. injection Hc' as <-.
      destruct (V3 u (rd_In _ _ _ Hu)) as (W1 & W2 & W3 & W4). cbn [fst src dst lab]. destruct (LU (first_arc cl k + j) u l) as (L1 & L2); [|auto|].
      { unfold FC, first_arc. rewrite <- concat_map_concat. apply (rd_concat_off (map all_arcs cl) k (all_arcs c)); [now rewrite rd_map, Hc|auto]. }
      unfold nstates, final in *. rewrite zlen_map, Zk. split; [auto|]. split; [auto|]. split; [|auto]. rewrite L1. exact W3. }
  assert (VK : forall k C c, rd Cs k = Some C -> rd cl k = Some c -> c = [] \/ valid c).
  { intros k C c HC Hc. destruct (TK k (rd_Some_bound _ _ _ Hc)) as (T & B & HT1 & HB1). destruct (IK k (inv_of T) (fsa_of B) c) as (V & E & _ & _); [now rewrite rd_map, HT1|now rewrite rd_map, HB1|auto|].
    destruct T as [|? ?]; [left; apply E; now left|]. destruct B as [|? ?]; [left; apply E; now right|]. right. apply V. split; discriminate. }
  exists Cs. split; [lia|]. split.
  - intros s4 Hs4. rewrite AX. assert (ZV : zlen (v_arcs (flat_vec (map inv_of Ts))) = zlen FT). { unfold inv_of. rewrite flat_vec_map. cbn [v_arcs]. apply zlen_map. }
    unfold compose. rewrite SL. cbv zeta. rewrite ES, EL. rewrite zlen_map, ZV, Z.eqb_refl. change (vec_of Bs) with (flat_vec (map fsa_of Bs)). rewrite EI, Ell.
    change (v_arcs (flat_vec cl)) with FC. destruct (zlen ll =? zlen FC) eqn:?; [|lia]. rewrite EA. destruct (zlen aux =? zlen FC) eqn:?; [|lia].
    assert (ZC : zlen (concat (concat Tc)) = zlen (concat (concat Cs))). { rewrite CTc, CCs, <- (zlen_map fst (combine FC ll)), K1, <- (zlen_map fst), K3, zlen_map, <- (zlen_map fst (combine FC ll)), K1. reflexivity. }
    pose proof (set_labels_ok s4 Tc ltac:(now rewrite ZC)) as SL4. rewrite CTc, K2 in SL4. unfold vec_of in SL4. rewrite <- ETc in SL4. rewrite SL4.
    + f_equal. f_equal; [|rewrite CCs; auto]. unfold vec_of. now rewrite ECs.
    + rewrite ECs. apply Forall_forall. intros f Hf. apply in_map_iff in Hf. destruct Hf as (C & <- & HC). apply In_rd in HC. destruct HC as (k & _ & HC). destruct (EK k C HC) as (Tk & c & HTk & Hc & Ec & Ef).
      destruct (VK k C c HC Hc) as [E0|V]; [|apply valid_p_valid; now apply (VC k C c)]. assert (C = []) as -> by (apply zlen_0_nil; rewrite (NC k C c HC Hc), E0; reflexivity). apply p_valid_nil.
  - intros k A B C HA HB HC. destruct (EK k C HC) as (Tk & c & HTk & Hc & Ec & Ef). rewrite <- BT in HA. rewrite <- BB in HB.
    destruct (rd_in_bound Ts (bidx (map inv_of Ts) k)) as (T & HT1); [rewrite LT; eapply rd_Some_bound; eauto|].
    split. { destruct (VK k C c HC Hc) as [E0|V]; [left|right; now apply (VC k C c)]. apply zlen_0_nil. rewrite (NC k C c HC Hc), E0. reflexivity. }
    intros x z s.
    assert (RA : forall x y s, rel eps A x y s <-> rel eps T x y s). { apply rel_incl; [symmetry; eapply SH; eauto|]. exact (IT _ A T HA HT1). }
    destruct (IK k (inv_of T) (fsa_of B) c) as (_ & E0 & IS & _); [now rewrite rd_map, HT1|now rewrite rd_map, HB|auto|].
    assert (CASE : (T = [] \/ B = []) \/ (valid (inv_of T) /\ valid (fsa_of B))).
    { destruct (OT T (rd_In _ _ _ HT1)) as ([->|V] & _); auto. destruct (OB B (rd_In _ _ _ HB)) as (([E|V'] & _) & _); auto. left. right. unfold fsa_of in E. now apply map_eq_nil in E. }
    destruct CASE as [CASE|(VT & VB)].
    + assert (C0 : c = []) by (apply E0; destruct CASE as [->| ->]; auto). assert (C = []) as -> by (apply zlen_0_nil; rewrite (NC k C c HC Hc), C0; reflexivity).
      split; [intros R; now apply rel_nil in R|]. intros (y & t1 & t2 & R1 & R2 & _). apply RA in R1. destruct CASE as [->| ->]; [now apply rel_nil in R1|now apply rel_nil in R2].
    + setoid_rewrite RA. unfold rel. pose proof (core eps (inv_of T) (fsa_of B) c (concat T) (concat B) (concat C) ma mb (first_arc cl k) (first_arc (map inv_of Ts) (bidx (map inv_of Ts) k)) (first_arc (map fsa_of Bs) (bidx (map fsa_of Bs) k)) VT VB IS) as CO.
      unfold nstates in CO. rewrite <- (NC k C c HC Hc) in CO. unfold inv_of, fsa_of in CO. rewrite !zlen_map, !all_arcs_map, !zlen_map in CO. fold inv_of in CO. fold fsa_of in CO.
      apply CO; auto.
      * now apply (ZA k).
      * intros i u t Hu Ht. rewrite rd_map, Ht in Hu. injection Hu as <-. cbn. auto.
      * intros i u t Hu Ht. rewrite rd_map, Ht in Hu. injection Hu as <-. auto.
      * intros i u t Hu Ht. destruct (CP k C i t HC Ht) as (c' & u' & l & w & Hc' & Hu' & _ & _ & ->). rewrite Hc in Hc'. injection Hc' as <-. rewrite Hu in Hu'. injection Hu' as <-. auto.
      * intros j t Ht. destruct (CP k C j t HC Ht) as (c' & u' & l & w & Hc' & Hu' & Hl & _ & ->). destruct (OR k T B c' j u' HT1 HB Hc' Hu') as (i & _ & I1 & _ & J & _). exists i. split; auto. rewrite (Rll _ i I1) in Hl. cbn [fst lab].
        destruct J as [(-> & ? & ?)|(N & t' & T1 & T2 & T3)]; [left; injection Hl as <-; auto|right]. split; auto. exists t'. split; auto. destruct (i =? -1) eqn:?; [lia|]. rewrite rd_map, T2 in Hl. now injection Hl as <-.
      * intros j t Ht. destruct (CP k C j t HC Ht) as (c' & u' & l & w & Hc' & Hu' & _ & Hx & ->). destruct (OR k T B c' j u' HT1 HB Hc' Hu') as (_ & i & _ & I1 & _ & J). exists i. split; auto. rewrite (Raux _ i I1) in Hx. cbn [snd].
        destruct J as [(-> & ? & ?)|(N & t' & T1 & T2 & T3)]; [left; injection Hx as <-; auto|right]. split; auto. exists t'. split; auto. destruct (i =? -1) eqn:?; [lia|]. rewrite rd_map, T2 in Hx. now injection Hx as <-.
      * pose proof (zlen_nonneg C). lia.
Qed.
Print Assumptions C26_compose.

(** C26 with epsilons treated specially (the default of k2.compose), for two FSTs:
    the result transduces x to z iff there is a y in between. *)
Theorem C26_transduces : forall s1 s2 s3 (A B : nfst),
  is_sched (zlen (concat A)) s1 -> is_sched (zlen (concat A)) s2 -> is_sched (zlen (concat B)) s3 ->
  concat A <> [] -> concat B <> [] -> fst_ok A -> input (fsa_of B) -> p_arcsorted (fsa_of B) ->
  exists C, (forall s4, is_sched (zlen (concat C)) s4 ->
      compose s1 s2 s3 s4 true (vec_of [A]) (aux_of A) (vec_of [B]) (Some (aux_of B)) = Some (vec_of [C], aux_of C)) /\
    forall x z s, transduces C x z s <-> exists y s1 s2, transduces A x y s1 /\ transduces B y z s2 /\ s = s1 + s2.
Proof.
  intros s1 s2 s3 A B H1 H2 H3 NA NB OA IB SB.
  destruct (C26_compose s1 s2 s3 true [A] [B] (Some (concat (map aux_of [B])))) as (Cs & Z & E & R); cbn [concat]; rewrite ?app_nil_r; auto.
  { intros T [<-|[]]; auto. } { intros T [<-|[]]; auto. }
  change (Z.max (zlen [A]) (zlen [B])) with 1 in Z. destruct Cs as [|C [|C' Cs]]; [discriminate| |rewrite !zlen_cons in Z; pose proof (zlen_nonneg Cs); lia].
  exists C. split.
  - intros s4 H4. specialize (E s4). cbn [concat map] in E. rewrite !app_nil_r in E. auto.
  - exact (proj2 (R 0 A B C eq_refl eq_refl eq_refl)).
Qed.
Print Assumptions C26_transduces.

Definition c26_a : nfst := [[(mkArc 0 1 5 2, 8); (mkArc 0 1 6 1, 0)]; [(mkArc 1 1 9 4, 7); (mkArc 1 2 (-1) 3, -1)]; []].
Definition c26_b : nfst := [[(mkArc 0 0 0 1, 21); (mkArc 0 0 7 10, 22); (mkArc 0 1 8 20, 0)]; [(mkArc 1 1 7 30, 23); (mkArc 1 2 (-1) 40, -1)]; []].
Example C26_ex : fst_ok c26_a /\ input (fsa_of c26_b) /\ p_arcsorted (fsa_of c26_b) /\
  is_sched (zlen (concat c26_a)) (zrange 4) /\ is_sched (zlen (concat c26_b)) (zrange 5) /\ concat c26_a <> [] /\ concat c26_b <> [] /\
  option_map (fun r => (v_arcs (fst r), snd r)) (compose (zrange 4) (zrange 4) (zrange 5) (zrange 7) true (vec_of [c26_a]) (aux_of c26_a) (vec_of [c26_b]) (Some (aux_of c26_b))) =
    Some ([mkArc 0 1 6 1; mkArc 0 0 0 1; mkArc 0 2 5 22; mkArc 1 1 0 1; mkArc 1 1 9 14; mkArc 2 2 9 34; mkArc 2 3 (-1) 43], [0; 21; 0; 21; 22; 23; -1]) /\
  rel true c26_a [5; 9] [8; 7] 9 /\ rel true c26_b [8; 7] [21; 23] 91.
Proof.
  split.
  { split; [right; apply validb_ok; reflexivity|]. split; [intros u [<-|[<-|[<-|[<-|[]]]]]; cbn; lia|]. intros t [<-|[<-|[<-|[<-|[]]]]]; cbn; change (zlen c26_a - 1) with 2; lia. }
  split; [split; [right; apply validb_ok; reflexivity|intros u [<-|[<-|[<-|[<-|[<-|[]]]]]]; cbn; lia]|].
  split; [intros r [<-|[<-|[<-|[]]]]; repeat constructor; left; vm_compute; reflexivity|].
  split; [apply is_sched_zrange|]. split; [apply is_sched_zrange|]. split; [discriminate|]. split; [discriminate|]. split; [vm_compute; reflexivity|]. split.
  - exists [(mkArc 0 1 5 2, 8); (mkArc 1 1 9 4, 7); (mkArc 1 2 (-1) 3, -1)]. split; [|repeat split; reflexivity]. repeat (eapply tpath_cons with (a := (mkArc _ _ _ _, _)); [cbn; tauto|]). constructor.
  - exists [(mkArc 0 0 0 1, 21); (mkArc 0 1 8 20, 0); (mkArc 1 1 7 30, 23); (mkArc 1 2 (-1) 40, -1)]. split; [|repeat split; reflexivity]. repeat (eapply tpath_cons with (a := (mkArc _ _ _ _, _)); [cbn; tauto|]). constructor.
Qed.

(** The requirement that both inputs have arcs is needed: without any arc in the first
    input, left_labels cannot be indexed and the call raises. *)
Theorem C26_no_arcs_refuted : exists (A B : nfst),
  fst_ok A /\ input (fsa_of B) /\ p_arcsorted (fsa_of B) /\ concat B <> [] /\
  forall s4, compose [] [] (zrange 2) s4 true (vec_of [A]) (aux_of A) (vec_of [B]) (Some (aux_of B)) = None.
Proof.
  exists [[]; []], [[(mkArc 0 1 0 0, 0)]; [(mkArc 1 2 (-1) 0, -1)]; []].
  split. { split; [right; apply validb_ok; reflexivity|]. split; [intros u []|intros t []]. }
  split; [split; [right; apply validb_ok; reflexivity|intros u [<-|[<-|[]]]; cbn; lia]|].
  split; [intros r [<-|[<-|[<-|[]]]]; repeat constructor|]. split; [discriminate|]. intros s4. vm_compute. reflexivity.
Qed.
Print Assumptions C26_no_arcs_refuted.
