(** * C21: reverse. *)
From Coq Require Import ZArith List Lia Bool Permutation.
From Coq Require Import ZifyBool ZifyNat.
From Verif Require Import Base RaggedModel RaggedSpec RaggedProofs FsaSpec FsaLemmas FsaOpsModel FsaOpsProofs FsaOpsProps
  EpsLoopProofs RaggedOpsModel RaggedOpsProofs RaggedListProofs OpsModel OpsProofs FstSpec GraphProofs PropsModel PropsProofs ReverseModel ReverseProofs.
Import ListNotations.
Open Scope Z_scope.

(** ** What reversing means.  State 0 and the old final state change places;
    a new final state follows the others. *)
Definition swap_ends (n s : Z) : Z := if s =? 0 then n - 1 else if s =? n - 1 then 0 else s.

(** Arc [b] is arc [a] of an FSA with [n] states walked backwards. *)
Definition reverses (n : Z) (a b : arc) : Prop :=
  src b = swap_ends n (dst a) /\ dst b = swap_ends n (src a) /\
  lab b = (if lab a =? -1 then 0 else lab a) /\ sc b = sc a.

(** [g] with arc map [gm] (one entry per arc of [g]) is the reversal of the FSA
    [f], whose arcs are numbered from [base]. *)
Definition reversal (base : Z) (f g : nfsa) (gm : list Z) : Prop :=
  (f = [] -> g = []) /\
  (f <> [] ->
   valid g /\ nstates g = nstates f + 1 /\
   (forall w s, accepts_str g w s <-> accepts_str f (rev w) s)) /\
  zlen gm = zlen (all_arcs g) /\
  (forall q b i, rd (all_arcs g) q = Some b -> rd gm q = Some i ->
     (i = -1 /\ src b = nstates f - 1 /\ dst b = nstates f /\ lab b = -1 /\ sc b = 0) \/
     (exists j a, i = base + j /\ rd (all_arcs f) j = Some a /\ reverses (nstates f) a b)) /\
  (forall j, 0 <= j < zlen (all_arcs f) -> exists q, rd gm q = Some (base + j)) /\
  (forall q q' i, rd gm q = Some i -> rd gm q' = Some i -> q = q').

(** ** Paths *)
Lemma lab_strip_map L : Forall (fun l => l <> -1) L -> strip (map (fun l => if l =? -1 then 0 else l) L) = strip L.
Proof.
  intros H. f_equal. rewrite <- (map_id L) at 2. apply map_ext_in. intros l Hl. rewrite Forall_forall in H.
  specialize (H l Hl). replace (l =? -1) with false by lia. reflexivity.
Qed.

Lemma strip_rev L : strip (rev L) = rev (strip L).
Proof.
  induction L as [|x L IH]; auto. cbn [rev]. rewrite strip_app, IH. unfold strip. cbn [filter].
  destruct (negb (x =? 0)); cbn [rev]; [reflexivity|now rewrite app_nil_r].
Qed.

Lemma score_rev p : score (rev p) = score p.
Proof. induction p as [|a p IH]; auto. cbn [rev]. rewrite score_app, IH, score_cons. unfold score; cbn [map zsum fold_right]. lia. Qed.

Lemma valid_path_end f : valid f -> forall p s, path (all_arcs f) s p (final f) -> s <> final f ->
  exists p' a, p = p' ++ [a] /\ lab a = -1 /\ Forall (fun b => lab b <> -1) p'.
Proof.
  intros (SO & NS & V) p. induction p as [|a p IH]; intros s H Hs.
  - destruct (path_inv _ _ _ _ H) as [(_ & E)|(? & ? & E & _)]; congruence.
  - destruct (path_inv _ _ _ _ H) as [(E & _)|(a' & p' & E & HI & E1 & HP)]; [discriminate|]. injection E as <- <-.
    destruct (V a HI) as (V1 & V2 & V3 & V4).
    destruct (Z.eq_dec (dst a) (final f)) as [D|D].
    + rewrite D in HP. destruct (path_inv _ _ _ _ HP) as [(-> & _)|(b & q & -> & HB & E2 & _)].
      * exists [], a. split; [reflexivity|]. split; [tauto|constructor].
      * exfalso. destruct (V b HB) as (_ & _ & _ & N). congruence.
    + destruct (IH _ HP D) as (q & b & -> & L1 & L2). exists (a :: q), b. split; [reflexivity|]. split; auto.
      constructor; auto. rewrite V3. exact D.
Qed.

Section L.
Variables f g : nfsa.
Hypothesis VF : valid f.
Let n := zlen f.
Hypothesis NG : zlen g = n + 1.
Hypothesis GA : forall b, In b (all_arcs g) <->
  (b = mkArc (n - 1) n (-1) 0 \/ exists a, In a (all_arcs f) /\ b = rev_arc n a).

Lemma n2 : 2 <= n.
Proof. destruct VF as (_ & H & _). exact H. Qed.
Lemma arc_range a : In a (all_arcs f) -> 0 <= src a < n /\ 0 <= dst a < n.
Proof.
  intros H. destruct VF as (SO & _ & V). split; [|apply V; auto].
  unfold all_arcs in H. apply in_concat in H as (st & H1 & H2). apply In_rd in H1 as (i & Hi & H1).
  rewrite (SO i st a H1 H2). exact Hi.
Qed.

Lemma path_rev s p t : path (all_arcs f) s p t -> path (all_arcs g) (rho n t) (rev (map (rev_arc n) p)) (rho n s).
Proof.
  induction 1 as [s|a p t HI HP IH]; [constructor|]. cbn [map rev].
  apply path_app with (m := rho n (dst a)); auto. eapply path_step; [apply GA; right; exists a; eauto|reflexivity|constructor].
Qed.

Lemma path_unrev q : forall s t, path (all_arcs g) s q t -> 0 <= s < n -> 0 <= t < n ->
  exists p, q = rev (map (rev_arc n) p) /\ path (all_arcs f) (rho n t) p (rho n s).
Proof.
  induction q as [|b q IH]; intros s t H Hs Ht.
  - destruct (path_inv _ _ _ _ H) as [(_ & ->)|(? & ? & E & _)]; [|discriminate]. exists []. split; [reflexivity|constructor].
  - destruct (path_inv _ _ _ _ H) as [(E & _)|(b' & q' & E & HI & E1 & HP)]; [discriminate|]. injection E as <- <-.
    apply GA in HI as [->|(a & Ha & ->)].
    + cbn [dst src] in *. exfalso. destruct (path_inv _ _ _ _ HP) as [(_ & E)|(b & q' & _ & HB & E2 & _)]; [lia|].
      apply GA in HB as [->|(a & Ha & ->)]; cbn [src rev_arc] in E2; [lia|].
      destruct (arc_range a Ha) as (_ & R). apply rho_range in R. unfold rev_arc in E2. cbn [src] in E2. lia.
    + destruct (arc_range a Ha) as (R1 & R2). unfold rev_arc in E1, HP. cbn [src dst] in E1, HP.
      destruct (IH _ _ HP (rho_range _ _ R1) Ht) as (p & -> & PP). rewrite rho_inv in PP by auto.
      exists (p ++ [a]). rewrite map_app, rev_app_distr. split; [reflexivity|].
      apply path_app with (m := src a); auto. eapply path_step; eauto. subst s. rewrite rho_inv by auto. constructor.
Qed.

Lemma labels_rev_arcs p : labels (rev (map (rev_arc n) p)) = rev (map (fun l => if l =? -1 then 0 else l) (labels p)).
Proof. unfold labels. rewrite map_rev, !map_map. reflexivity. Qed.
Lemma score_rev_arcs p : score (rev (map (rev_arc n) p)) = score p.
Proof. rewrite score_rev. unfold score. rewrite map_map. reflexivity. Qed.

Lemma rho_ends : rho n (n - 1) = 0 /\ rho n 0 = n - 1.
Proof. pose proof n2. unfold rho. change (0 =? 0) with true. replace (n - 1 =? 0) with false by lia. rewrite Z.eqb_refl. auto. Qed.

Lemma strip_rev_labels p : path (all_arcs f) 0 p (n - 1) -> exists w,
  strip (labels p) = w ++ [-1] /\ strip (labels (rev (map (rev_arc n) p))) = rev w.
Proof.
  intros H. pose proof n2. destruct (valid_path_end f VF p 0 H) as (p' & a & -> & L1 & L2); [unfold final; fold n; lia|].
  exists (strip (labels p')). rewrite labels_app, strip_app. cbn [labels map]. rewrite L1. split; [reflexivity|].
  rewrite labels_rev_arcs, strip_rev. f_equal. rewrite labels_app, map_app, strip_app. cbn [labels map]. rewrite L1.
  change (strip [if -1 =? -1 then 0 else -1]) with (@nil Z). rewrite app_nil_r. apply lab_strip_map.
  unfold labels. apply Forall_map. exact L2.
Qed.

Lemma reversed_language w s : accepts_str g w s <-> accepts_str f (rev w) s.
Proof.
  pose proof n2. destruct rho_ends as (R0 & R1). unfold accepts_str, final. rewrite NG. fold n.
  replace (n + 1 - 1) with n by lia. split.
  - intros (q & HP & HL & HS).
    assert (NQ : q <> []).
    { intros ->. destruct (path_inv _ _ _ _ HP) as [(_ & E)|(? & ? & E & _)]; [lia|discriminate]. }
    destruct (exists_last NQ) as (q' & b & ->).
    destruct (path_app_inv _ _ _ _ _ HP) as (m & P1 & P2).
    destruct (path_inv _ _ _ _ P2) as [(E & _)|(b' & z & E & HI & E1 & P3)]; [discriminate|]. injection E as <- <-.
    destruct (path_inv _ _ _ _ P3) as [(_ & E2)|(? & ? & E & _)]; [|discriminate].
    apply GA in HI as [->|(a & Ha & ->)].
    2:{ exfalso. unfold rev_arc in E2. cbn [dst] in E2. destruct (arc_range a Ha) as (R & _). apply rho_range in R. lia. }
    cbn [src] in E1. subst m. destruct (path_unrev q' _ _ P1 ltac:(lia) ltac:(lia)) as (p & -> & PP).
    rewrite R0, R1 in PP. exists p. split; auto. destruct (strip_rev_labels p PP) as (w' & W1 & W2).
    rewrite labels_app, strip_app, W2 in HL. change (strip (labels [_])) with [-1] in HL.
    apply app_inv_tail in HL. subst w. rewrite rev_involutive. split; auto.
    rewrite score_app, score_rev_arcs in HS. change (score [_]) with 0 in HS. lia.
  - intros (p & HP & HL & HS). destruct (strip_rev_labels p HP) as (w' & W1 & W2).
    rewrite W1 in HL. apply app_inv_tail in HL. subst w'. rewrite rev_involutive in W2.
    exists (rev (map (rev_arc n) p) ++ [mkArc (n - 1) n (-1) 0]). split; [|split].
    + apply path_app with (m := n - 1).
      * pose proof (path_rev _ _ _ HP) as Q. rewrite R0, R1 in Q. exact Q.
      * eapply path_step; [apply GA; left; reflexivity|reflexivity|constructor].
    + rewrite labels_app, strip_app, W2. reflexivity.
    + rewrite score_app, score_rev_arcs. change (score [_]) with 0. lia.
Qed.
End L.

(** ** One FSA of the result *)
Lemma NoDup_concat_tab {X} n (F : Z -> list X) :
  (forall c, 0 <= c < n -> NoDup (F c)) ->
  (forall c d x, 0 <= c < n -> 0 <= d < n -> In x (F c) -> In x (F d) -> c = d) -> NoDup (concat (tab n F)).
Proof.
  intros H1 H2. destruct (Z_lt_ge_dec n 0) as [N|N].
  { unfold tab, zrange. replace (Z.to_nat n) with 0%nat by lia. constructor. }
  assert (G : forall d, Z.of_nat d <= n -> NoDup (concat (tab (Z.of_nat d) F))).
  { induction d as [|d IH]; intros Hd; [constructor|].
    replace (Z.of_nat (S d)) with (Z.of_nat d + 1) by lia. unfold tab in *. rewrite zrange_S, map_app, concat_app by lia.
    cbn [map concat]. rewrite app_nil_r. apply NoDup_app_disj; [apply IH; lia|apply H1; lia|].
    intros x I1 I2. change (map F (zrange (Z.of_nat d))) with (tab (Z.of_nat d) F) in I1.
    apply in_concat_tab in I1 as (c & Hc & I1). pose proof (H2 c (Z.of_nat d) x ltac:(lia) ltac:(lia) I1 I2). lia. }
  replace n with (Z.of_nat (Z.to_nat n)) by lia. apply G. lia.
Qed.

Lemma NoDup_rd {X} (l : list X) : NoDup l -> forall i j x, rd l i = Some x -> rd l j = Some x -> i = j.
Proof.
  intros H i j x Hi Hj. pose proof (rd_Some_bound _ _ _ Hi) as Bi. pose proof (rd_Some_bound _ _ _ Hj) as Bj.
  unfold rd in *. destruct (i <? 0) eqn:?; [lia|]. destruct (j <? 0) eqn:?; [lia|].
  assert (Z.to_nat i = Z.to_nat j); [|lia].
  apply (proj1 (NoDup_nth_error l) H). - apply nth_error_Some. congruence. - congruence.
Qed.

Section O.
Variable fs : list nfsa.
Hypothesis V : Forall (fun f : nfsa => f = [] \/ valid f) fs.

Lemma V_src : Forall src_ok fs.
Proof. eapply Forall_impl; [|exact V]. intros f [->|(H & _)]; auto. intros i st a H. rewrite rd_nil in H. discriminate. Qed.
Lemma V_dst : Forall (fun f : nfsa => forall a, In a (all_arcs f) -> 0 <= dst a < nstates f) fs.
Proof. eapply Forall_impl; [|exact V]. intros f [->|(_ & _ & H)] a Ha; [destruct Ha|]. apply H; auto. Qed.

Variables (k : Z) (f : nfsa).
Hypothesis Hk : rd fs k = Some f.
Let n := zlen f.
Let base := off1 (map (@concat arc) fs) k.

Lemma bucket_char s i : 0 <= s < n ->
  (In i (bucket (gdest fs) (off1 fs k + s) (zlen (concat (concat fs)))) <->
   exists j a, rd (concat f) j = Some a /\ i = base + j /\ dst a = s).
Proof.
  intros Hs. rewrite in_bucket. split.
  - intros (Bi & Hi). destruct (arc_pos fs i Bi) as (k' & f' & r & st & j & a & K1 & K2 & K3 & ->).
    rewrite (rd_gdest fs k' f' r st j a) in Hi by auto. injection Hi as Hi.
    destruct (arc_at fs V_src V_dst k' f' r st j a K1 K2 K3) as (_ & _ & _ & E4).
    destruct (row_unique fs k' f' (dst a) k f s K1 Hk E4 Hs Hi) as (EK & EF & ES). subst k' f'.
    exists (off1 f r + j), a. split; [|split; [unfold base; lia|auto]].
    apply (rd_concat_off f r st j a K2 K3).
  - intros (j & a & Hj & -> & <-). destruct (rd_concat_inv _ _ _ Hj) as (r & st & jj & H1 & H2 & -> & _).
    destruct (arc_at fs V_src V_dst k f r st jj a Hk H1 H2) as (E1 & _).
    replace (base + (off1 f r + jj)) with (off1 (map (@concat arc) fs) k + off1 f r + jj) by (unfold base; lia).
    split; [apply rd_Some_bound in E1; exact E1|]. now apply (rd_gdest fs k f r st jj a).
Qed.

Lemma dflt_at j a : rd (concat f) j = Some a -> dflt fs (base + j) = a.
Proof.
  intros Hj. destruct (rd_concat_inv _ _ _ Hj) as (r & st & jj & H1 & H2 & -> & _).
  destruct (arc_at fs V_src V_dst k f r st jj a Hk H1 H2) as (E1 & _). unfold dflt, base.
  now rewrite Z.add_assoc, E1.
Qed.

Hypothesis NE : f <> [].
Lemma npos : 2 <= n.
Proof. pose proof V as HV. rewrite Forall_forall in HV. destruct (HV f (rd_In _ _ _ Hk)) as [->|(_ & H & _)]; [congruence|exact H]. Qed.
Lemma vf : valid f.
Proof. pose proof V as HV. rewrite Forall_forall in HV. destruct (HV f (rd_In _ _ _ Hk)) as [->|H]; [congruence|exact H]. Qed.

Lemma in_state s' b i : 0 <= s' <= n -> (In (b, i) (rev_state fs k n s') <->
  (s' = n - 1 /\ b = mkArc (n - 1) n (-1) 0 /\ i = -1) \/
  (exists j a, rd (concat f) j = Some a /\ i = base + j /\ b = rev_arc n a /\ s' = rho n (dst a))).
Proof.
  intros Hs. pose proof npos. unfold rev_state. destruct (s' =? n) eqn:E.
  - split; [intros []|]. intros [(H1 & _)|(j & a & H1 & _ & _ & H2)]; [lia|].
    destruct (arc_range f vf a (rd_In _ _ _ H1)) as (_ & R). fold n in R. apply rho_range in R. lia.
  - rewrite in_app_iff, in_map_iff. split.
    + intros [(i' & H1 & H2)|H1].
      * injection H1 as H1 ->. apply bucket_char in H2 as (j & a & H2 & -> & H3); [|apply rho_range; lia].
        right. exists j, a. rewrite (dflt_at j a H2) in H1. rewrite H3, rho_inv by lia. auto.
      * destruct (s' =? n - 1) eqn:E'; [|destruct H1]. destruct H1 as [H1|[]]. injection H1 as <- <-. left. split; [lia|auto].
    + intros [(-> & -> & ->)|(j & a & H1 & -> & -> & ->)].
      * right. rewrite Z.eqb_refl. now left.
      * left. exists (base + j). rewrite (dflt_at j a H1). split; auto.
        destruct (arc_range f vf a (rd_In _ _ _ H1)) as (_ & R). fold n in R.
        apply bucket_char; [now rewrite rho_inv|]. exists j, a. rewrite rho_inv by auto. auto.
Qed.

Let T := rev_nested fs k f.
Lemma T_eq : T = tab (n + 1) (rev_state fs k n).
Proof. unfold T, rev_nested. pose proof npos. fold n. replace (n =? 0) with false by lia. reflexivity. Qed.

Lemma in_T b i : In (b, i) (concat T) <->
  (b = mkArc (n - 1) n (-1) 0 /\ i = -1) \/ (exists j a, rd (concat f) j = Some a /\ i = base + j /\ b = rev_arc n a).
Proof.
  pose proof npos. rewrite T_eq, in_concat_tab. split.
  - intros (s' & Hs & H1). apply in_state in H1; [|lia]. destruct H1 as [(-> & -> & ->)|(j & a & H1 & H2 & H3 & _)]; [left; auto|right; eauto].
  - intros [(-> & ->)|(j & a & H1 & -> & ->)].
    + exists (n - 1). split; [lia|]. apply in_state; [lia|]. left. auto.
    + destruct (arc_range f vf a (rd_In _ _ _ H1)) as (_ & R). fold n in R.
      apply rho_range in R. exists (rho n (dst a)). split; [lia|]. apply in_state; [lia|]. right. exists j, a. auto.
Qed.

Lemma base_nonneg : 0 <= base.
Proof. apply off1_nonneg. Qed.

Lemma map_nodup : NoDup (map snd (concat T)).
Proof.
  pose proof npos. pose proof base_nonneg. rewrite T_eq, concat_map, map_tab. apply NoDup_concat_tab.
  - intros c Hc. unfold rev_state. destruct (c =? n); [constructor|].
    rewrite map_app, map_map, map_id. apply NoDup_app_disj.
    + apply NoDup_filter, NoDup_zrange.
    + destruct (c =? n - 1); repeat constructor. intros [].
    + intros x I1 I2. apply in_bucket in I1. destruct (c =? n - 1); [|destruct I2]. destruct I2 as [<-|[]]. cbn [snd] in I1. lia.
  - intros c d x Hc Hd I1 I2. apply in_map_iff in I1 as ((b1 & i1) & <- & I1). apply in_map_iff in I2 as ((b2 & i2) & E & I2).
    cbn [snd] in E. subst i2. apply in_state in I1; [|lia]. apply in_state in I2; [|lia].
    destruct I1 as [(-> & -> & ->)|(j & a & H1 & -> & -> & ->)], I2 as [(-> & -> & E)|(j' & a' & H1' & E & -> & ->)]; auto.
    + apply rd_Some_bound in H1'. lia.
    + apply rd_Some_bound in H1. lia.
    + assert (j = j') by lia. subst j'. rewrite H1 in H1'. now injection H1' as <-.
Qed.

Let g := map (map fst) T.
Lemma g_arcs : all_arcs g = map fst (concat T).
Proof. unfold all_arcs, g. now rewrite concat_map. Qed.
Lemma g_len : zlen g = n + 1.
Proof. pose proof npos. unfold g. rewrite zlen_map, T_eq, zlen_tab; lia. Qed.

Lemma in_g b : In b (all_arcs g) <-> (b = mkArc (n - 1) n (-1) 0 \/ exists a, In a (all_arcs f) /\ b = rev_arc n a).
Proof.
  rewrite g_arcs, in_map_iff. split.
  - intros ((b' & i) & <- & H). apply in_T in H as [(-> & ->)|(j & a & H1 & _ & H2)]; [now left|].
    right. exists a. split; auto. eapply rd_In; eauto.
  - intros [->|(a & Ha & ->)].
    + exists (mkArc (n - 1) n (-1) 0, -1). split; auto. apply in_T. auto.
    + apply In_rd in Ha as (j & _ & Hj). exists (rev_arc n a, base + j). split; auto. apply in_T. right. eauto.
Qed.

Lemma g_valid : valid g.
Proof.
  pose proof npos. split; [|split].
  - intros i st b Hi Hb. unfold g in Hi. rewrite rd_map, T_eq in Hi.
    destruct (rd (tab (n + 1) (rev_state fs k n)) i) as [x|] eqn:E; [|discriminate]. injection Hi as <-.
    apply rd_tab_Some in E as (Bi & ->). apply in_map_iff in Hb as ((b' & m) & <- & Hb). cbn [fst].
    apply in_state in Hb; [|lia]. destruct Hb as [(-> & -> & ->)|(j & a & H1 & -> & -> & ->)]; reflexivity.
  - unfold nstates. rewrite g_len. lia.
  - unfold nstates, final. rewrite g_len. intros b Hb. apply in_g in Hb as [->|(a & Ha & ->)].
    + cbn [src dst lab]. split; [lia|]. split; [lia|]. split; lia.
    + destruct (arc_range f vf a Ha) as (R1 & R2). fold n in R1, R2. apply rho_range in R1. apply rho_range in R2.
      destruct vf as (_ & _ & VF). destruct (VF a Ha) as (_ & L & _). unfold rev_arc. cbn [src dst lab].
      split; [lia|]. destruct (lab a =? -1) eqn:E; (split; [lia|]); split; lia.
Qed.

Lemma one_reversal : reversal base f g (map snd (concat T)).
Proof.
  pose proof npos. unfold reversal. split; [congruence|]. split.
  { intros _. split; [apply g_valid|]. split; [apply g_len|]. intros w s.
    apply (reversed_language f g vf g_len in_g). }
  split; [now rewrite g_arcs, !zlen_map|]. split; [|split].
  - rewrite g_arcs. intros q b i Hb Hi. rewrite rd_map in Hb. rewrite rd_map in Hi. destruct (rd (concat T) q) as [(b' & i')|] eqn:E; [|discriminate].
    injection Hb as <-. injection Hi as <-. cbn [fst snd]. apply rd_In in E. apply in_T in E as [(-> & ->)|(j & a & H1 & -> & ->)].
    + left. auto.
    + right. exists j, a. split; [auto|]. split; [auto|]. unfold reverses, rev_arc. auto.
  - intros j Hj. destruct (rd_in_bound _ _ Hj) as (a & Ha).
    assert (I : In (base + j) (map snd (concat T))).
    { apply in_map_iff. exists (rev_arc n a, base + j). split; auto. apply in_T. right. eauto. }
    apply In_rd in I as (q & _ & Hq). eauto.
  - intros q q' i. apply (NoDup_rd _ map_nodup).
Qed.
End O.

(** C21: for every vector of FSAs, each empty or valid, and every schedule of
    the kernels. *)
Theorem C21_reverse : forall sched1 sched2 fs,
  is_sched (zlen (concat fs)) sched1 -> is_sched (zlen (concat (concat fs)) + zlen fs) sched2 ->
  Forall (fun f : nfsa => f = [] \/ valid f) fs ->
  exists gs gms, zlen gs = zlen fs /\ zlen gms = zlen fs /\
    reverse sched1 sched2 (flat_vec fs) = Some (mkVOut (flat_vec gs) (ids_of (concat gs)) (concat gms)) /\
    forall k f g gm, rd fs k = Some f -> rd gs k = Some g -> rd gms k = Some gm ->
      reversal (off1 (map all_arcs fs) k) f g gm.
Proof.
  intros sched1 sched2 fs H1 H2 V. exists (map (map (map fst)) (rev_ts fs)), (map (fun t => map snd (concat t)) (rev_ts fs)).
  unfold rev_ts at 1 2. rewrite !zlen_map, zlen_imap. split; [reflexivity|]. split; [reflexivity|]. split.
  - rewrite (reverse_ok fs (V_src fs V) (V_dst fs V)) by auto. unfold vec_of. do 2 f_equal.
    + rewrite <- concat_map. now rewrite ids_of_map.
    + rewrite <- (map_map (@concat (arc * Z)) (map snd)), <- concat_map. now rewrite concat_map_concat.
  - intros k f g gm Hf Hg Hm. rewrite rd_map, (rd_rev_ts fs k f Hf) in Hg. rewrite rd_map, (rd_rev_ts fs k f Hf) in Hm. injection Hg as <-. injection Hm as <-.
    destruct f as [|st f].
    + unfold reversal. split; [reflexivity|]. split; [congruence|]. split; [reflexivity|].
      split; [intros q b i H; change (rd (@nil arc) q = Some b) in H; rewrite rd_nil in H; discriminate|]. split; [intros j Hj; change (zlen (all_arcs [])) with 0 in Hj; lia|].
      intros q q' i H. change (rd (@nil Z) q = Some i) in H. rewrite rd_nil in H. discriminate.
    + apply (one_reversal fs V k (st :: f) Hf). discriminate.
Qed.
Print Assumptions C21_reverse.

Lemma flat_one f : flat_vec [f] = fsa_to_vec (flat f).
Proof.
  unfold flat_vec, fsa_to_vec, num_states. cbn [flat row_splits arcs concat]. rewrite app_nil_r, zlen_splits_of.
  change (splits_of [f]) with [0; 0 + zlen f]. replace (0 + zlen f) with (zlen f) by lia.
  replace (zlen f + 1 - 1) with (zlen f) by lia. reflexivity.
Qed.

(** C21 for a single FSA. *)
Theorem C21_reverse_single : forall sched1 sched2 f,
  is_sched (zlen f) sched1 -> is_sched (zlen (concat f) + 1) sched2 -> valid f ->
  exists g gm, reverse_single sched1 sched2 (flat f) = Some (flat g, gm) /\ reversal 0 f g gm.
Proof.
  intros sched1 sched2 f H1 H2 V. unfold reverse_single. rewrite <- flat_one.
  destruct (C21_reverse sched1 sched2 [f]) as (gs & gms & L1 & L2 & E & R).
  { cbn [concat]. now rewrite app_nil_r. }
  { cbn [concat]. rewrite app_nil_r. exact H2. }
  { constructor; auto. }
  change (zlen [f]) with 1 in L1, L2.
  destruct gs as [|g [|? gs]]; [discriminate| |exfalso; rewrite !zlen_cons in L1; pose proof (zlen_nonneg gs); lia].
  destruct gms as [|gm [|? gms]]; [discriminate| |exfalso; rewrite !zlen_cons in L2; pose proof (zlen_nonneg gms); lia].
  rewrite E. exists g, gm. split; [|apply (R 0 f g gm); reflexivity].
  unfold vec_element. cbn [vo_vec vo_map flat_vec v_rs1 v_rs2 v_arcs concat]. rewrite !app_nil_r.
  change (zlen (splits_of [g])) with 2. reflexivity.
Qed.
Print Assumptions C21_reverse_single.

Example C21_ex : Forall (fun f : nfsa => f = [] \/ valid f) [ex_abc; []; ex_loop] /\
  is_sched 7 [6; 0; 1; 5; 4; 3; 2] /\ is_sched 10 [9; 0; 1; 5; 4; 3; 2; 7; 8; 6] /\
  exists v, reverse [6; 0; 1; 5; 4; 3; 2] [9; 0; 1; 5; 4; 3; 2; 7; 8; 6] (flat_vec [ex_abc; []; ex_loop]) = Some v /\
    vo_map v = [3; 0; 1; 2; -1; 6; 5; 4; -1].
Proof.
  split.
  { constructor; [right; solve_valid|]. constructor; [now left|]. constructor; [right; solve_valid|constructor]. }
  split; [solve_sched|]. split; [solve_sched|]. eexists. split; [vm_compute; reflexivity|reflexivity].
Qed.
