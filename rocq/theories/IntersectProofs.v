(** * Proofs about the host intersection: one pair of FSAs *)
From Coq Require Import ZArith List Lia Bool Sorting.Sorted.
From Coq Require Import ZifyBool.
From Verif Require Import Base RaggedModel RaggedSpec FsaSpec FsaLemmas RaggedOpsModel OpsModel PropsModel PropsSpec PropsProofs ScoreModel ScoreSpec ShortestSpec ReverseProofs RaggedOpsProofs IntersectModel.
Import ListNotations.
Open Scope Z_scope.

(** ** Positions of arcs *)
Definition posn (f : nfsa) (s : Z) (st : list arc) : list (Z * arc) := imap (fun k x => (off1 f s + k, x)) 0 st.
Lemma in_posn f s st i u : rd f s = Some st -> In (i, u) (posn f s st) ->
  rd (all_arcs f) i = Some u /\ In u st.
Proof.
  intros Hs H. apply In_rd in H. destruct H as (k & Hk & H). unfold posn in H. rewrite rd_imap in H.
  destruct (rd st k) as [x|] eqn:E; [|discriminate]. injection H as <- <-. split; [|eapply rd_In; eauto].
  replace (off1 f s + (0 + k)) with (off1 f s + k) by lia. now apply (rd_concat_off f s st k x Hs E).
Qed.
Lemma posn_in f i u : src_ok f -> rd (all_arcs f) i = Some u -> exists st, rd f (src u) = Some st /\ In (i, u) (posn f (src u) st).
Proof.
  intros So H. apply rd_concat_inv in H. destruct H as (r & st & j & H1 & H2 & -> & _).
  assert (src u = r) by (eapply So; eauto using rd_In). subst r. exists st. split; auto.
  apply (rd_In _ j). unfold posn. now rewrite rd_imap, H2.
Qed.
Lemma posn_nodup f s st : NoDup (map fst (posn f s st)).
Proof.
  unfold posn. assert (G : forall k, NoDup (map fst (imap (fun k x => (off1 f s + k, x)) k st)) /\ forall y, In y (map fst (imap (fun k (x : arc) => (off1 f s + k, x)) k st)) -> off1 f s + k <= y).
  { induction st as [|x st IH]; intros k; cbn; [split; [constructor|intros y []]|]. destruct (IH (k + 1)) as (A & B). split.
    - constructor; auto. intros Hi. specialize (B _ Hi). lia.
    - intros y [<-|Hy]; [lia|]. specialize (B y Hy). lia. }
  apply G.
Qed.
Lemma map_snd_posn f s st : map snd (posn f s st) = st.
Proof. unfold posn. generalize 0. induction st; intros k; cbn; f_equal; auto. Qed.

(** ** Sorted ranges *)
Definition usorted (l : list arc) : Prop := StronglySorted (fun x y => u32 (lab x) <= u32 (lab y)) l.
Lemma sorted_u32_ok l : usorted (map snd l) -> sorted_u32 l = true.
Proof.
  induction l as [|x [|y l] IH]; cbn [map]; auto. intros H. inversion H as [|? ? H1 H2]; subst. inversion H2; subst.
  change (sorted_u32 (x :: y :: l)) with ((u32 (lab (snd x)) <=? u32 (lab (snd y))) && sorted_u32 (y :: l)). rewrite IH by exact H1. lia.
Qed.
Lemma arcsorted_usorted f st : p_arcsorted f -> int32_labels f -> In st f -> usorted st.
Proof.
  intros S L Hi. specialize (S st Hi). assert (Hl : forall x, In x st -> - 2 ^ 31 <= lab x < 2 ^ 31).
  { intros x Hx. apply L. unfold all_arcs. apply in_concat. eauto. }
  clear Hi. induction S as [|x l S IH F]; constructor.
  - apply IH. intros y Hy. apply Hl. now right.
  - rewrite Forall_forall in *. intros y Hy. specialize (F y Hy). rewrite !u32_key by (apply Hl; cbn; auto).
    destruct F as [F|(F & _)]; [unfold label_lt in F; lia|]. unfold label_key. rewrite F. lia.
Qed.
Lemma u32_inj x y : - 2 ^ 31 <= lab x < 2 ^ 31 -> - 2 ^ 31 <= lab y < 2 ^ 31 -> (u32 (lab x) = u32 (lab y) <-> lab x = lab y).
Proof. intros Hx Hy. rewrite !u32_key by auto. unfold label_key. destruct (lab x <? 0) eqn:?; destruct (lab y <? 0) eqn:?; lia. Qed.

(** The epsilons come first. *)
Lemma span_spec l : usorted (map snd l) -> (forall x, In x l -> -1 <= lab (snd x) < 2 ^ 31) ->
  let (e, r) := span_eps l in l = e ++ r /\ (forall x, In x e -> lab (snd x) = 0) /\ (forall x, In x r -> lab (snd x) <> 0).
Proof.
  induction l as [|x l IH]; cbn [map span_eps]; intros S L; [repeat split; auto; intros ? []|].
  inversion S as [|? ? S1 S2]; subst. specialize (IH S1 (fun y H => L y (or_intror H))). destruct (lab (snd x) =? 0) eqn:E.
  - destruct (span_eps l) as [e r]. destruct IH as (-> & I2 & I3). repeat split; auto. intros y [<-|Hy]; auto. lia.
  - repeat split; auto; [intros ? []|]. intros y [<-|Hy] C; [lia|]. rewrite Forall_forall in S2. specialize (S2 (snd y) (in_map snd _ _ Hy)).
    pose proof (L x (or_introl eq_refl)). unfold u32 in S2. rewrite C in S2. change (0 mod 2 ^ 32) with 0 in S2.
    destruct (Z.eq_dec (lab (snd x)) (-1)) as [Q|Q]; [rewrite Q in S2; vm_compute in S2; auto|]. rewrite Z.mod_small in S2 by lia. lia.
Qed.
Lemma usorted_app_r l1 l2 : usorted (l1 ++ l2) -> usorted l2.
Proof. induction l1; cbn; auto. intros H. inversion H; auto. Qed.

(** ** Matching *)
Lemma match_ok sw small large : sorted_u32 large = true ->
  match_arcs sw small large = Some (concat (map (fun x => map (fun y =>
     let '(u, v) := if sw then (y, x) else (x, y) in
     mkX (dst (snd u), dst (snd v)) (lab (snd u)) (sc (snd u) + sc (snd v)) (fst u) (fst v))
     (filter (fun y => u32 (lab (snd y)) =? u32 (lab (snd x))) large)) small)).
Proof.
  intros S. unfold match_arcs, equal_range. rewrite S. cbn. erewrite mapM_Some_map.
  - reflexivity.
  - intros x _. reflexivity.
Qed.

Definition mkm (sw : bool) (x y : Z * arc) : xarc :=
  let '(u, v) := if sw then (y, x) else (x, y) in
  mkX (dst (snd u), dst (snd v)) (lab (snd u)) (sc (snd u) + sc (snd v)) (fst u) (fst v).
Lemma in_match sw small large xs : (forall x, In x (small ++ large) -> - 2 ^ 31 <= lab (snd x) < 2 ^ 31) ->
  match_arcs sw small large = Some xs -> sorted_u32 large = true ->
  forall z, In z xs <-> exists x y, In x small /\ In y large /\ lab (snd x) = lab (snd y) /\ z = mkm sw x y.
Proof.
  intros L H S z. rewrite match_ok in H by auto. injection H as <-. rewrite in_concat. split.
  - intros (l & Hl & Hz). apply in_map_iff in Hl. destruct Hl as (x & <- & Hx). apply in_map_iff in Hz. destruct Hz as (y & <- & Hy).
    apply filter_In in Hy. destruct Hy as (Hy & E). exists x, y. repeat split; auto. symmetry. apply u32_inj; [apply L, in_app_iff; auto|apply L, in_app_iff; auto|lia].
  - intros (x & y & Hx & Hy & E & ->). eexists. split; [apply in_map_iff; exists x; split; [reflexivity|auto]|].
    apply in_map_iff. exists y. split; [reflexivity|]. apply filter_In. split; auto. rewrite E. lia.
Qed.
Lemma match_nodup sw small large xs : NoDup (map fst small) -> NoDup (map fst large) -> match_arcs sw small large = Some xs -> sorted_u32 large = true ->
  NoDup (map (fun x => (x_a x, x_b x)) xs).
Proof.
  intros N1 N2 H S. rewrite match_ok in H by auto. injection H as <-. induction small as [|x small IH]; cbn [map concat]; [constructor|].
  inversion N1; subst. rewrite map_app. apply NoDup_app_disj.
  - rewrite map_map. assert (NF : NoDup (map fst (filter (fun y => u32 (lab (snd y)) =? u32 (lab (snd x))) large))).
    { clear -N2. induction large as [|y l IH]; cbn; [constructor|]. inversion N2; subst. destruct (_ =? _); cbn; auto. constructor; auto.
      intros Hi. apply H1. apply in_map_iff in Hi. destruct Hi as (w & <- & Hw). apply filter_In in Hw. apply in_map. tauto. }
    revert NF. generalize (filter (fun y => u32 (lab (snd y)) =? u32 (lab (snd x))) large). intros l. induction l as [|y l IHl]; cbn [map]; [constructor|].
    intros NF. inversion NF; subst. constructor; auto. intros Hi. apply in_map_iff in Hi. destruct Hi as (w & E & Hw). apply H3. apply in_map_iff. exists w. split; auto.
    destruct sw; cbn in E; congruence.
  - now apply IH.
  - intros z Hz Hz'. apply in_map_iff in Hz. destruct Hz as (w & <- & Hw). apply in_map_iff in Hw. destruct Hw as (y & <- & Hy).
    apply in_map_iff in Hz'. destruct Hz' as (w' & E & Hw'). apply in_concat in Hw'. destruct Hw' as (l & Hl & Hw'). apply in_map_iff in Hl. destruct Hl as (x' & <- & Hx').
    apply in_map_iff in Hw'. destruct Hw' as (y' & <- & Hy'). apply H1. apply in_map_iff. exists x'. split; auto. destruct sw; cbn in E; congruence.
Qed.

Lemma NoDup_app_r {X} (l1 l2 : list X) : NoDup (l1 ++ l2) -> NoDup l2.
Proof. induction l1; cbn; auto. inversion 1; auto. Qed.
Lemma splits_of_snoc {X} (G : list (list X)) g : splits_of (G ++ [g]) = splits_of G ++ [zlen (concat G) + zlen g].
Proof.
  apply list_ext_rd. { rewrite zlen_app, !zlen_splits_of, zlen_app. reflexivity. }
  intros i Hb. assert (H : 0 <= i) by lia.
  pose proof (zlen_splits_of G) as Z1. pose proof (zlen_splits_of (G ++ [g])) as Z2. rewrite zlen_app in Z2. change (zlen [g]) with 1 in Z2.
  destruct (Z.le_gt_cases i (zlen G)) as [H1|H1].
  - rewrite rd_app_l by lia. rewrite !rd_splits_off by (rewrite ?zlen_app; change (zlen [g]) with 1; lia). f_equal. unfold off1. rewrite firstn_app.
    replace (Z.to_nat i - length G)%nat with 0%nat by (unfold zlen in H1; lia). cbn. now rewrite app_nil_r.
  - destruct (Z.eq_dec i (zlen G + 1)) as [->|].
    + rewrite rd_app_r by lia. replace (zlen G + 1 - zlen (splits_of G)) with 0 by lia. rewrite rd_cons_0, rd_splits_off by (rewrite zlen_app; change (zlen [g]) with 1; pose proof (zlen_nonneg G); lia).
      f_equal. replace (zlen G + 1) with (zlen (G ++ [g])) by (rewrite zlen_app; reflexivity). rewrite RaggedOpsProofs.off1_all, concat_app. cbn [concat]. rewrite app_nil_r, zlen_app. reflexivity.
    + rewrite !(proj2 (rd_None _ _)); auto; rewrite ?zlen_app; change (zlen [zlen (concat G) + zlen g]) with 1; lia.
Qed.
Lemma Forall2_imp {X Y} (R R' : X -> Y -> Prop) l m : (forall x y, R x y -> R' x y) -> Forall2 R l m -> Forall2 R' l m.
Proof. intros H. induction 1; constructor; auto. Qed.
(** ** The steps of the product *)
Section P.
Variables (eps : bool) (a b : nfsa) (ha hb : hfsa).
Hypothesis (Va : valid a) (Vb : valid b) (Sa : p_arcsorted a) (Sb : p_arcsorted b) (La : int32_labels a) (Lb : int32_labels b).
Hypothesis (Ha : forall s st, rd a s = Some st -> leaving ha s = Some (posn a s st)).
Hypothesis (Hb : forall s st, rd b s = Some st -> leaving hb s = Some (posn b s st)).
Hypothesis (Na : size1 ha = zlen a) (Nb : size1 hb = zlen b).

Inductive xstep (p : pair) : xarc -> Prop :=
| xs_both i u j v : rd (all_arcs a) i = Some u -> rd (all_arcs b) j = Some v -> src u = fst p -> src v = snd p -> lab u = lab v ->
    (eps = true -> lab u <> 0) -> xstep p (mkX (dst u, dst v) (lab u) (sc u + sc v) i j)
| xs_a i u : eps = true -> rd (all_arcs a) i = Some u -> src u = fst p -> lab u = 0 -> xstep p (mkX (dst u, snd p) 0 (sc u) i (-1))
| xs_b j v : eps = true -> rd (all_arcs b) j = Some v -> src v = snd p -> lab v = 0 -> xstep p (mkX (fst p, dst v) 0 (sc v) (-1) j).

Lemma posn_labels f s st : int32_labels f -> rd f s = Some st -> forall x, In x (posn f s st) -> - 2 ^ 31 <= lab (snd x) < 2 ^ 31.
Proof. intros L H [i u] Hx. apply in_posn in Hx; auto. apply L. destruct Hx as (Hx & _). eapply rd_In; eauto. Qed.
Lemma posn_labels1 f s st : valid f -> int32_labels f -> rd f s = Some st -> forall x, In x (posn f s st) -> -1 <= lab (snd x) < 2 ^ 31.
Proof. intros (_ & _ & V) L H [i u] Hx. apply in_posn in Hx; auto. destruct Hx as (Hx & _). cbn. apply rd_In in Hx. specialize (V _ Hx). specialize (L _ Hx). lia. Qed.

Definition expand_l (la lb : list (Z * arc)) (p : pair) : option (list xarc) :=
  let '(ea, la) := if eps then span_eps la else ([], la) in
  let '(eb, lb) := if eps then span_eps lb else ([], lb) in
  let from_a := map (fun u => mkX (dst (snd u), snd p) 0 (sc (snd u)) (fst u) (-1)) ea in
  let from_b := map (fun v => mkX (fst p, dst (snd v)) 0 (sc (snd v)) (-1) (fst v)) eb in
  both <- (if zlen lb <? zlen la then match_arcs true lb la else match_arcs false la lb);;
  Some (from_a ++ from_b ++ both).

Lemma expand_spec p : 0 <= fst p < zlen a -> 0 <= snd p < zlen b ->
  exists xs, expand eps ha hb p = Some xs /\ (eps = false -> NoDup (map (fun x => (x_a x, x_b x)) xs)) /\ forall x, In x xs <-> xstep p x.
Proof.
  intros H1 H2. destruct (rd_in_bound a (fst p) H1) as (st1 & E1). destruct (rd_in_bound b (snd p) H2) as (st2 & E2).
  assert (EX : expand eps ha hb p = expand_l (posn a (fst p) st1) (posn b (snd p) st2) p).
  { unfold expand. destruct p as [sa sb]. cbn [fst snd] in *. rewrite (Ha _ _ E1), (Hb _ _ E2). reflexivity. }
  rewrite EX. clear EX. unfold expand_l.
  set (la := posn a (fst p) st1). set (lb := posn b (snd p) st2).
  assert (Ua : usorted (map snd la)) by (unfold la; rewrite map_snd_posn; exact (arcsorted_usorted a st1 Sa La (rd_In _ _ _ E1))).
  assert (Ub : usorted (map snd lb)) by (unfold lb; rewrite map_snd_posn; exact (arcsorted_usorted b st2 Sb Lb (rd_In _ _ _ E2))).
  pose proof (span_spec la Ua (posn_labels1 a (fst p) st1 Va La E1)) as SPa.
  pose proof (span_spec lb Ub (posn_labels1 b (snd p) st2 Vb Lb E2)) as SPb.
  assert (SA : exists ea ra, (if eps then span_eps la else ([], la)) = (ea, ra) /\ la = ea ++ ra /\ (forall x, In x ea -> eps = true /\ lab (snd x) = 0) /\ (forall x, In x ra -> eps = true -> lab (snd x) <> 0)).
  { destruct eps; [destruct (span_eps la) as [e r]; exists e, r; destruct SPa as (A1 & A2 & A3); split; [|split; [|split]]; auto|exists [], la; split; [|split; [|split]]; auto; [intros ? []|intros; discriminate]]. }
  assert (SB : exists eb rb, (if eps then span_eps lb else ([], lb)) = (eb, rb) /\ lb = eb ++ rb /\ (forall x, In x eb -> eps = true /\ lab (snd x) = 0) /\ (forall x, In x rb -> eps = true -> lab (snd x) <> 0)).
  { destruct eps; [destruct (span_eps lb) as [e r]; exists e, r; destruct SPb as (A1 & A2 & A3); split; [|split; [|split]]; auto|exists [], lb; split; [|split; [|split]]; auto; [intros ? []|intros; discriminate]]. }
  destruct SA as (ea & ra & -> & EA & A1 & A2). destruct SB as (eb & rb & -> & EB & B1 & B2).
  assert (Sra : sorted_u32 ra = true) by (apply sorted_u32_ok; rewrite EA, map_app in Ua; eapply usorted_app_r; eauto).
  assert (Srb : sorted_u32 rb = true) by (apply sorted_u32_ok; rewrite EB, map_app in Ub; eapply usorted_app_r; eauto).
  assert (Lra : forall x, In x (ra ++ rb) -> - 2 ^ 31 <= lab (snd x) < 2 ^ 31).
  { intros x Hx. apply in_app_iff in Hx. destruct Hx as [Hx|Hx]; [apply (posn_labels a (fst p) st1 La E1)|apply (posn_labels b (snd p) st2 Lb E2)]; [fold la; rewrite EA|fold lb; rewrite EB]; apply in_app_iff; auto. }
  assert (MM : exists both, (if zlen rb <? zlen ra then match_arcs true rb ra else match_arcs false ra rb) = Some both /\
     (eps = false -> NoDup (map (fun x => (x_a x, x_b x)) both)) /\
     forall z, In z both <-> exists x y, In x ra /\ In y rb /\ lab (snd x) = lab (snd y) /\ z = mkm false x y).
  { assert (NDa : NoDup (map fst ra)). { pose proof (posn_nodup a (fst p) st1) as N. fold la in N. rewrite EA, map_app in N. exact (NoDup_app_r _ _ N). }
    assert (NDb : NoDup (map fst rb)). { pose proof (posn_nodup b (snd p) st2) as N. fold lb in N. rewrite EB, map_app in N. exact (NoDup_app_r _ _ N). }
    destruct (zlen rb <? zlen ra).
    - destruct (match_arcs true rb ra) as [both|] eqn:E; [|rewrite match_ok in E by auto; discriminate]. exists both. split; auto. split; [intros _; exact (match_nodup true rb ra both NDb NDa E Sra)|].
      intros z. rewrite (in_match true rb ra both) by (auto; intros x Hx; apply Lra; rewrite in_app_iff in *; tauto). split; intros (x & y & Q1 & Q2 & Q3 & ->); exists y, x; repeat split; auto; unfold mkm; cbn; congruence.
    - destruct (match_arcs false ra rb) as [both|] eqn:E; [|rewrite match_ok in E by auto; discriminate]. exists both. split; auto. split; [intros _; exact (match_nodup false ra rb both NDa NDb E Srb)|].
      apply (in_match false ra rb both); auto. }
  destruct MM as (both & -> & ND & IM). eexists. split; [reflexivity|]. split.
  - intros Ef. assert (ea = []) by (destruct ea as [|x ?]; auto; destruct (A1 x (or_introl eq_refl)); congruence).
    assert (eb = []) by (destruct eb as [|x ?]; auto; destruct (B1 x (or_introl eq_refl)); congruence). subst. cbn. auto.
  - assert (INa : forall x, In x la <-> rd (all_arcs a) (fst x) = Some (snd x) /\ src (snd x) = fst p).
    { intros [i u]. cbn. split.
      - intros Hx. apply in_posn in Hx; auto. destruct Hx as (Hx & Hi). split; auto. destruct Va as (So & _). eapply So; eauto.
      - intros (Hx & Hs). apply posn_in in Hx; [|apply Va]. destruct Hx as (st & X1 & X2). rewrite Hs in X1, X2. assert (st = st1) by congruence. subst. exact X2. }
    assert (INb : forall x, In x lb <-> rd (all_arcs b) (fst x) = Some (snd x) /\ src (snd x) = snd p).
    { intros [i u]. cbn. split.
      - intros Hx. apply in_posn in Hx; auto. destruct Hx as (Hx & Hi). split; auto. destruct Vb as (So & _). eapply So; eauto.
      - intros (Hx & Hs). apply posn_in in Hx; [|apply Vb]. destruct Hx as (st & X1 & X2). rewrite Hs in X1, X2. assert (st = st2) by congruence. subst. exact X2. }
    intros z. rewrite !in_app_iff. split.
    + intros [Hz|[Hz|Hz]].
      * apply in_map_iff in Hz. destruct Hz as (x & <- & Hx). destruct (A1 x Hx). destruct (proj1 (INa x)) as (I1 & I2); [rewrite EA; apply in_app_iff; auto|]. apply xs_a; auto.
      * apply in_map_iff in Hz. destruct Hz as (x & <- & Hx). destruct (B1 x Hx). destruct (proj1 (INb x)) as (I1 & I2); [rewrite EB; apply in_app_iff; auto|]. apply xs_b; auto.
      * apply IM in Hz. destruct Hz as (x & y & Q1 & Q2 & Q3 & ->). destruct (proj1 (INa x)) as (I1 & I2); [rewrite EA; apply in_app_iff; auto|]. destruct (proj1 (INb y)) as (J1 & J2); [rewrite EB; apply in_app_iff; auto|].
        unfold mkm; cbn. apply xs_both; auto.
    + intros Hz. destruct Hz as [i u j v Q1 Q2 Q3 Q4 Q5 Q6|i u Q0 Q1 Q2 Q3|j v Q0 Q1 Q2 Q3].
      * right; right. apply IM. exists (i, u), (j, v). cbn. repeat split; auto.
        -- assert (Hi : In (i, u) la) by (apply INa; auto). rewrite EA in Hi. apply in_app_iff in Hi. destruct Hi as [Hi|Hi]; auto. apply A1 in Hi. cbn in Hi. exfalso. apply Q6; tauto.
        -- assert (Hi : In (j, v) lb) by (apply INb; auto). rewrite EB in Hi. apply in_app_iff in Hi. destruct Hi as [Hi|Hi]; auto. apply B1 in Hi. cbn in Hi. exfalso. apply Q6; [tauto|]. rewrite Q5. tauto.
      * left. apply in_map_iff. exists (i, u). cbn. split; auto. assert (Hi : In (i, u) la) by (apply INa; auto). rewrite EA in Hi. apply in_app_iff in Hi. destruct Hi as [Hi|Hi]; auto. exfalso. apply (A2 _ Hi); auto.
      * right; left. apply in_map_iff. exists (j, v). cbn. split; auto. assert (Hi : In (j, v) lb) by (apply INb; auto). rewrite EB in Hi. apply in_app_iff in Hi. destruct Hi as [Hi|Hi]; auto. exfalso. apply (B2 _ Hi); auto.
Qed.

(** ** The loop *)
Let fin : pair := (zlen a - 1, zlen b - 1).
Definition inr (p : pair) : Prop := 0 <= fst p < zlen a /\ 0 <= snd p < zlen b.
Lemma xstep_inr p x : inr p -> xstep p x -> inr (x_dest x).
Proof using Va Vb.
  clear -Va Vb.
  intros (P1 & P2) X. destruct Va as (_ & _ & Va'). destruct Vb as (_ & _ & Vb'). unfold nstates in *.
  destruct X as [i u j v X1 X2|i u _ X1|j v _ X1]; unfold inr; cbn [x_dest fst snd].
  - apply rd_In in X1, X2. specialize (Va' _ X1). specialize (Vb' _ X2). lia.
  - apply rd_In in X1. specialize (Va' _ X1). lia.
  - apply rd_In in X1. specialize (Vb' _ X1). lia.
Qed.
Lemma xstep_fin p x : inr p -> xstep p x -> fst p <> zlen a - 1 \/ snd p <> zlen b - 1.
Proof using Va Vb.
  clear -Va Vb.
  intros (P1 & P2) X. destruct Va as (_ & _ & Va'). destruct Vb as (_ & _ & Vb'). unfold nstates, final in *.
  destruct X as [i u j v X1 X2 E1 E2|i u _ X1 E|j v _ X1 E].
  - apply rd_In in X1. specialize (Va' _ X1). left. rewrite <- E1. unfold nstates in *. lia.
  - apply rd_In in X1. specialize (Va' _ X1). left. rewrite <- E. unfold nstates in *. lia.
  - apply rd_In in X1. specialize (Vb' _ X1). right. rewrite <- E. unfold nstates in *. lia.
Qed.

(** The map numbers the pairs of [L]; [fin] has number -1. *)
Definition map_ok (m : list (pair * Z)) (L : list pair) : Prop :=
  plookup m fin = Some (-1) /\ (forall k p, rd L k = Some p -> plookup m p = Some k) /\
  (forall k p, plookup m p = Some k -> (p = fin /\ k = -1) \/ rd L k = Some p).
(** the arc made from [x] in row [k] *)
Definition made (L : list pair) (k : Z) (x : xarc) (y : arc * (Z * Z)) : Prop :=
  src (fst y) = k /\ lab (fst y) = x_lab x /\ sc (fst y) = x_sc x /\ snd y = (x_a x, x_b x) /\
  ((x_dest x = fin /\ dst (fst y) = -1) \/ rd L (dst (fst y)) = Some (x_dest x)).
Lemma made_mono L L' k x y : made L k x y -> made (L ++ L') k x y.
Proof.
  intros (A1 & A2 & A3 & A4 & A5). repeat split; auto. destruct A5 as [A5|A5]; auto. right. rewrite rd_app_l; auto. apply rd_Some_bound in A5. lia.
Qed.
Lemma map_ok_app m L p : map_ok m L -> plookup m p = None -> map_ok ((p, zlen L) :: m) (L ++ [p]).
Proof.
  intros (M1 & M2 & M3) H. assert (PE : forall q, pair_eqb p q = true <-> p = q). { intros q. unfold pair_eqb. destruct p as [p1 p2], q as [q1 q2]. cbn. split; [intros; f_equal; lia|intros E; injection E; lia]. }
  split; [|split].
  - cbn. destruct (pair_eqb p fin) eqn:E; auto. apply PE in E. congruence.
  - intros k q Hk. cbn. destruct (pair_eqb p q) eqn:E.
    + apply PE in E. subst q. f_equal. pose proof (rd_Some_bound _ _ _ Hk) as B. rewrite zlen_app in B. change (zlen [p]) with 1 in B.
      destruct (Z.eq_dec k (zlen L)) as [|N]; [congruence|]. rewrite rd_app_l in Hk by lia. apply M2 in Hk. congruence.
    + pose proof (rd_Some_bound _ _ _ Hk) as B. rewrite zlen_app in B. change (zlen [p]) with 1 in B.
      destruct (Z.eq_dec k (zlen L)) as [->|N]; [|apply M2; rewrite rd_app_l in Hk by lia; auto]. rewrite rd_app_r, Z.sub_diag in Hk by lia. cbn in Hk. injection Hk as ->. assert (pair_eqb q q = true) by now apply PE. congruence.
  - intros k q Hk. cbn in Hk. destruct (pair_eqb p q) eqn:E.
    + injection Hk as <-. apply PE in E. subst q. right. rewrite rd_app_r, Z.sub_diag by lia. reflexivity.
    + destruct (M3 _ _ Hk) as [|B]; auto. right. rewrite rd_app_l; auto. apply rd_Some_bound in B. lia.
Qed.

Lemma fold_add P cur xs : forall s, map_ok (i_map s) (P ++ i_queue s) -> i_next s = zlen (P ++ i_queue s) - 1 ->
  exists N g, let s' := fold_left (add_arc cur) xs s in
    i_queue s' = i_queue s ++ N /\ map_ok (i_map s') (P ++ i_queue s') /\ i_next s' = zlen (P ++ i_queue s') - 1 /\
    i_arcs s' = i_arcs s ++ g /\ i_index s' = i_index s /\ Forall2 (made (P ++ i_queue s') cur) xs g /\ (forall q, In q N -> exists x, In x xs /\ q = x_dest x).
Proof.
  induction xs as [|x xs IH]; intros s M Nx; cbn [fold_left].
  - exists [], []. cbv zeta. rewrite !app_nil_r. split; [reflexivity|]. split; [exact M|]. split; [exact Nx|]. split; [reflexivity|]. split; [reflexivity|]. split; [constructor|intros q []].
  - set (s1 := add_arc cur s x). assert (S1 : exists N g, i_queue s1 = i_queue s ++ N /\ map_ok (i_map s1) (P ++ i_queue s1) /\ i_next s1 = zlen (P ++ i_queue s1) - 1 /\
      i_arcs s1 = i_arcs s ++ [g] /\ i_index s1 = i_index s /\ made (P ++ i_queue s1) cur x g /\ (forall q, In q N -> q = x_dest x)).
    { unfold s1, add_arc. destruct (plookup (i_map s) (x_dest x)) as [i|] eqn:E.
      - exists []. eexists. cbn [i_queue i_map i_next i_arcs i_index]. rewrite app_nil_r. split; [reflexivity|]. split; [auto|]. split; [auto|]. split; [reflexivity|]. split; [reflexivity|]. split; [|intros q []].
        repeat split; cbn; auto. apply M in E. destruct E as [(E1 & ->)|E]; auto.
      - exists [x_dest x]. eexists. cbn [i_queue i_map i_next i_arcs i_index]. split; [reflexivity|]. rewrite app_assoc. split; [|split; [|split; [reflexivity|split; [reflexivity|split]]]].
        + replace (i_next s + 1) with (zlen (P ++ i_queue s)) by lia. now apply map_ok_app.
        + rewrite (zlen_app (P ++ i_queue s)). change (zlen [x_dest x]) with 1. lia.
        + repeat split; cbn; auto. right. replace (i_next s + 1) with (zlen (P ++ i_queue s)) by lia. rewrite rd_app_r, Z.sub_diag by lia. reflexivity.
        + intros q [<-|[]]; auto. }
    destruct S1 as (N1 & g1 & A1 & A2 & A3 & A4 & A5 & A6 & A7). destruct (IH s1 A2 A3) as (N & g & B1 & B2 & B3 & B4 & B5 & B6 & B7).
    exists (N1 ++ N), (g1 :: g). cbv zeta. split; [rewrite B1, A1, app_assoc; reflexivity|]. split; [auto|]. split; [auto|]. split; [rewrite B4, A4, <- app_assoc; reflexivity|]. split; [congruence|]. split.
    + constructor; auto. rewrite B1, app_assoc. now apply made_mono.
    + intros q Hq. apply in_app_iff in Hq. destruct Hq as [Hq|Hq]; [exists x; split; [now left|auto]|]. destruct (B7 q Hq) as (x' & X1 & X2). exists x'. split; [now right|auto].
Qed.

Definition linv (P : list pair) (G : list (list (arc * (Z * Z)))) (s : ist) : Prop :=
  let L := P ++ i_queue s in
  map_ok (i_map s) L /\ i_next s = zlen L - 1 /\ (forall p, In p L -> inr p) /\ rd L 0 = Some (0, 0) /\
  i_arcs s = concat G /\ i_index s ++ [zlen (i_arcs s)] = splits_of G /\ zlen G = zlen P /\
  forall k p, rd P k = Some p -> exists xs g, expand eps ha hb p = Some xs /\ rd G k = Some g /\ Forall2 (made L k) xs g.


Lemma loop_ok : forall fuel P G s, linv P G s -> zlen a * zlen b - zlen P <= Z.of_nat fuel ->
  exists P' G' s', loop fuel eps ha hb s = Some s' /\ linv P' G' s' /\ i_queue s' = [].
Proof.
  induction fuel as [|fuel IH]; intros P G s I F.
  - exists P, G, s. assert (Q : i_queue s = []).
    { destruct I as ((_ & M2 & M3) & _ & R & _). destruct (i_queue s) as [|q Q]; auto. exfalso.
      assert (ND : NoDup (P ++ q :: Q)).
      { apply NoDup_nth_error. intros i j Hi Hj. destruct (nth_error (P ++ q :: Q) i) as [p|] eqn:E; [|apply nth_error_None in E; lia].
        assert (A1 : rd (P ++ q :: Q) (Z.of_nat i) = Some p) by (unfold rd; destruct (Z.of_nat i <? 0) eqn:?; [lia|]; rewrite Nat2Z.id; auto).
        assert (A2 : rd (P ++ q :: Q) (Z.of_nat j) = Some p) by (unfold rd; destruct (Z.of_nat j <? 0) eqn:?; [lia|]; rewrite Nat2Z.id; auto).
        apply M2 in A1, A2. assert (Z.of_nat i = Z.of_nat j) by congruence. lia. }
      assert (IN : incl (P ++ q :: Q) (list_prod (zrange (zlen a)) (zrange (zlen b)))).
      { intros [x y] Hx. apply R in Hx. apply in_prod; apply in_zrange; apply Hx. }
      pose proof (NoDup_incl_length ND IN) as LE. unfold pair in LE. rewrite prod_length, app_length in LE. cbn [length] in LE.
      pose proof (zlen_zrange (zlen a) (zlen_nonneg a)) as Q1. pose proof (zlen_zrange (zlen b) (zlen_nonneg b)) as Q2. unfold zlen at 1 in Q1. unfold zlen at 1 in Q2. unfold zlen in F at 3.
      set (u := length (zrange (zlen a))) in *. set (v := length (zrange (zlen b))) in *. assert (E : Z.of_nat (u * v) = zlen a * zlen b) by (rewrite Nat2Z.inj_mul; congruence). clear -F LE E. unfold pair in *. lia. }
    split; auto. cbn. now rewrite Q.
  - destruct (i_queue s) as [|p Q] eqn:EQ; [exists P, G, s; split; [cbn; now rewrite EQ|auto]|].
    pose proof I as (M & Nx & R & R0 & AC & IX & ZG & GR). rewrite EQ in *. cbn [loop]. rewrite EQ.
    assert (Hp : rd (P ++ p :: Q) (zlen P) = Some p) by (rewrite rd_app_r, Z.sub_diag, rd_cons_0 by lia; auto).
    destruct M as (M1 & M2 & M3). rewrite (M2 _ _ Hp). assert (Ip : inr p) by (apply R; apply in_app_iff; cbn; auto).
    destruct (expand_spec p (proj1 Ip) (proj2 Ip)) as (xs & EX & _ & XS). rewrite EX. cbv beta iota zeta.
    set (s1 := mkI Q (i_map s) (i_next s) (i_arcs s) (i_index s ++ [zlen (i_arcs s)])).
    assert (EL : (P ++ [p]) ++ Q = P ++ p :: Q) by (rewrite <- app_assoc; reflexivity).
    destruct (fold_add (P ++ [p]) (zlen P) xs s1) as (N & g & B1 & B2 & B3 & B4 & B5 & B6 & B7).
    { cbn. rewrite EL. exact (conj M1 (conj M2 M3)). } { cbn. rewrite EL. exact Nx. }
    set (s2 := fold_left (add_arc (zlen P)) xs s1) in *.
    apply (IH (P ++ [p]) (G ++ [g]) s2).
    + assert (EL2 : (P ++ [p]) ++ i_queue s2 = (P ++ p :: Q) ++ N) by (rewrite B1; cbn; rewrite app_assoc, EL; reflexivity).
      unfold linv. cbv zeta. rewrite EL2 in *. split; [auto|]. split; [auto|]. split; [|split; [|split; [|split; [|split]]]].
      * intros q Hq. apply in_app_iff in Hq. destruct Hq as [Hq|Hq]; auto. destruct (B7 q Hq) as (x & Hx & ->). apply (xstep_inr p); auto. now apply XS.
      * rewrite rd_app_l; auto. apply rd_Some_bound in R0. lia.
      * rewrite B4. cbn. rewrite concat_app. cbn. rewrite app_nil_r. congruence.
      * rewrite B5, splits_of_snoc, B4, <- IX. cbn [i_index i_arcs s1]. rewrite zlen_app, <- AC. reflexivity.
      * rewrite !zlen_app. cbn. rewrite ZG. reflexivity.
      * intros k q Hk. pose proof (rd_Some_bound _ _ _ Hk) as Bk. rewrite zlen_app in Bk. change (zlen [p]) with 1 in Bk. destruct (Z.eq_dec k (zlen P)) as [->|].
        -- rewrite rd_app_r, Z.sub_diag, rd_cons_0 in Hk by lia. injection Hk as <-. exists xs, g. split; auto. split; auto. rewrite rd_app_r by lia. replace (zlen P - zlen G) with 0 by lia. apply rd_cons_0.
        -- rewrite rd_app_l in Hk by lia. destruct (GR k q Hk) as (xs' & g' & C1 & C2 & C3). exists xs', g'. split; auto. split; [rewrite rd_app_l; [auto|apply rd_Some_bound in C2; lia]|].
           revert C3. apply Forall2_imp. intros. now apply made_mono.
    + rewrite zlen_app. change (zlen [p]) with 1. lia.
Qed.

(** ** The result *)
Definition fixd (last : Z) (x : arc * (Z * Z)) : arc * (Z * Z) :=
  ((if dst (fst x) =? -1 then mkArc (src (fst x)) last (lab (fst x)) (sc (fst x)) else fst x), snd x).

(** State [k] of the output stands for the pair number [k] of [St]; row [k] of [C]
    holds its arcs with the entries of the two arc maps. *)
Definition arc_of (St : list pair) (k : Z) (x : xarc) (y : arc * (Z * Z)) : Prop :=
  src (fst y) = k /\ lab (fst y) = x_lab x /\ sc (fst y) = x_sc x /\ snd y = (x_a x, x_b x) /\ rd St (dst (fst y)) = Some (x_dest x).
Definition prod_ok (St : list pair) (C : list (list (arc * (Z * Z)))) : Prop :=
  (forall t, rd St t = Some fin -> t = zlen St - 1) /\ (forall p, In p St -> inr p) /\ rd St 0 = Some (0, 0) /\ rd St (zlen St - 1) = Some fin /\ zlen C = zlen St /\ 2 <= zlen St /\
  forall k p, rd St k = Some p -> exists row, rd C k = Some row /\ (eps = false -> NoDup (map snd row)) /\
    (forall y, In y row -> exists x, xstep p x /\ arc_of St k x y) /\ (forall x, xstep p x -> exists y, In y row /\ arc_of St k x y).

Lemma Forall2_in_l {X Y} (R : X -> Y -> Prop) l m x : Forall2 R l m -> In x l -> exists y, In y m /\ R x y.
Proof. clear. induction 1; intros Hi; [destruct Hi|]. destruct Hi as [->|Hi]; [exists y; split; [now left|auto]|]. destruct (IHForall2 Hi) as (y' & ? & ?). exists y'. split; [now right|auto]. Qed.
Lemma Forall2_in_r {X Y} (R : X -> Y -> Prop) l m y : Forall2 R l m -> In y m -> exists x, In x l /\ R x y.
Proof. clear. induction 1; intros Hi; [destruct Hi|]. destruct Hi as [->|Hi]; [exists x; split; [now left|auto]|]. destruct (IHForall2 Hi) as (y' & ? & ?). exists y'. split; [now right|auto]. Qed.

Lemma intersection_ok : exists St C, prod_ok St C /\ intersection eps ha hb = Some (splits_of C, concat C).
Proof.
  pose proof Va as (_ & Va2 & _). pose proof Vb as (_ & Vb2 & _). unfold nstates in Va2, Vb2.
  unfold intersection. rewrite Na, Nb. destruct ((zlen a =? 0) || (zlen b =? 0)) eqn:E0; [lia|]. clear E0.
  destruct ((2 <=? zlen a) && (2 <=? zlen b)) eqn:E1; [|lia]. clear E1. fold fin. cbn [plookup].
  destruct (pair_eqb (0, 0) fin) eqn:E; [unfold pair_eqb, fin in E; cbn in E; lia|]. cbv zeta.
  destruct (loop_ok (Z.to_nat (zlen a * zlen b)) [] [] (mkI [(0, 0)] [(fin, -1); (0, 0, 0)] 0 [] [])) as (P & G & s & L & I & Q).
  { unfold linv. cbn [i_queue i_map i_next i_arcs i_index app]. split; [|split; [reflexivity|split; [|split; [reflexivity|split; [reflexivity|split; [reflexivity|split; [reflexivity|]]]]]]].
    - assert (FF : pair_eqb fin fin = true) by (unfold pair_eqb; lia). split; [|split].
      + cbn. now rewrite FF.
      + intros k p Hk. pose proof (rd_Some_bound _ _ _ Hk) as B. change (zlen [(0, 0)]) with 1 in B. assert (k = 0) by lia. subst. rewrite rd_cons_0 in Hk. injection Hk as <-.
        cbn [plookup]. destruct (pair_eqb fin (0, 0)) eqn:E2; [unfold pair_eqb, fin in E2; cbn in E2; lia|]. reflexivity.
      + intros k p. cbn [plookup]. destruct (pair_eqb fin p) eqn:E2; [intros X; injection X as <-; left; split; auto; unfold pair_eqb in E2; destruct p, fin; cbn in *; f_equal; lia|].
        destruct (pair_eqb (0, 0) p) eqn:E3; [|discriminate]. intros X; injection X as <-. right. unfold pair_eqb in E3; destruct p; cbn in *. rewrite rd_cons_0. do 2 f_equal; lia.
    - intros p [<-|[]]. unfold inr. cbn. lia.
    - intros k p Hk. rewrite rd_nil in Hk. discriminate. }
  { change (zlen []) with 0. lia. }
  match goal with |- context [loop ?n eps ha hb ?s0] => replace (loop n eps ha hb s0) with (Some s) by exact (eq_sym L) end. cbv beta iota. destruct I as (M & Nx & R & R0 & AC & IX & ZG & GR). rewrite Q, app_nil_r in *.
  set (last := i_next s + 1). assert (EL : last = zlen P) by (unfold last; lia).
  assert (ZI : zlen (i_index s ++ [zlen (i_arcs s); zlen (i_arcs s)]) = zlen P + 2).
  { pose proof (f_equal zlen IX) as ZI. rewrite zlen_app, zlen_splits_of in ZI. change (zlen [zlen (i_arcs s)]) with 1 in ZI. rewrite zlen_app. change (zlen [zlen (i_arcs s); zlen (i_arcs s)]) with 2. lia. }
  destruct (last + 2 =? _) eqn:E2; [|lia]. clear E2.
  assert (ND : NoDup (P ++ [fin])).
  { apply NoDup_app_disj.
    - destruct M as (_ & M2 & _). apply NoDup_nth_error. intros i j Hi Hj. destruct (nth_error P i) as [p|] eqn:E3; [|apply nth_error_None in E3; lia].
      assert (A1 : rd P (Z.of_nat i) = Some p) by (unfold rd; destruct (Z.of_nat i <? 0) eqn:?; [lia|]; rewrite Nat2Z.id; auto).
      assert (A2 : rd P (Z.of_nat j) = Some p) by (unfold rd; destruct (Z.of_nat j <? 0) eqn:?; [lia|]; rewrite Nat2Z.id; auto).
      apply M2 in A1, A2. assert (Z.of_nat i = Z.of_nat j) by congruence. lia.
    - constructor; [intros []|constructor].
    - intros x Hx [<-|[]]. apply In_rd in Hx. destruct Hx as (k & Hk & Hx). destruct M as (M1 & M2 & _). apply M2 in Hx. rewrite M1 in Hx. injection Hx as <-. lia. }
  exists (P ++ [fin]), (map (map (fixd last)) G ++ [[]]). split.
  - assert (ZP : zlen (P ++ [fin]) = zlen P + 1) by (rewrite zlen_app; reflexivity).
    assert (P0 : 0 < zlen P) by (apply rd_Some_bound in R0; lia).
    split; [|split; [|split; [|split; [|split; [|split]]]]].
    + intros t Ht. pose proof (rd_Some_bound _ _ _ Ht) as Bt. destruct (Z.eq_dec t (zlen P)) as [->|]; [lia|]. exfalso. rewrite rd_app_l in Ht by lia. apply NoDup_remove_2 with (l := P) (l' := []) (a := fin); [exact ND|]. rewrite app_nil_r. eapply rd_In; eauto.
    + intros p Hp. apply in_app_iff in Hp. destruct Hp as [Hp|[<-|[]]]; auto. unfold inr, fin. cbn. lia.
    + rewrite rd_app_l; auto.
    + rewrite rd_app_r by lia. replace (zlen (P ++ [fin]) - 1 - zlen P) with 0 by lia. apply rd_cons_0.
    + rewrite zlen_app, zlen_map, ZG, ZP. reflexivity.
    + lia.
    + intros k p Hk. pose proof (rd_Some_bound _ _ _ Hk) as Bk. destruct (Z.eq_dec k (zlen P)) as [->|].
      * rewrite rd_app_r, Z.sub_diag, rd_cons_0 in Hk by lia. injection Hk as <-. exists []. split; [rewrite rd_app_r, zlen_map, ZG, Z.sub_diag, rd_cons_0 by (rewrite zlen_map; lia); auto|].
        split; [constructor|]. split; [intros y []|]. intros x X. exfalso. apply xstep_fin in X; [unfold fin in X; cbn in X; lia|]. unfold inr, fin. cbn. lia.
      * rewrite rd_app_l in Hk by lia. destruct (GR k p Hk) as (xs & g & C1 & C2 & C3). assert (Ip : inr p) by (apply R; eapply rd_In; eauto).
        destruct (expand_spec p (proj1 Ip) (proj2 Ip)) as (xs' & EX & NX & XS). assert (xs' = xs) by congruence. subst xs'.
        exists (map (fixd last) g). split; [rewrite rd_app_l by (rewrite zlen_map; lia); now rewrite rd_map, C2|]. split; [|split].
        -- intros Ee. specialize (NX Ee). rewrite map_map. cbn. replace (map (fun x => snd x) g) with (map (fun x => (x_a x, x_b x)) xs); auto.
           clear -C3. induction C3 as [|x y xs g H _ IH]; cbn; auto. f_equal; auto. symmetry. apply H.
        -- intros y Hy. apply in_map_iff in Hy. destruct Hy as (y0 & <- & Hy). destruct (Forall2_in_r _ _ _ _ C3 Hy) as (x & Hx & D1 & D2 & D3 & D4 & D5).
           exists x. split; [now apply XS|]. unfold arc_of, fixd. cbn [fst snd]. destruct (dst (fst y0) =? -1) eqn:ED; cbn [src dst lab sc]; repeat split; auto.
           ++ destruct D5 as [(D5 & _)|D5]; [|apply rd_Some_bound in D5; lia]. rewrite rd_app_r by lia. replace (last - zlen P) with 0 by lia. rewrite rd_cons_0. congruence.
           ++ destruct D5 as [(_ & D5)|D5]; [lia|]. rewrite rd_app_l; auto. apply rd_Some_bound in D5; lia.
        -- intros x Hx. apply XS in Hx. destruct (Forall2_in_l _ _ _ _ C3 Hx) as (y0 & Hy & D1 & D2 & D3 & D4 & D5). exists (fixd last y0). split; [now apply in_map|].
           unfold arc_of, fixd. cbn [fst snd]. destruct (dst (fst y0) =? -1) eqn:ED; cbn [src dst lab sc]; repeat split; auto.
           ++ destruct D5 as [(D5 & _)|D5]; [|apply rd_Some_bound in D5; lia]. rewrite rd_app_r by lia. replace (last - zlen P) with 0 by lia. rewrite rd_cons_0. congruence.
           ++ destruct D5 as [(_ & D5)|D5]; [lia|]. rewrite rd_app_l; auto. apply rd_Some_bound in D5; lia.
  - do 2 f_equal.
    + rewrite splits_of_snoc. change (zlen []) with 0. assert (ES : splits_of (map (map (fixd last)) G) = splits_of G).
      { unfold splits_of. f_equal. rewrite map_map. apply map_ext. intros. apply zlen_map. }
      rewrite ES, <- IX, <- app_assoc. cbn. do 3 f_equal. rewrite AC, Z.add_0_r, <- concat_map, zlen_map. reflexivity.
    + rewrite concat_app. cbn. rewrite app_nil_r, <- concat_map, AC. reflexivity.
Qed.
End P.
