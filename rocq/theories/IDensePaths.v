(** * Forward and backward scores of one graph, the states and arcs kept, and the
    paths of the result *)
From Coq Require Import ZArith List Lia Bool.
From Verif Require Import Base RaggedModel RaggedSpec RaggedProofs FsaSpec FsaLemmas ScoreSpec ScorePaths ShortestSpec IntersectSpec IntersectPaths IDenseModel IDenseSpec.
Import ListNotations.
Open Scope Z_scope.

Lemma oadd_assoc x y z : oadd (oadd x y) z = oadd x (oadd y z).
Proof. destruct x, y, z; cbn; try reflexivity. f_equal. lia. Qed.
Lemma oadd_comm x y : oadd x y = oadd y x.
Proof. destruct x, y; cbn; try reflexivity. f_equal. lia. Qed.
Lemma oadd_0 x : oadd x (Some 0) = x.
Proof. destruct x; cbn; f_equal. lia. Qed.
Definition ole (x y : option Z) : Prop :=
  match x, y with None, _ => True | Some a, Some b => a <= b | Some _, None => False end.
Lemma ole_refl x : ole x x. Proof. destruct x; cbn; lia. Qed.
Lemma ole_trans x y z : ole x y -> ole y z -> ole x z.
Proof. destruct x, y, z; cbn; try lia; tauto. Qed.
Lemma ole_add x x' y y' : ole x x' -> ole y y' -> ole (oadd x y) (oadd x' y').
Proof. destruct x, x', y, y'; cbn; try lia; tauto. Qed.
Lemma ogt_ole x y c : ole x y -> ogt x c = true -> ogt y c = true.
Proof. destruct x, y, c; cbn; try discriminate; try tauto. rewrite !Z.ltb_lt. lia. Qed.
Lemma omax_l x y : ole x (omax x y). Proof. destruct x, y; cbn; lia. Qed.
Lemma omax_r x y : ole y (omax x y). Proof. destruct x, y; cbn; lia. Qed.
Lemma kmax_from l : forall a, ole a (fold_left omax l a) /\ (forall x, In x l -> ole x (fold_left omax l a)) /\
  (fold_left omax l a = a \/ In (fold_left omax l a) l).
Proof.
  induction l as [|y l IH]; intros a; cbn [fold_left].
  - split; [apply ole_refl|]. split; [intros x []|now left].
  - destruct (IH (omax a y)) as (H1 & H2 & H3). split; [|split].
    + eapply ole_trans; [apply omax_l|exact H1].
    + intros x [<-|H]; [eapply ole_trans; [apply omax_r|exact H1]|now apply H2].
    + destruct H3 as [E|E]; [|right; right; exact E]. rewrite E.
      destruct a as [a|], y as [y|]; cbn; try (now left); try (right; now left).
      destruct (Z.max_spec a y) as [(_ & ->)|(_ & ->)]; [right; now left|now left].
Qed.
Lemma kmax_ge l x : In x l -> ole x (kmax l).
Proof. intros H. now apply (proj1 (proj2 (kmax_from l None))). Qed.
Lemma kmax_in l x : kmax l = Some x -> In (Some x) l.
Proof. intros H. destruct (proj2 (proj2 (kmax_from l None))) as [E|E]; unfold kmax in *; rewrite H in E; [discriminate|exact E]. Qed.

(** the best value of [val] on [P] *)
Definition best (P : list Z -> Prop) (val : list Z -> option Z) (o : option Z) : Prop :=
  (forall p, P p -> ole (val p) o) /\ (forall x, o = Some x -> exists p, P p /\ val p = Some x).
Lemma best_unique P val o o' : best P val o -> best P val o' -> o = o'.
Proof.
  intros (A & B) (A' & B'). destruct o as [x|], o' as [y|]; try reflexivity.
  - destruct (B x eq_refl) as (p & Hp & Ep). destruct (B' y eq_refl) as (q & Hq & Eq).
    pose proof (A' p Hp) as X. pose proof (A q Hq) as Y. rewrite Ep in X. rewrite Eq in Y. cbn in X, Y. f_equal. lia.
  - destruct (B x eq_refl) as (p & Hp & Ep). pose proof (A' p Hp) as X. rewrite Ep in X. destruct X.
  - destruct (B' y eq_refl) as (p & Hp & Ep). pose proof (A p Hp) as X. rewrite Ep in X. destruct X.
Qed.

Section One.
Variable f : nfsa.
Variable rows : frames.
Notation A := (all_arcs f).
Notation fr := (frame rows).
Notation T := (zlen rows).
Notation ns := (zlen f).

Definition wt (t : Z) (a : arc) : option Z := oadd (Some (sc a)) (fr t (lab a)).

(** best score of the paths with [n] arcs from the start state to [s] *)
Fixpoint Fw (n : nat) (s : Z) : option Z :=
  match n with
  | O => if s =? 0 then Some 0 else None
  | S m => kmax (map (fun a => oadd (oadd (Fw m (src a)) (Some (sc a))) (fr (Z.of_nat m) (lab a))) (filter (fun a => dst a =? s) A))
  end.
(** best score of the paths with [n] arcs, on the last [n] frames, from [s] to the final state *)
Fixpoint Bw (n : nat) (s : Z) : option Z :=
  match n with
  | O => if s + 1 =? ns then Some 0 else None
  | S m => kmax (map (fun a => oadd (oadd (Bw m (dst a)) (Some (sc a))) (fr (T - Z.of_nat n) (lab a))) (match rd f s with Some st => st | None => [] end))
  end.

Hypothesis Hsrc : src_ok f.

Lemma in_row s st a : rd f s = Some st -> In a st -> src a = s /\ In a A.
Proof.
  intros H Ha. split; [exact (Hsrc s st a H Ha)|]. unfold all_arcs. apply in_concat. exists st. split; [exact (rd_In _ _ _ H)|exact Ha].
Qed.
Lemma arc_row a : In a A -> exists st, rd f (src a) = Some st /\ In a st.
Proof.
  intros H. unfold all_arcs in H. apply in_concat in H as (st & Hst & Ha). apply In_rd in Hst as (i & _ & Hi).
  exists st. now rewrite (Hsrc i st a Hi Ha).
Qed.

Lemma score_app_d p p' : forall t, dense_score f rows t (p ++ p') = oadd (dense_score f rows t p) (dense_score f rows (t + zlen p) p').
Proof.
  induction p as [|j p IH]; intros t; cbn [app dense_score].
  - change (zlen (@nil Z)) with 0. rewrite Z.add_0_r. destruct (dense_score f rows t p'); cbn; reflexivity.
  - destruct (rd A j); [|reflexivity]. rewrite IH, !oadd_assoc. replace (t + zlen (j :: p)) with (t + 1 + zlen p) by (rewrite zlen_cons; lia). reflexivity.
Qed.

Lemma Fw_best n : forall s, best (fun p => apath f 0 p s /\ zlen p = Z.of_nat n) (dense_score f rows 0) (Fw n s).
Proof.
  induction n as [|m IH]; intros s; split.
  - intros p (Hp & Hl). apply zlen_0_nil in Hl as ->. inversion Hp; subst. apply ole_refl.
  - intros x. cbn. destruct (s =? 0) eqn:E; [|discriminate]. intros [= <-]. apply Z.eqb_eq in E as ->. exists []. repeat split. constructor.
  - intros p (Hp & Hl). destruct (exists_last (l := p)) as (p0 & (j & ->)); [intros ->; change (zlen (@nil Z)) with 0 in Hl; lia|].
    rewrite zlen_app in Hl. change (zlen [j]) with 1 in Hl.
    apply apath_app in Hp as (u & H1 & H2). inversion H2; subst. inversion H6; subst.
    eapply ole_trans; [|cbn [Fw]; apply kmax_ge, in_map; apply filter_In; split; [exact (rd_In _ _ _ H4)|now apply Z.eqb_eq]].
    rewrite score_app_d. cbn [dense_score]. rewrite H4, oadd_0, oadd_assoc. apply ole_add.
    + apply (IH (src a)). split; [exact H1|lia].
    + replace (0 + zlen p0) with (Z.of_nat m) by lia. apply ole_refl.
  - intros x Hx. cbn [Fw] in Hx. apply kmax_in, in_map_iff in Hx as (a & E & Ha). apply filter_In in Ha as (Ha & Hd). apply Z.eqb_eq in Hd.
    destruct (Fw m (src a)) as [y|] eqn:Ey; [|discriminate].
    destruct (proj2 (IH (src a)) y Ey) as (p0 & (Hp & Hl) & Es). apply In_rd in Ha as (j & _ & Hj).
    exists (p0 ++ [j]). split; [split|].
    + apply apath_app. exists (src a). split; [exact Hp|]. apply (ap_cons f j a [] s Hj). rewrite Hd. constructor.
    + rewrite zlen_app. change (zlen [j]) with 1. lia.
    + rewrite score_app_d, Es. cbn [dense_score]. rewrite Hj, oadd_0. replace (0 + zlen p0) with (Z.of_nat m) by lia.
      rewrite <- E, oadd_assoc. reflexivity.
Qed.

Lemma Bw_best n : forall s, best (fun p => apath f s p (ns - 1) /\ zlen p = Z.of_nat n) (dense_score f rows (T - Z.of_nat n)) (Bw n s).
Proof.
  induction n as [|m IH]; intros s; split.
  - intros p (Hp & Hl). apply zlen_0_nil in Hl as ->. inversion Hp; subst. cbn [Bw dense_score]. replace (ns - 1 + 1 =? ns) with true by (symmetry; apply Z.eqb_eq; lia). apply ole_refl.
  - intros x. cbn. destruct (s + 1 =? ns) eqn:E; [|discriminate]. intros [= <-]. apply Z.eqb_eq in E. exists []. repeat split. replace (ns - 1) with s by lia. constructor.
  - intros p (Hp & Hl). destruct p as [|j p]; [change (zlen (@nil Z)) with 0 in Hl; lia|].
    rewrite zlen_cons in Hl. inversion Hp as [|? a ? ? H1 H3]; subst. destruct (arc_row a (rd_In _ _ _ H1)) as (st & Hst & Ha).
    eapply ole_trans; [|cbn [Bw]; apply kmax_ge, in_map; rewrite Hst; exact Ha].
    cbn [dense_score]. rewrite H1, oadd_comm, oadd_assoc. apply ole_add.
    + replace (T - Z.of_nat (S m) + 1) with (T - Z.of_nat m) by lia. apply (IH (dst a)). split; [exact H3|lia].
    + apply ole_refl.
  - intros x Hx. cbn [Bw] in Hx. apply kmax_in, in_map_iff in Hx as (a & E & Ha).
    destruct (rd f s) as [st|] eqn:Hst; [|destruct Ha]. destruct (in_row s st a Hst Ha) as (<- & HA).
    destruct (Bw m (dst a)) as [y|] eqn:Ey; [|discriminate].
    destruct (proj2 (IH (dst a)) y Ey) as (p0 & (Hp & Hl) & Es). apply In_rd in HA as (j & _ & Hj).
    exists (j :: p0). split; [split|].
    + exact (ap_cons f j a p0 _ Hj Hp).
    + rewrite zlen_cons. lia.
    + cbn [dense_score]. rewrite Hj. replace (T - Z.of_nat (S m) + 1) with (T - Z.of_nat m) by lia. rewrite Es, <- E, oadd_comm, oadd_assoc. reflexivity.
Qed.

(** ** The states and arcs kept *)
Variable cut : option Z.
Notation Fz t s := (Fw (Z.to_nat t) s).
Notation Bz t s := (Bw (Z.to_nat t) s).
Definition keepS (t s : Z) : bool := (t <=? T) && ogt (oadd (Fz t s) (Bz (T - t) s)) cut.
Definition ts (i : Z) : Z * Z := (i / ns, i mod ns).
(** copies of the states in the order of the code, for [n] frames *)
Definition copies (n : Z) : list (Z * Z) := concat (map (fun t => map (fun s => (t, s)) (zrange ns)) (zrange n)).
Definition kp (x : Z * Z) : bool := keepS (fst x) (snd x).
Definition N : list (Z * Z) := filter kp (copies (T + 1)).
Definition pos (t s : Z) : Z := zlen (filter kp (firstn (Z.to_nat (t * ns + s)) (copies (T + 1)))).

Definition keepA (t : Z) (a : arc) : bool :=
  keepS (t + 1) (dst a) && ogt (oadd (oadd (Fz t (src a)) (wt t a)) (Bz (T - (t + 1)) (dst a))) cut.
(** leaves: frame, state, position of the arc in the state *)
Definition leaves (x : Z * Z) : list (Z * Z * Z) :=
  if fst x =? T then []
  else map (fun i => (x, i)) (zrange (match rd f (snd x) with Some st => zlen st | None => 0 end)).
Definition larc (y : Z * Z * Z) : arc :=
  match rd f (snd (fst y)) with
  | Some st => match rd st (snd y) with Some a => a | None => mkArc 0 0 0 0 end
  | None => mkArc 0 0 0 0
  end.
Definition kl (y : Z * Z * Z) : bool := keepA (fst (fst y)) (larc y).
Definition L0 : list (list (Z * Z * Z)) := map leaves N.
Definition L : list (list (Z * Z * Z)) := map (filter kl) L0.
Definition wz (t : Z) (a : arc) : Z := match wt t a with Some x => x | None => 0 end.
Definition oarc (y : Z * Z * Z) : arc :=
  let t := fst (fst y) in
  mkArc (pos t (snd (fst y))) (pos (t + 1) (dst (larc y))) (lab (larc y)) (wz t (larc y)).
(** position of the arc in the graph *)
Definition apos (y : Z * Z * Z) : Z := off1 f (snd (fst y)) + snd y.
Definition G : nfsa := map (map oarc) L.

Hypothesis Hdst : forall a, In a A -> 0 <= dst a < ns.

Lemma rd_copies n t s : 0 <= n -> 0 <= t < n -> 0 <= s < ns -> rd (copies n) (t * ns + s) = Some (t, s).
Proof.
  intros Hn Ht Hs. unfold copies. pose proof (zlen_nonneg f).
  assert (HL : off1 (map (fun t => map (fun s => (t, s)) (zrange ns)) (zrange n)) t = t * ns).
  { unfold off1. rewrite <- zsum_zlen_concat, <- firstn_map, map_map. 
    rewrite (map_ext_in _ (fun _ => ns)); [|intros x _; rewrite zlen_map, zlen_zrange by lia; reflexivity].
    clear Hs s. 
    assert (E : forall l, zsum (map (fun _ : Z => ns) l) = zlen l * ns).
    { induction l as [|x l IH]; [reflexivity|]. cbn [map]. rewrite zlen_cons. unfold zsum in *. cbn [fold_right]. rewrite IH. lia. }
    rewrite firstn_map, E. f_equal. unfold zlen. rewrite firstn_length, zrange_length. lia. }
  rewrite <- HL. refine (proj1 (rd_concat_off _ t (map (fun s => (t, s)) (zrange ns)) s (t, s) _ _)).
  - rewrite rd_map, rd_zrange by lia. reflexivity.
  - rewrite rd_map, rd_zrange by lia. reflexivity.
Qed.
Lemma zlen_copies n : 0 <= n -> zlen (copies n) = n * ns.
Proof.
  intros Hn. unfold copies. rewrite <- zsum_zlen_concat, map_map. pose proof (zlen_nonneg f).
  rewrite (map_ext_in _ (fun _ => ns)); [|intros x _; rewrite zlen_map, zlen_zrange by lia; reflexivity].
  assert (E : forall l, zsum (map (fun _ : Z => ns) l) = zlen l * ns).
  { induction l as [|x l IH]; [reflexivity|]. cbn [map]. rewrite zlen_cons. unfold zsum in *. cbn [fold_right]. rewrite IH. lia. }
  rewrite E, zlen_zrange by lia. reflexivity.
Qed.
Lemma copies_inv n i x : 0 <= n -> rd (copies n) i = Some x -> exists t s, x = (t, s) /\ 0 <= t < n /\ 0 <= s < ns /\ i = t * ns + s.
Proof.
  intros Hn H. pose proof (rd_Some_bound _ _ _ H) as B. rewrite zlen_copies in B by lia. pose proof (zlen_nonneg f).
  assert (0 < ns) by nia. pose proof (Z.div_mod i ns ltac:(lia)) as E. pose proof (Z.mod_pos_bound i ns ltac:(lia)).
  assert (0 <= i / ns < n) by (split; [apply Z.div_pos; lia|apply Z.div_lt_upper_bound; lia]).
  exists (i / ns), (i mod ns). pose proof (rd_copies n (i / ns) (i mod ns) Hn ltac:(lia) ltac:(lia)) as R.
  replace (i / ns * ns + i mod ns) with i in R by lia. rewrite R in H. injection H as <-. repeat split; lia.
Qed.

(** counting kept elements *)
Lemma rd_filter_pos {X} (p : X -> bool) l : forall i x, rd l i = Some x -> p x = true ->
  rd (filter p l) (zlen (filter p (firstn (Z.to_nat i) l))) = Some x.
Proof.
  induction l as [|y l IH]; intros i x H Hp; [rewrite rd_nil in H; discriminate|].
  pose proof (rd_Some_bound _ _ _ H) as B. rewrite rd_cons in H. destruct (i =? 0) eqn:E.
  - apply Z.eqb_eq in E as ->. injection H as ->. cbn. rewrite Hp. reflexivity.
  - apply Z.eqb_neq in E.
    replace (Z.to_nat i) with (S (Z.to_nat (i - 1))) by lia. cbn [firstn filter]. specialize (IH (i - 1) x H Hp).
    destruct (p y).
    + rewrite zlen_cons. replace (1 + zlen (filter p (firstn (Z.to_nat (i - 1)) l))) with (zlen (filter p (firstn (Z.to_nat (i - 1)) l)) + 1) by lia.
      rewrite rd_cons_S by apply zlen_nonneg. exact IH.
    + exact IH.
Qed.
Lemma rd_filter_inv {X} (p : X -> bool) l : forall k x, rd (filter p l) k = Some x ->
  exists i, rd l i = Some x /\ p x = true /\ k = zlen (filter p (firstn (Z.to_nat i) l)).
Proof.
  induction l as [|y l IH]; intros k x H; cbn [filter] in H; [rewrite rd_nil in H; discriminate|]. destruct (p y) eqn:Ey.
  - pose proof (rd_Some_bound _ _ _ H) as B. rewrite rd_cons in H. destruct (k =? 0) eqn:E.
    + apply Z.eqb_eq in E as ->. injection H as ->. exists 0. repeat split; auto.
    + apply Z.eqb_neq in E.
      destruct (IH _ _ H) as (i & Hi & Hp & Hk). pose proof (rd_Some_bound _ _ _ Hi). exists (i + 1). rewrite rd_cons_S by lia. repeat split; auto.
      replace (Z.to_nat (i + 1)) with (S (Z.to_nat i)) by lia. cbn [firstn filter]. rewrite Ey, zlen_cons. lia.
  - destruct (IH _ _ H) as (i & Hi & Hp & Hk). pose proof (rd_Some_bound _ _ _ Hi). exists (i + 1). rewrite rd_cons_S by lia. repeat split; auto.
    replace (Z.to_nat (i + 1)) with (S (Z.to_nat i)) by lia. cbn [firstn filter]. rewrite Ey. exact Hk.
Qed.

Lemma N_pos t s : 0 <= t -> 0 <= s < ns -> keepS t s = true -> rd N (pos t s) = Some (t, s).
Proof.
  intros Ht Hs K. assert (t <= T) by (unfold keepS in K; apply andb_prop in K as (K & _); now apply Z.leb_le in K).
  pose proof (zlen_nonneg rows). unfold N, pos. apply rd_filter_pos; [apply rd_copies; lia|exact K].
Qed.
Lemma N_inv n x : rd N n = Some x -> exists t s, x = (t, s) /\ n = pos t s /\ 0 <= t <= T /\ 0 <= s < ns /\ keepS t s = true.
Proof.
  intros H. pose proof (zlen_nonneg rows). apply rd_filter_inv in H as (i & Hi & Hp & Hn). apply copies_inv in Hi as (t & s & -> & Ht & Hs & ->); [|lia].
  exists t, s. repeat split; auto; lia.
Qed.

Notation y_t y := (fst (fst y)) (only parsing).
Notation y_s y := (snd (fst y)) (only parsing).
(** what is known of a kept arc *)
Definition leaf_ok (y : Z * Z * Z) : Prop :=
  exists st, 0 <= y_t y < T /\ rd f (y_s y) = Some st /\ rd st (snd y) = Some (larc y) /\
             keepS (y_t y) (y_s y) = true /\ keepA (y_t y) (larc y) = true.
Lemma leaf_in y : In y (concat L) <-> leaf_ok y.
Proof.
  unfold L, L0. rewrite map_map. split.
  - intros H. apply in_concat in H as (l & Hl & Hy). apply in_map_iff in Hl as (x & <- & Hx).
    apply filter_In in Hy as (Hy & Hk). unfold leaves in Hy. destruct (fst x =? T) eqn:ET; [destruct Hy|]. apply Z.eqb_neq in ET.
    apply in_map_iff in Hy as (i & <- & Hi). apply in_zrange in Hi. destruct (rd f (snd x)) as [st|] eqn:Es; [|lia].
    destruct (rd_in_bound st i Hi) as (a & Ha).
    apply In_rd in Hx as (n & _ & Hn). destruct (N_inv n x Hn) as (t & s & -> & _ & Ht & Hs & HK). cbn in *.
    exists st. unfold larc in *. cbn in *. rewrite Es in *. rewrite Ha. repeat split; try assumption; try lia.
    unfold kl, larc in Hk. cbn in Hk. rewrite Es, Ha in Hk. exact Hk.
  - intros (st & Ht & Hst & Ha & K1 & K2). apply in_concat. exists (filter kl (leaves (fst y))). split.
    + apply in_map_iff. exists (fst y). split; [reflexivity|]. pose proof (rd_Some_bound _ _ _ Hst).
      pose proof (N_pos _ _ (proj1 Ht) H K1) as X. apply rd_In in X. destruct (fst y); exact X.
    + apply filter_In. split; [|exact K2]. unfold leaves. replace (y_t y =? T) with false by (symmetry; apply Z.eqb_neq; lia).
      rewrite Hst. apply in_map_iff. exists (snd y). split; [destruct y; reflexivity|]. apply in_zrange. exact (rd_Some_bound _ _ _ Ha).
Qed.
Lemma leaf_fw y : leaf_ok y -> rd A (apos y) = Some (larc y) /\ src (larc y) = y_s y /\ 0 <= dst (larc y) < ns /\
  keepS (y_t y + 1) (dst (larc y)) = true /\ exists x, wt (y_t y) (larc y) = Some x.
Proof.
  intros (st & Ht & Hst & Ha & K1 & K2).
  assert (HA : In (larc y) A) by (exact (proj2 (in_row _ _ _ Hst (rd_In _ _ _ Ha)))).
  repeat split.
  - unfold all_arcs, apos. exact (proj1 (rd_concat_off f _ _ _ _ Hst Ha)).
  - exact (Hsrc _ _ _ Hst (rd_In _ _ _ Ha)).
  - apply Hdst; exact HA.
  - apply Hdst; exact HA.
  - unfold keepA in K2. apply andb_prop in K2 as (K2 & _). exact K2.
  - unfold keepA in K2. apply andb_prop in K2 as (_ & K2). destruct (wt (y_t y) (larc y)); [eauto|].
    destruct (Fz (y_t y) (src (larc y))); discriminate K2.
Qed.
Lemma N_NoDup : NoDup N.
Proof.
  apply NoDup_filter. pose proof (zlen_nonneg rows). apply NoDup_nth_error. intros i j Hi E.
  assert (B : 0 <= Z.of_nat i < zlen (copies (T + 1))) by (change (zlen (copies (T + 1))) with (Z.of_nat (length (copies (T + 1)))); lia).
  destruct (rd_in_bound _ _ B) as (x & Hx). assert (Hy : rd (copies (T + 1)) (Z.of_nat j) = Some x) by (rewrite rd_nth, <- E, <- rd_nth; exact Hx).
  apply copies_inv in Hx as (t & s & -> & _ & _ & E1); [|lia]. apply copies_inv in Hy as (t' & s' & E2 & _ & _ & E3); [|lia].
  injection E2 as <- <-. lia.
Qed.
Lemma L_NoDup : NoDup (concat L).
Proof.
  unfold L, L0. rewrite map_map. pose proof N_NoDup as HN. induction N as [|x l IH]; cbn [map concat]; [constructor|].
  inversion HN; subst. apply ReverseProofs.NoDup_app_disj; [|now apply IH|].
  - apply NoDup_filter. unfold leaves. destruct (fst x =? T); [constructor|].
    apply NoDup_map_in; [apply NoDup_zrange|]. intros a b _ _ [=]. assumption.
  - intros y H H'. apply filter_In in H as (H & _). apply in_concat in H' as (l' & H' & Hy). apply in_map_iff in H' as (x' & <- & Hx').
    apply filter_In in Hy as (Hy & _). 
    assert (F : forall z, In y (leaves z) -> fst y = z).
    { intros z. unfold leaves. destruct (fst z =? T); [intros []|]. intros Q. apply in_map_iff in Q as (i & <- & _). reflexivity. }
    apply F in H. apply F in Hy. congruence.
Qed.
Lemma G_arcs : all_arcs G = map oarc (concat L).
Proof. unfold all_arcs, G. now rewrite concat_map. Qed.
Lemma zlen_G : zlen G = zlen N.
Proof. unfold G, L, L0. now rewrite !zlen_map. Qed.
Lemma pos_inj t s t' s' : 0 <= t -> 0 <= s < ns -> keepS t s = true -> 0 <= t' -> 0 <= s' < ns -> keepS t' s' = true -> pos t s = pos t' s' -> t = t' /\ s = s'.
Proof. intros ? ? K ? ? K' E. pose proof (N_pos t s) as X. pose proof (N_pos t' s') as Y. rewrite X in Y || (rewrite E in X; rewrite X in Y by auto; specialize (Y ltac:(auto) ltac:(auto) K'); injection Y as -> ->; auto). Qed.
Lemma G_src : src_ok G.
Proof.
  intros i st a Hi Ha. unfold G, L, L0 in Hi. rewrite !rd_map in Hi. destruct (rd N i) as [x|] eqn:Ex; [|discriminate]. cbn [option_map] in Hi. injection Hi as <-.
  apply N_inv in Ex as (t & s & -> & -> & _). apply in_map_iff in Ha as (y & <- & Hy). apply filter_In in Hy as (Hy & _).
  unfold leaves in Hy. destruct (fst (t, s) =? T); [destruct Hy|]. apply in_map_iff in Hy as (j & <- & _). reflexivity.
Qed.

(** a path of the result, seen as a list of leaves *)
Definition lf (j : Z) : Z * Z * Z := match rd (concat L) j with Some y => y | None => (0, 0, 0) end.
Lemma G_arc j a : rd (all_arcs G) j = Some a -> exists y, rd (concat L) j = Some y /\ lf j = y /\ leaf_ok y /\ a = oarc y.
Proof.
  rewrite G_arcs, rd_map. destruct (rd (concat L) j) as [y|] eqn:E; [|discriminate]. intros [= <-]. exists y. split; [reflexivity|]. unfold lf. rewrite E.
  repeat split. apply leaf_in. exact (rd_In _ _ _ E).
Qed.
Lemma G_sound q : forall t s t' s', 0 <= t -> 0 <= s < ns -> keepS t s = true -> 0 <= t' -> 0 <= s' < ns -> keepS t' s' = true ->
  apath G (pos t s) q (pos t' s') ->
  apath f s (map (fun j => apos (lf j)) q) s' /\ t + zlen q = t' /\
  labels (arcs_at G q) = labels (arcs_at f (map (fun j => apos (lf j)) q)) /\
  dense_score f rows t (map (fun j => apos (lf j)) q) = Some (score (arcs_at G q)) /\
  (forall i j, rd q i = Some j -> y_t (lf j) = t + i).
Proof.
  induction q as [|j q IH]; intros t s t' s' Ht Hs K Ht' Hs' K' H; inversion H as [|? a ? ? Hj Hq]; subst.
  - destruct (pos_inj t s t' s' Ht Hs K Ht' Hs' K' ltac:(assumption)) as (<- & <-). cbn. change (zlen (@nil Z)) with 0.
    repeat split; try constructor; try lia. intros i j. rewrite rd_nil. discriminate.
  - destruct (G_arc j a Hj) as (y & Ey & El & Hok & ->). destruct (leaf_fw y Hok) as (H1 & H2 & H3 & H4 & (x & Hx)).
    destruct Hok as (st & HT & Hst & Ha & K1 & K2). cbn [src oarc] in *.
    destruct (pos_inj (y_t y) (y_s y) t s) as (E1 & E2); try assumption; try lia.
    { pose proof (rd_Some_bound _ _ _ Hst). lia. }
    cbn [dst oarc] in Hq. rewrite E1 in *. destruct (IH (t + 1) (dst (larc y)) t' s') as (I1 & I2 & I3 & I4 & I5); try assumption; try lia.
    cbn [map]. rewrite El. rewrite (arcs_at_cons G j q (oarc y) Hj), (arcs_at_cons f _ _ _ H1). split; [|split; [|split; [|split]]].
    + rewrite <- E2, <- H2. exact (ap_cons f _ _ _ _ H1 I1).
    + rewrite zlen_cons. lia.
    + rewrite !labels_cons, I3. reflexivity.
    + cbn [dense_score]. rewrite H1, I4, score_cons. unfold wt in Hx. rewrite Hx. cbn [oadd sc oarc]. unfold wz, wt. rewrite E1. unfold wt in Hx. rewrite Hx. reflexivity.
    + intros i j' Hi. rewrite rd_cons in Hi. destruct (i =? 0) eqn:E0.
      * injection Hi as <-. apply Z.eqb_eq in E0. rewrite El. lia.
      * rewrite (I5 _ _ Hi). lia.
Qed.

(** every prefix of the path is kept *)
Definition good (t : Z) (p : list Z) (s : Z) : Prop :=
  apath f s p (ns - 1) /\ t + zlen p = T.
Lemma G_unique q : forall t s q', 0 <= t -> 0 <= s < ns -> keepS t s = true -> forall z z',
  apath G (pos t s) q z -> apath G (pos t s) q' z' -> map (fun j => apos (lf j)) q = map (fun j => apos (lf j)) q' -> q = q'.
Proof.
  induction q as [|j q IH]; intros t s q' Ht Hs K z z' H H' E; destruct q' as [|j' q']; try discriminate; [reflexivity|].
  cbn [map] in E. injection E as E0 E. inversion H as [|? a ? ? Hj Hq X1 X2]; subst. inversion H' as [|? a' ? ? Hj' Hq' X1' X2']; subst.
  destruct (G_arc j a Hj) as (y & Ey & El & Hok & ->). destruct (G_arc j' a' Hj') as (y' & Ey' & El' & Hok' & ->).
  cbn [src oarc] in X1, X1'. 
  pose proof Hok as (st & HT & Hst & Ha & K1 & K2). pose proof Hok' as (st' & HT' & Hst' & Ha' & K1' & K2').
  pose proof (rd_Some_bound _ _ _ Hst). pose proof (rd_Some_bound _ _ _ Hst').
  destruct (pos_inj (y_t y) (y_s y) t s) as (E1 & E2); try assumption; try lia.
  destruct (pos_inj (y_t y') (y_s y') t s) as (E1' & E2'); try assumption; try lia.
  assert (y = y').
  { rewrite El, El' in E0. unfold apos in E0. rewrite E2, E2' in E0. destruct y as ((y1 & y2) & y3), y' as ((y1' & y2') & y3'). cbn in *. f_equal; [f_equal|]; lia. }
  subst y'. assert (j = j').
  { pose proof (rd_Some_bound _ _ _ Ey). pose proof (rd_Some_bound _ _ _ Ey').
    pose proof L_NoDup as ND. rewrite NoDup_nth_error in ND. specialize (ND (Z.to_nat j) (Z.to_nat j')).
    rewrite <- !rd_nth, !Z2Nat.id in ND by lia. specialize (ND ltac:(change (zlen (concat L)) with (Z.of_nat (length (concat L))) in *; lia) ltac:(congruence)). lia. }
  subst j'. f_equal. destruct (leaf_fw y Hok) as (_ & _ & H3 & H4 & _).
  rewrite El in Hq'. cbn [dst oarc] in Hq, Hq'. apply (IH (y_t y + 1) (dst (larc y)) q') with (z := z) (z' := z'); try assumption. lia.
Qed.
Lemma G_complete p : forall t s p0, 0 <= t -> apath f 0 p0 s -> zlen p0 = t -> apath f s p (ns - 1) -> t + zlen p = T -> 0 <= s < ns ->
  ogt (oadd (dense_score f rows 0 p0) (dense_score f rows t p)) cut = true ->
  keepS t s = true /\ exists q, apath G (pos t s) q (pos T (ns - 1)) /\ map (fun j => apos (lf j)) q = p.
Proof.
  induction p as [|j p IH]; intros t s p0 Ht H0 L0' Hp HT Hs Hc.
  - assert (K : keepS t s = true).
    { unfold keepS. change (zlen (@nil Z)) with 0 in HT. replace (t <=? T) with true by (symmetry; apply Z.leb_le; lia). cbn [andb].
      eapply ogt_ole; [|exact Hc]. apply ole_add.
      - apply (Fw_best (Z.to_nat t) s). split; [exact H0|lia].
      - pose proof (proj1 (Bw_best (Z.to_nat (T - t)) s) []) as X. replace (T - Z.of_nat (Z.to_nat (T - t))) with t in X by lia. apply X. split; [exact Hp|change (zlen (@nil Z)) with 0; lia]. }
    split; [exact K|]. inversion Hp; subst. exists []. split; [|reflexivity]. change (zlen (@nil Z)) with 0 in HT.
    replace (zlen p0) with T by lia. constructor.
  - rewrite zlen_cons in HT. pose proof (zlen_nonneg p). inversion Hp as [|? a ? ? Hj Hq]; subst.
    assert (K : keepS (zlen p0) (src a) = true).
    { unfold keepS. replace (zlen p0 <=? T) with true by (symmetry; apply Z.leb_le; lia). cbn [andb].
      eapply ogt_ole; [|exact Hc]. apply ole_add.
      - apply (Fw_best (Z.to_nat (zlen p0)) (src a)). split; [exact H0|lia].
      - pose proof (proj1 (Bw_best (Z.to_nat (T - zlen p0)) (src a)) (j :: p)) as X. replace (T - Z.of_nat (Z.to_nat (T - zlen p0))) with (zlen p0) in X by lia.
        apply X. split; [exact Hp|]. rewrite zlen_cons. lia. }
    split; [exact K|].
    assert (HA : In a A) by exact (rd_In _ _ _ Hj).
    assert (Hc' : ogt (oadd (dense_score f rows 0 (p0 ++ [j])) (dense_score f rows (zlen p0 + 1) p)) cut = true).
    { rewrite score_app_d. cbn [dense_score] in *. rewrite Hj in *. rewrite oadd_0. rewrite <- !oadd_assoc in *. exact Hc. }
    destruct (IH (zlen p0 + 1) (dst a) (p0 ++ [j])) as (K' & q & Q1 & Q2); try assumption; try lia.
    { apply apath_app. exists (src a). split; [exact H0|]. exact (ap_cons f j a [] _ Hj (ap_nil _ _)). }
    { rewrite zlen_app. reflexivity. }
    assert (KA : keepA (zlen p0) a = true).
    { unfold keepA. rewrite K'. cbn [andb]. eapply ogt_ole; [|exact Hc'].
      rewrite score_app_d. cbn [dense_score]. rewrite Hj, oadd_0. apply ole_add; [apply ole_add|].
      - apply (Fw_best (Z.to_nat (zlen p0)) (src a)). split; [exact H0|lia].
      - apply ole_refl.
      - pose proof (proj1 (Bw_best (Z.to_nat (T - (zlen p0 + 1))) (dst a)) p) as X. replace (T - Z.of_nat (Z.to_nat (T - (zlen p0 + 1)))) with (zlen p0 + 1) in X by lia.
        apply X. split; [exact Hq|lia]. }
    unfold all_arcs in Hj. destruct (rd_concat_inv f j a Hj) as (s & st & i & Hst & Hi & Ej & _).
    assert (Es : src a = s) by exact (Hsrc s st a Hst (rd_In _ _ _ Hi)).
    set (y := (zlen p0, s, i)). assert (El : larc y = a) by (unfold larc, y; cbn; now rewrite Hst, Hi).
    assert (Hok : leaf_ok y). { exists st. rewrite El. unfold y. cbn. rewrite <- Es. repeat split; try assumption; try lia. rewrite Es. exact Hst. }
    apply leaf_in in Hok. apply In_rd in Hok as (j' & _ & Hj'). exists (j' :: q). split.
    + assert (HG : rd (all_arcs G) j' = Some (oarc y)) by (rewrite G_arcs, rd_map, Hj'; reflexivity).
      pose proof (ap_cons G j' (oarc y) q (pos T (ns - 1)) HG) as X. cbn [src dst oarc] in X. rewrite El in X. unfold y in X. cbn in X. rewrite <- Es in X. apply X. exact Q1.
    + cbn [map]. unfold lf at 1. rewrite Hj', Q2. unfold apos, y. cbn. f_equal. lia.
Qed.

(** kept states and arcs lie on paths with a score above the cutoff *)
Lemma keepS_path t s : 0 <= t -> 0 <= s < ns -> keepS t s = true -> t <= T /\ exists p0 p x, apath f 0 p0 s /\ zlen p0 = t /\ apath f s p (ns - 1) /\ t + zlen p = T /\
  dense_score f rows 0 (p0 ++ p) = Some x /\ ogt (Some x) cut = true.
Proof.
  intros Ht Hs K. unfold keepS in K. apply andb_prop in K as (K1 & K2). apply Z.leb_le in K1.
  destruct (Fz t s) as [u|] eqn:Eu; [|discriminate]. destruct (Bz (T - t) s) as [v|] eqn:Ev; [|discriminate].
  destruct (proj2 (Fw_best (Z.to_nat t) s) u Eu) as (p0 & (H1 & H2) & H3).
  destruct (proj2 (Bw_best (Z.to_nat (T - t)) s) v Ev) as (p & (H4 & H5) & H6).
  split; [exact K1|]. exists p0, p, (u + v). repeat split; try assumption; try lia.
  rewrite score_app_d, H3. replace (0 + zlen p0) with (T - Z.of_nat (Z.to_nat (T - t))) by lia. rewrite H6. reflexivity.
Qed.
Lemma leaf_path y : leaf_ok y -> exists p0 p x, apath f 0 p0 (y_s y) /\ zlen p0 = y_t y /\ apath f (dst (larc y)) p (ns - 1) /\ y_t y + 1 + zlen p = T /\
  dense_score f rows 0 (p0 ++ apos y :: p) = Some x /\ ogt (Some x) cut = true.
Proof.
  intros Hok. destruct (leaf_fw y Hok) as (H1 & H2 & H3 & H4 & _). destruct Hok as (st & Ht & Hst & Ha & _ & K2).
  unfold keepA in K2. apply andb_prop in K2 as (_ & K2). rewrite H2 in K2.
  destruct (Fz (y_t y) (y_s y)) as [u|] eqn:Eu; [|discriminate].
  destruct (wt (y_t y) (larc y)) as [w|] eqn:Ew; [|discriminate].
  destruct (Bz (T - (y_t y + 1)) (dst (larc y))) as [v|] eqn:Ev; [|discriminate].
  destruct (proj2 (Fw_best (Z.to_nat (y_t y)) (y_s y)) u Eu) as (p0 & (X1 & X2) & X3).
  destruct (proj2 (Bw_best (Z.to_nat (T - (y_t y + 1))) (dst (larc y))) v Ev) as (p & (X4 & X5) & X6).
  exists p0, p, (u + w + v). repeat split; try assumption; try lia.
  rewrite score_app_d, X3. cbn [dense_score]. rewrite H1. replace (0 + zlen p0) with (y_t y) by lia.
  replace (y_t y + 1) with (T - Z.of_nat (Z.to_nat (T - (y_t y + 1)))) at 1 by lia. rewrite X6. unfold wt in Ew. rewrite Ew. cbn. f_equal. lia.
Qed.
End One.
