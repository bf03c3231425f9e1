(** * C49: Nbest *)
From Coq Require Import ZArith List Lia Bool Permutation Sorted.
From Coq Require Import ZifyBool ZifyNat.
From Verif Require Import Base RaggedModel RaggedSpec RaggedProofs FsaSpec FsaLemmas SelectProofs
  RaggedOpsModel RaggedOpsSpec RaggedOpsProofs RaggedCatProofs RaggedListProofs RaggedOpsProps PropsProps
  OpsModel FsaOpsModel FsaOpsProofs GraphModel FstSpec LinearModel LinearProofs ComposeProps UniqueModel UniqueProps NbestModel.
Import ListNotations.
Open Scope Z_scope.

(** ** Specification *)

(** the value of attribute [l] at arc [i] *)
Definition attr_at (l : list Z) (i : Z) : Z := match rd l i with Some v => v | None => 0 end.
(** the words along a path: the aux labels without 0 and -1 *)
Definition words (aux : list Z) (p : list Z) : list Z := filter (fun v => 0 <? v) (map (attr_at aux) p).
(** label, aux label and score of every arc of a path *)
Definition items (lat : lattice) (p : list Z) : list (Z * Z * Z) :=
  map (fun i => (attr_at (la_labels lat) i, attr_at (la_aux lat) i, attr_at (la_scores lat) i)) p.
(** a sampled path: arcs of the lattice, the last one and only the last one
    labelled -1 *)
Definition sampled (lat : lattice) (p : list Z) : Prop :=
  Forall (fun i => 0 <= i < zlen (la_labels lat)) p /\
  exists pre, map (attr_at (la_labels lat)) p = pre ++ [-1] /\ ~ In (-1) pre.

(** [K] keeps, for every utterance, some of its paths [x], exactly one for
    every word sequence that occurs. *)
Definition one_per_word_seq (aux : list Z) (x K : list (list (list Z))) : Prop :=
  zlen K = zlen x /\
  forall u row, rd x u = Some row -> exists krow, rd K u = Some krow /\ incl krow row /\
    NoDup (map (words aux) krow) /\
    forall p, In p row -> exists p', In p' krow /\ words aux p' = words aux p.

(** ** Proofs *)
Lemma remove_values_ok sched (keep : Z -> bool) (y : list (list Z)) : (forall n, is_sched n (sched n)) ->
  remove_values sched keep (lay y) (concat y) = Some (lay (map (filter keep) y), concat (map (filter keep) y)).
Proof.
  intros Hs. unfold remove_values, lay. cbn [l_rs l_ids].
  rewrite new2old_kept by (rewrite zlen_map; apply Hs).
  rewrite splits_rows, (index_last_filter keep), (gather_filter keep), filter_concat. reflexivity.
Qed.

Lemma index1_ok (l : list Z) idx : Forall (fun i => 0 <= i < zlen l) idx -> index1 0 l idx = Some (map (attr_at l) idx).
Proof.
  intros H. unfold index1. apply mapM_Some_map. intros i Hi. rewrite Forall_forall in H. specialize (H i Hi).
  replace (i <? 0) with false by lia. unfold attr_at. destruct (rd_in_bound l i H) as (v & ->). reflexivity.
Qed.
Lemma index_select1_ok (l : list Z) idx : Forall (fun i => 0 <= i < zlen l) idx -> index_select1 l idx 0 = Some (map (attr_at l) idx).
Proof.
  intros H. unfold index_select1. destruct idx as [|i idx]; [reflexivity|].
  rewrite (index1_ok l _ H). inversion H; subst. rewrite zlen_cons. pose proof (zlen_nonneg idx).
  replace (1 + zlen idx =? 0) with false by lia. replace (zlen l =? 0) with false by lia. reflexivity.
Qed.

Lemma lay_sizes {A B} (x : list (list A)) (y : list (list B)) : map zlen x = map zlen y -> lay x = lay y.
Proof. intros H. unfold lay. rewrite (ids_of_zlen y x H). unfold splits_of. now rewrite H. Qed.

Lemma forall3 {A} (P : A -> Prop) (x : list (list (list A))) :
  (forall u row p, rd x u = Some row -> In p row -> Forall P p) -> Forall P (concat (concat x)).
Proof.
  intros H. apply Forall_forall. intros i Hi. apply in_concat in Hi as (p & Hp & Hi). apply in_concat in Hp as (row & Hr & Hp).
  apply In_rd in Hr as (u & _ & Hu). specialize (H u row p Hu Hp). rewrite Forall_forall in H. auto.
Qed.

Lemma filter_keep pre : ~ In (-1) pre -> filter (fun v => negb (v =? -1)) (pre ++ [-1]) = pre.
Proof.
  intros H. rewrite filter_app. cbn. rewrite app_nil_r. apply UniqueProps.filter_all. intros a Ha.
  destruct (a =? -1) eqn:E; auto. destruct H. replace (-1) with a by lia. auto.
Qed.

Definition put (p : arc * Z) : arc := mkArc (src (fst p)) (dst (fst p)) (lab (fst p)) (snd p).
Lemma put_linear (lat : lattice) p : forall pre k, map (attr_at (la_labels lat)) p = pre ++ [-1] ->
  map put (combine (linear_arcs k pre) (map (attr_at (la_scores lat)) p)) = map fst (lin_arcs k (items lat p)).
Proof.
  induction p as [|i p IH]; intros pre k H; [destruct pre; discriminate|].
  cbn [map] in H. unfold items. cbn [map lin_arcs fst snd]. fold (items lat p).
  destruct pre as [|a pre]; cbn [app] in H.
  - injection H as H1 H2. destruct p; [|discriminate]. cbn. now rewrite H1.
  - injection H as H1 H2. cbn [linear_arcs combine map]. rewrite (IH pre (k + 1) H2). cbn. now rewrite H1.
Qed.
Lemma len_linear (lat : lattice) p pre : map (attr_at (la_labels lat)) p = pre ++ [-1] -> zlen pre + 1 = zlen p.
Proof. intros H. rewrite <- (zlen_map (attr_at (la_labels lat)) p), H, zlen_app. reflexivity. Qed.
Lemma zlen_lin_arcs its : forall k, zlen (lin_arcs k its) = zlen its.
Proof. induction its; intros; auto. cbn [lin_arcs]. rewrite !zlen_cons, IHits. reflexivity. Qed.
Lemma concat_singles {A} (l : list A) : concat (map (fun b => [b]) l) = l.
Proof. induction l; simpl; congruence. Qed.
Lemma concat_lin its : concat (lin its) = lin_arcs 0 its.
Proof. unfold lin. rewrite concat_app, concat_singles. cbn. apply app_nil_r. Qed.
Lemma combine_app_len {A B} (a a' : list A) : forall (b b' : list B), length a = length b ->
  combine (a ++ a') (b ++ b') = combine a b ++ combine a' b'.
Proof. induction a; intros [|y b] b' H; try discriminate; simpl; auto. f_equal. apply IHa. now injection H. Qed.

(** the linear FSAs with the scores of the kept paths *)
Lemma set_linear (lat : lattice) ps pres :
  Forall2 (fun p pre => map (attr_at (la_labels lat)) p = pre ++ [-1]) ps pres ->
  set_scores (flat_vec (map linear_nested pres)) (map (attr_at (la_scores lat)) (concat ps)) =
  Some (flat_vec (map (fun p => fsa_of (lin (items lat p))) ps)).
Proof.
  intros H. unfold set_scores. fold put.
  assert (ZZ : map (map zlen) (map linear_nested pres) = map (map zlen) (map (fun p => fsa_of (lin (items lat p))) ps)).
  { induction H as [|p pre ps pres H1 H2 IH]; auto. cbn [map]. rewrite IH. f_equal.
    unfold linear_nested, fsa_of, lin. rewrite !map_app, !map_map. cbn [map]. f_equal.
    assert (L : forall X (l : list X), map (fun _ => 1) l = repeat 1 (length l)) by (intros X l; induction l; simpl; congruence).
    change (map (fun x : arc => zlen [x])) with (map (fun _ : arc => 1)).
    change (map (fun x : tarc => zlen (map fst [x]))) with (map (fun _ : tarc => 1)).
    rewrite !L. f_equal. pose proof (len_linear lat p pre H1).
    pose proof (zlen_linear_arcs pre 0) as Q1. pose proof (zlen_lin_arcs (items lat p) 0) as Q2.
    assert (Q3 : zlen (items lat p) = zlen p) by apply zlen_map. unfold zlen in *. lia. }
  assert (L : zlen (map (attr_at (la_scores lat)) (concat ps)) = zlen (concat (concat (map linear_nested pres)))).
  { rewrite zlen_map. clear ZZ. induction H as [|p pre ps pres H1 H2 IH]; auto. cbn [map concat]. rewrite concat_app, !zlen_app, IH.
    rewrite <- (len_linear lat p pre H1). f_equal. unfold linear_nested. rewrite concat_app, concat_singles. cbn.
    rewrite app_nil_r. symmetry. apply zlen_linear_arcs. }
  unfold flat_vec. cbn [v_arcs v_rs1 v_rs2]. rewrite L, Z.eqb_refl. do 2 f_equal.
  - unfold splits_of. f_equal.
    assert (E : forall a : list nfsa, map zlen a = map zlen (map (map zlen) a)) by (intros; rewrite map_map; apply map_ext; intros; symmetry; apply zlen_map).
    rewrite E, ZZ, <- E. reflexivity.
  - unfold splits_of. rewrite !concat_map. now rewrite ZZ.
  - clear ZZ L. induction H as [|p pre ps pres H1 H2 IH]; auto. cbn [map concat]. rewrite !concat_app, map_app.
    rewrite combine_app_len, map_app, IH.
    + f_equal. unfold fsa_of. unfold linear_nested.
      rewrite concat_app, concat_singles. cbn [concat]. rewrite !app_nil_r.
      rewrite (put_linear lat p pre 0 H1). rewrite <- concat_map, concat_lin. reflexivity.
    + pose proof (len_linear lat p pre H1) as E. unfold linear_nested. rewrite concat_app, concat_singles. cbn [concat]. rewrite app_nil_r.
      pose proof (zlen_linear_arcs pre 0). rewrite map_length. unfold zlen in *. lia.
Qed.

Lemma pick_rd {A} (x : list (list A)) i l : rd x i = Some l -> pick x i = l.
Proof. unfold pick. now intros ->. Qed.

(** The tail of from_lattice: whatever paths were sampled. *)
Lemma nbest_of_paths_ok sched lat (x : list (list (list Z))) :
  (forall n, is_sched n (sched n)) ->
  zlen (la_aux lat) = zlen (la_labels lat) -> zlen (la_scores lat) = zlen (la_labels lat) ->
  (forall u row p, rd x u = Some row -> In p row -> sampled lat p) ->
  (forall u row, rd x u = Some row -> no_collision (map (words (la_aux lat)) row)) ->
  exists K, one_per_word_seq (la_aux lat) x K /\
    let T := map (fun p => lin (items lat p)) (concat K) in
    nbest_of_paths sched lat (lay x) (lay (concat x)) (concat (concat x)) =
      Some (mkNbest (flat_vec (map fsa_of T)) (concat (map aux_of T)) (lay K) (lay (concat K), concat (concat K))).
Proof.
  intros HS LA LS HP NC. set (wd := words (la_aux lat)) in *.
  set (WS := map (map wd) x).
  assert (SW : map zlen WS = map zlen x) by (unfold WS; rewrite map_map; apply map_ext; intros; apply zlen_map).
  assert (RW : forall u row, rd WS u = Some row -> exists row0, rd x u = Some row0 /\ row = map wd row0).
  { intros u row H. unfold WS in H. rewrite rd_map in H. destruct (rd x u) as [r|]; [|discriminate]. injection H as <-. eauto. }
  destruct (C56_unique WS sched HS) as (out & reps & idx & E1 & E2 & E3 & E4 & E5).
  { intros u row H. destruct (RW u row H) as (r & Hr & ->). now apply (NC u). }
  assert (LI : zlen idx = zlen x) by (rewrite (sizes_zlen _ _ E4), E2; unfold WS; apply zlen_map).
  assert (HX : forall u ix, rd idx u = Some ix -> exists row o, rd x u = Some row /\
             Forall (fun i => off1 x u <= i < off1 x u + zlen row) ix /\ rd out u = Some o /\
             mapM (rd (concat WS)) ix = Some o /\ NoDup o /\ (forall s, In s o <-> In s (map wd row))).
  { intros u ix Hu. pose proof (rd_Some_bound _ _ _ Hu) as B. rewrite LI in B. destruct (rd_in_bound x u B) as (row & Hr).
    destruct (E5 u (map wd row)) as (o & r & ix' & F1 & F2 & F3 & F4 & F5 & F6 & F7 & _); [unfold WS; now rewrite rd_map, Hr|].
    assert (ix' = ix) by congruence. subst ix'. rewrite zlen_map in F4.
    exists row, o. split; [exact Hr|]. split; [|auto].
    eapply Forall_impl; [|exact F4]. intros i. rewrite (off1_sizes WS x u SW). auto. }
  set (K := map (map (pick (concat x))) idx).
  assert (CW : concat WS = map wd (concat x)) by (unfold WS; symmetry; apply concat_map).
  assert (PK : forall u ix i row, rd idx u = Some ix -> In i ix -> rd x u = Some row ->
             exists p, rd (concat x) i = Some p /\ In p row /\ pick (concat x) i = p).
  { intros u ix i row Hu Hi Hr. destruct (HX u ix Hu) as (row' & o & H1 & H2 & _). assert (row' = row) by congruence. subst row'.
    rewrite Forall_forall in H2. specialize (H2 i Hi). destruct (rd_in_bound row (i - off1 x u) ltac:(lia)) as (p & Hp).
    pose proof (rd_concat_off1 x u row _ p Hr Hp) as C. replace (off1 x u + (i - off1 x u)) with i in C by lia.
    exists p. split; [exact C|]. split; [eapply rd_In; eauto|now apply pick_rd]. }
  assert (OP : one_per_word_seq (la_aux lat) x K).
  { split; [unfold K; rewrite zlen_map; exact LI|]. intros u row Hr.
    destruct (rd_in_bound idx u) as (ix & Hix); [rewrite LI; eapply rd_Some_bound; eauto|].
    destruct (HX u ix Hix) as (row' & o & H1 & H2 & H3 & H4 & H5 & H6). assert (row' = row) by congruence. subst row'.
    exists (map (pick (concat x)) ix). split; [unfold K; now rewrite rd_map, Hix|].
    assert (EO : map wd (map (pick (concat x)) ix) = o).
    { rewrite map_map. assert (M : mapM (rd (concat WS)) ix = Some (map (fun i => wd (pick (concat x) i)) ix)).
      { apply mapM_Some_map. intros i Hi. destruct (PK u ix i row Hix Hi Hr) as (p & P1 & _ & P3).
        rewrite CW, rd_map, P1, P3. reflexivity. }
      rewrite M in H4. now injection H4. }
    split; [|split].
    - intros p Hp. apply in_map_iff in Hp as (i & <- & Hi). destruct (PK u ix i row Hix Hi Hr) as (p & _ & P2 & ->). exact P2.
    - unfold wd in EO. fold wd. unfold wd. rewrite EO. exact H5.
    - intros p Hp. assert (Hw : In (wd p) o) by (apply H6; now apply in_map). rewrite <- EO in Hw.
      apply in_map_iff in Hw as (p' & W1 & W2). exists p'. auto. }
  assert (HK : forall u row p, rd K u = Some row -> In p row -> sampled lat p).
  { intros u row p Hu Hp. unfold K in Hu. rewrite rd_map in Hu. destruct (rd idx u) as [ix|] eqn:Hix; [|discriminate].
    injection Hu as <-. apply in_map_iff in Hp as (i & <- & Hi). destruct (HX u ix Hix) as (row & _ & Hr & _).
    destruct (PK u ix i row Hix Hi Hr) as (p & _ & P2 & ->). eapply HP; eauto. }
  exists K. split; [exact OP|]. cbv zeta. unfold nbest_of_paths.
  rewrite index1_ok by (apply forall3; intros u row p Hu Hp; rewrite LA; apply (HP u row p Hu Hp)).
  replace (map (attr_at (la_aux lat)) (concat (concat x))) with (concat (map (map (attr_at (la_aux lat))) (concat x)))
    by (symmetry; apply concat_map).
  rewrite (lay_sizes (concat x) (map (map (attr_at (la_aux lat))) (concat x)))
    by (rewrite map_map; apply map_ext; intros; symmetry; apply zlen_map).
  rewrite remove_values_ok by exact HS. cbn [fst snd].
  replace (map (filter (fun v => 0 <? v)) (map (map (attr_at (la_aux lat))) (concat x))) with (concat WS)
    by (rewrite map_map; exact CW).
  rewrite (lay_sizes x WS) by now symmetry. rewrite E1. cbn [snd].
  rewrite (lay_sizes (map (map (attr_at (la_aux lat))) (concat x)) (concat x))
    by (rewrite map_map; apply map_ext; intros; apply zlen_map).
  rewrite (lay_sizes WS x) by exact SW.
  rewrite (index_axis1_ok x idx LI).
  2:{ intros u ks Hks. destruct (HX u ks Hks) as (row & _ & Hr & H2 & _). now rewrite (off1_next x u row Hr). }
  fold K. cbv beta iota.
  assert (FK : Forall (fun i => 0 <= i < zlen (la_labels lat)) (concat (concat K)))
    by (apply forall3; intros u row p Hu Hp; apply (HK u row p Hu Hp)).
  rewrite index1_ok by exact FK.
  replace (map (attr_at (la_labels lat)) (concat (concat K))) with (concat (map (map (attr_at (la_labels lat))) (concat K)))
    by (symmetry; apply concat_map).
  replace (remove_values sched (fun v => negb (v =? -1)) (lay (concat K)))
    with (remove_values sched (fun v => negb (v =? -1)) (lay (map (map (attr_at (la_labels lat))) (concat K))))
    by (f_equal; apply lay_sizes; rewrite map_map; apply map_ext; intros; apply zlen_map).
  rewrite remove_values_ok by exact HS. cbn [fst snd].
  set (pres := map (filter (fun v => negb (v =? -1))) (map (map (attr_at (la_labels lat))) (concat K))).
  assert (F2 : Forall2 (fun p pre => map (attr_at (la_labels lat)) p = pre ++ [-1]) (concat K) pres).
  { unfold pres. rewrite map_map. assert (G : forall p, In p (concat K) -> sampled lat p).
    { intros p Hp. apply in_concat in Hp as (row & Hr & Hp). apply In_rd in Hr as (u & _ & Hu). eapply HK; eauto. }
    clear - G. induction (concat K) as [|p ps IH]; constructor.
    - destruct (G p ltac:(now left)) as (_ & pre & P1 & P2). rewrite P1, filter_keep by exact P2. reflexivity.
    - apply IH. intros q Hq. apply G. now right. }
  rewrite index_select1_ok by (rewrite LA; exact FK).
  cbn [lay l_rs]. rewrite splits_rows.
  rewrite linear_fsas_ok by apply HS. cbn [vo_vec].
  rewrite index_select1_ok by (rewrite LS; exact FK).
  pose proof (set_linear lat (concat K) pres F2) as SL.
  assert (EZ : zlen (map (attr_at (la_aux lat)) (concat (concat K))) =? zlen (v_arcs (flat_vec (map linear_nested pres))) = true).
  { unfold set_scores in SL. rewrite zlen_map in SL |- *.
    destruct (zlen (concat (concat K)) =? zlen (v_arcs (flat_vec (map linear_nested pres)))); [reflexivity|discriminate]. }
  rewrite EZ, SL. unfold make_nbest. cbn [flat_vec v_rs1]. rewrite splits_rows, zlen_map.
  cbn [lay l_ids]. unfold ids_of at 1. rewrite zlen_ids_from, Z.eqb_refl. rewrite map_map. do 2 f_equal.
  assert (CA : map (attr_at (la_aux lat)) (concat (concat K)) = concat (map (fun p => map (attr_at (la_aux lat)) p) (concat K))) by apply concat_map.
  rewrite CA. rewrite map_map. f_equal. apply map_ext. intros p. unfold aux_of. rewrite concat_lin.
  unfold items. generalize 0 as k. induction p as [|i p IH]; intros k; auto. cbn [map lin_arcs snd fst]. f_equal. apply IH.
Qed.

(** C49: from_lattice.  If random_paths returns paths [x] of the lattice, the
    lattice has its old scores afterwards, and the Nbest object holds, for each
    utterance, exactly one of its sampled paths per word sequence; FSA k is the
    linear FST with the labels, the aux labels and the (unscaled) scores of
    path k.  As for C56, the word sequences of one utterance must not collide. *)
Theorem C49_from_lattice : forall sched scale random_paths lat (x : list (list (list Z))),
  (forall n, is_sched n (sched n)) ->
  zlen (la_aux lat) = zlen (la_labels lat) -> zlen (la_scores lat) = zlen (la_labels lat) ->
  random_paths (map scale (la_scores lat)) = Some (lay x, lay (concat x), concat (concat x)) ->
  (forall u row p, rd x u = Some row -> In p row -> sampled lat p) ->
  (forall u row, rd x u = Some row -> no_collision (map (words (la_aux lat)) row)) ->
  exists K, one_per_word_seq (la_aux lat) x K /\
    let T := map (fun p => lin (items lat p)) (concat K) in
    from_lattice sched scale random_paths lat =
      (la_scores lat,
       Some (mkNbest (flat_vec (map fsa_of T)) (concat (map aux_of T)) (lay K) (lay (concat K), concat (concat K)))).
Proof.
  intros sched scale rp lat x HS LA LS HR HP NC.
  destruct (nbest_of_paths_ok sched lat x HS LA LS HP NC) as (K & K1 & K2).
  exists K. split; [exact K1|]. cbv zeta in *. unfold from_lattice. rewrite HR.
  replace (mkLat (la_labels lat) (la_aux lat) (la_scores lat)) with lat by now destruct lat.
  now rewrite K2.
Qed.
Print Assumptions C49_from_lattice.

(** C49: whatever happens after the sampling, the lattice's scores are those
    before the call, provided random_paths returns ... *)
Theorem C49_scores_restored : forall sched scale random_paths lat p,
  random_paths (map scale (la_scores lat)) = Some p ->
  fst (from_lattice sched scale random_paths lat) = la_scores lat.
Proof. intros sched scale rp lat ((p1 & p2) & pv) H. unfold from_lattice. now rewrite H. Qed.
Print Assumptions C49_scores_restored.
(** ... but when random_paths raises, the caller's lattice keeps the scaled
    scores. *)
Theorem C49_scores_restored_refuted : exists lat,
  fst (from_lattice (fun n => zrange n) (fun s => s * 2) (fun _ => None) lat) <> la_scores lat.
Proof. exists (mkLat [1; -1] [1; -1] [5; 0]). cbn. discriminate. Qed.
Print Assumptions C49_scores_restored_refuted.

(** ** top_k *)

(** the paths [sel] chosen for an utterance with the paths at positions
    [off, off + n): the first k of all its paths in order of decreasing score,
    earlier paths first among equals, followed by repetitions of the last *)
Definition chosen (tot : list Z) (off n : Z) (k : nat) (sel : list Z) : Prop :=
  exists order, Permutation order (map (fun i => off + i) (zrange n)) /\
    StronglySorted (fun p q => exists a b, rd tot p = Some a /\ rd tot q = Some b /\ b <= a /\ (a = b -> p < q)) order /\
    sel = firstn k (order ++ repeat (last order (-1)) k).

Lemma repeat_app_n {A} (a : A) n m : repeat a (n + m) = repeat a n ++ repeat a m.
Proof. induction n; simpl; congruence. Qed.
Lemma firstn_repeat_ge {A} (l : list A) a n k : (k <= length l + n)%nat ->
  firstn k (l ++ repeat a n) = firstn k (l ++ repeat a k).
Proof.
  intros H. rewrite !firstn_app. f_equal.
  assert (G : forall m j, (j <= m)%nat -> firstn j (repeat a m) = repeat a j).
  { induction m; intros [|j] Hj; simpl; auto; [lia|]. f_equal. apply IHm. lia. }
  rewrite !G by lia. reflexivity.
Qed.

Section TopK.
  Variables (x : list (list nfsa)) (tot : list (list Z)) (k : nat).
  Hypothesis SZ : map zlen tot = map zlen x.

  Lemma top_k_run : exists orders M,
    zlen orders = zlen x /\
    (forall u row, rd x u = Some row -> exists order, rd orders u = Some order /\ zlen order = zlen row /\
       Permutation order (map (fun i => off1 x u + i) (zrange (zlen row))) /\
       StronglySorted (fun p q => exists a b, rd (concat tot) p = Some a /\ rd (concat tot) q = Some b /\ b <= a /\ (a = b -> p < q)) order) /\
    (forall row, In row x -> zlen row <= M) /\ (M = 0 \/ exists row, In row x /\ zlen row = M) /\
    let padded := map (fun o => o ++ repeat (last o (-1)) (Z.to_nat (M - zlen o))) orders in
    let idx := concat (map (firstn k) padded) in
    top_k (splits_of x) (concat tot) (lay (concat x)) (lay (concat (concat x))) (concat (concat (concat x))) k =
      (check (forallb (forallb (fun i => 0 <=? i)) padded);;
       r <- ragged_index [lay (concat x); lay (concat (concat x))] (concat (concat (concat x))) idx;;
       check (zlen idx =? zlen x * Z.of_nat k);; Some r).
  Proof.
    assert (AS : forall a b : Z, (b <? a) = true -> (a <? b) = false) by (intros; lia).
    assert (NT : forall a b c : Z, (c <? a) = true -> (b <? a) = true \/ (c <? b) = true) by (intros; lia).
    destruct (C08_sort_sublists Z (fun a b => b <? a) AS NT tot) as (outs & E1 & E2 & E3).
    set (orders := map snd outs).
    assert (SX : splits_of x = splits_of tot) by (unfold splits_of; now rewrite SZ).
    assert (LX : zlen tot = zlen x) by (now apply sizes_zlen).
    assert (OR : forall u row, rd x u = Some row -> exists order, rd orders u = Some order /\ zlen order = zlen row /\
       Permutation order (map (fun i => off1 x u + i) (zrange (zlen row))) /\
       StronglySorted (fun p q => exists a b, rd (concat tot) p = Some a /\ rd (concat tot) q = Some b /\ b <= a /\ (a = b -> p < q)) order).
    { intros u row Hu. pose proof (rd_Some_bound _ _ _ Hu) as B. rewrite <- LX in B. destruct (rd_in_bound tot u B) as (t & Ht).
      destruct (E3 u t Ht) as (vals & order & F1 & F2 & _ & _ & F5 & _).
      change (zlen (concat (firstn (Z.to_nat u) tot))) with (off1 tot u) in F2. rewrite (off1_sizes tot x u SZ) in F2.
      assert (LT : zlen t = zlen row).
      { assert (Q := f_equal (fun l => rd l u) SZ). cbn beta in Q. rewrite !rd_map, Ht, Hu in Q. now injection Q. }
      rewrite LT in F2. exists order. split; [unfold orders; now rewrite rd_map, F1|]. split.
      { rewrite (perm_zlen _ _ F2), zlen_map, zlen_zrange; [reflexivity|apply zlen_nonneg]. }
      split; [exact F2|].
      clear - F5. induction F5 as [|p l S IH F]; constructor; auto.
      eapply Forall_impl; [|exact F]. intros q (a & b & A1 & A2 & A3 & A4). exists a, b. repeat split; auto; lia. }
    assert (SO : map zlen orders = map zlen x).
    { apply list_ext_rd; [unfold orders; rewrite !zlen_map; lia|]. intros u Hu. rewrite zlen_map in Hu. unfold orders in Hu.
      rewrite zlen_map, E2, LX in Hu. destruct (rd_in_bound x u Hu) as (row & Hr). destruct (OR u row Hr) as (o & O1 & O2 & _).
      rewrite !rd_map, O1, Hr. cbn. now rewrite O2. }
    destruct (C09_pad Z orders false false (-1)) as (M & M1 & M2 & M3).
    exists orders, M. split; [unfold orders; rewrite zlen_map; lia|]. split; [exact OR|].
    split; [|split].
    - intros row Hr. apply In_rd in Hr as (u & _ & Hu). destruct (OR u row Hu) as (o & O1 & O2 & _). rewrite <- O2. apply M1. eapply rd_In; eauto.
    - destruct M2 as [M2|(o & O1 & O2)]; [now left|]. right. apply In_rd in O1 as (u & _ & O1).
      pose proof (rd_Some_bound _ _ _ O1) as B. unfold orders in B. rewrite zlen_map, E2, LX in B.
      destruct (rd_in_bound x u B) as (row & Hr). destruct (OR u row Hr) as (o' & O3 & O4 & _). exists row. split; [eapply rd_In; eauto|congruence].
    - unfold top_k. rewrite splits_rows. rewrite SX, E1. cbn [snd fst]. fold orders.
      replace (splits_of tot) with (splits_of orders) by (unfold splits_of; congruence). rewrite M3. reflexivity.
  Qed.
End TopK.

Lemma forallb_nonneg padded : (forall o i, In o padded -> In i o -> 0 <= i) -> forallb (forallb (fun i => 0 <=? i)) padded = true.
Proof. intros H. apply forallb_forall. intros o Ho. apply forallb_forall. intros i Hi. specialize (H o i Ho Hi). lia. Qed.

(** C49: when every utterance has a path and some utterance has at least k,
    top_k(k) returns exactly k paths for every utterance: its best ones in
    order of decreasing total score, the last one repeated if it has fewer. *)
Theorem C49_top_k : forall (x : list (list nfsa)) (tot : list (list Z)) (k : nat),
  map zlen tot = map zlen x ->
  (forall row, In row x -> row <> []) ->
  (exists row, In row x /\ Z.of_nat k <= zlen row) ->
  exists (sel : list (list Z)) (fsas : list (list nfsa)) amap,
    top_k (splits_of x) (concat tot) (lay (concat x)) (lay (concat (concat x))) (concat (concat (concat x))) k =
      Some ([lay (concat fsas); lay (concat (concat fsas))], concat (concat (concat fsas)), amap) /\
    mapM (rd (concat (concat (concat x)))) amap = Some (concat (concat (concat fsas))) /\
    zlen sel = zlen x /\ zlen fsas = zlen x /\
    forall u row, rd x u = Some row -> exists s fs, rd sel u = Some s /\ rd fsas u = Some fs /\
      zlen fs = Z.of_nat k /\ chosen (concat tot) (off1 x u) (zlen row) k s /\
      mapM (fun i => rd row (i - off1 x u)) s = Some fs.
Proof.
  intros x tot k SZ NE (row0 & R1 & R2).
  destruct (top_k_run x tot k SZ) as (orders & M & O1 & O2 & M1 & M2 & E). cbv zeta in E.
  set (padded := map (fun o => o ++ repeat (last o (-1)) (Z.to_nat (M - zlen o))) orders) in *.
  assert (KM : Z.of_nat k <= M) by (specialize (M1 row0 R1); lia).
  set (sel := map (firstn k) padded) in *.
  assert (LAST : forall o : list Z, o <> [] -> In (last o (-1)) o).
  { intros o Ho. destruct (exists_last Ho) as (l & a & ->). rewrite last_last. apply in_or_app. right. now left. }
  assert (PU : forall u row, rd x u = Some row -> exists order, rd orders u = Some order /\ zlen order = zlen row /\ order <> [] /\
       Permutation order (map (fun i => off1 x u + i) (zrange (zlen row))) /\
       rd padded u = Some (order ++ repeat (last order (-1)) (Z.to_nat (M - zlen order))) /\
       chosen (concat tot) (off1 x u) (zlen row) k (firstn k (order ++ repeat (last order (-1)) (Z.to_nat (M - zlen order)))) /\
       (forall i, In i (order ++ repeat (last order (-1)) (Z.to_nat (M - zlen order))) -> off1 x u <= i < off1 x u + zlen row)).
  { intros u row Hu. destruct (O2 u row Hu) as (order & P1 & P2 & P3 & P4). exists order. split; [exact P1|]. split; [exact P2|].
    assert (NO : order <> []).
    { intros ->. change (zlen (@nil Z)) with 0 in P2. apply (NE row (rd_In _ _ _ Hu)). apply zlen_0_nil. lia. }
    split; [exact NO|]. split; [exact P3|]. split; [unfold padded; now rewrite rd_map, P1|]. split.
    - exists order. split; [exact P3|]. split; [exact P4|]. apply firstn_repeat_ge. unfold zlen in *. lia.
    - assert (I : forall i, In i order -> off1 x u <= i < off1 x u + zlen row).
      { intros i Hi. apply (Permutation_in _ P3) in Hi. apply in_map_iff in Hi as (j & <- & Hj). apply in_zrange in Hj. lia. }
      intros i Hi. apply in_app_or in Hi as [Hi|Hi]; [auto|]. apply repeat_spec in Hi. subst i. apply I. now apply LAST. }
  assert (LP : zlen padded = zlen x) by (unfold padded; now rewrite zlen_map).
  assert (LS : zlen sel = zlen x) by (unfold sel; now rewrite zlen_map).
  assert (SU : forall u s, rd sel u = Some s -> exists row, rd x u = Some row /\ zlen s = Z.of_nat k /\
            chosen (concat tot) (off1 x u) (zlen row) k s /\ forall i, In i s -> off1 x u <= i < off1 x u + zlen row).
  { intros u s Hs. pose proof (rd_Some_bound _ _ _ Hs) as B. rewrite LS in B. destruct (rd_in_bound x u B) as (row & Hr).
    destruct (PU u row Hr) as (order & _ & P2 & _ & _ & P5 & P6 & P7). unfold sel in Hs. rewrite rd_map, P5 in Hs. cbn in Hs. injection Hs as <-.
    exists row. split; [exact Hr|]. split; [|split; [exact P6|]].
    - pose proof (M1 row (rd_In _ _ _ Hr)). unfold zlen in *. rewrite firstn_length, app_length, repeat_length. lia.
    - intros i Hi. apply P7. rewrite <- (firstn_skipn k (order ++ _)). apply in_or_app. left. exact Hi. }
  rewrite forallb_nonneg in E.
  2:{ intros o i Ho Hi. apply In_rd in Ho as (u & _ & Hu). pose proof (rd_Some_bound _ _ _ Hu) as B. rewrite LP in B.
      destruct (rd_in_bound x u B) as (row & Hr). destruct (PU u row Hr) as (order & _ & _ & _ & _ & P5 & _ & P7).
      rewrite Hu in P5. injection P5 as ->. specialize (P7 i Hi). pose proof (off1_nonneg x u). lia. }
  destruct (C07_index_axis0 arc 1 (concat x) (concat sel)) as (el & I1 & I2).
  { unfold index_ok. apply Forall_forall. intros i Hi. apply in_concat in Hi as (s & Hs & Hi). apply In_rd in Hs as (u & _ & Hu).
    destruct (SU u s Hu) as (row & Hr & _ & _ & RG). specialize (RG i Hi). pose proof (off1_nonneg x u).
    pose proof (off1_next x u row Hr). pose proof (off1_bound x (u + 1)). cbn. lia. }
  set (fsas := map (map (pick (concat x))) sel).
  assert (CF : map (pick (concat x)) (concat sel) = concat fsas) by (unfold fsas; apply concat_map).
  change (layers_of (A:=arc) 2 (concat x)) with [lay (concat x); lay (concat (concat x))] in I1.
  change (values_of (A:=arc) 2 (concat x)) with (concat (concat (concat x))) in I1, I2.
  exists sel, fsas, el. split; [|split; [|split; [exact LS|split; [unfold fsas; now rewrite zlen_map|]]]].
  - rewrite E. rewrite I1. cbn [nest] in *. rewrite CF.
    replace (zlen (concat sel) =? zlen x * Z.of_nat k) with true; [reflexivity|].
    symmetry. rewrite <- LS. apply Z.eqb_eq. rewrite zlen_cat.
    assert (G : Forall (fun s => zlen s = Z.of_nat k) sel).
    { apply Forall_forall. intros s Hs. apply In_rd in Hs as (u & _ & Hu). now destruct (SU u s Hu) as (row & _ & L & _). }
    clear - G. induction G as [|s l H1 H2 IH]; auto. cbn [map zsum]. rewrite zlen_cons, H1, IH. lia.
  - rewrite I2. cbn [nest] in *. rewrite CF. reflexivity.
  - intros u row Hr. destruct (rd_in_bound sel u) as (s & Hs); [rewrite LS; eapply rd_Some_bound; eauto|].
    destruct (SU u s Hs) as (row' & Hr' & S1 & S2 & S3). assert (row' = row) by congruence. subst row'.
    exists s, (map (pick (concat x)) s). split; [exact Hs|]. split; [unfold fsas; now rewrite rd_map, Hs|].
    split; [now rewrite zlen_map|]. split; [exact S2|]. apply mapM_Some_map. intros i Hi. specialize (S3 i Hi).
    destruct (rd_in_bound row (i - off1 x u) ltac:(lia)) as (f & Hf). rewrite Hf. symmetry. f_equal. apply pick_rd.
    pose proof (rd_concat_off1 x u row _ f Hr Hf) as C. replace (off1 x u + (i - off1 x u)) with i in C by lia. exact C.
Qed.
Print Assumptions C49_top_k.

(** C49: when no utterance has k paths, top_k(k) raises (the documentation
    promises that the last path is repeated). *)
Theorem C49_top_k_raises : forall (x : list (list nfsa)) (tot : list (list Z)) (k : nat),
  map zlen tot = map zlen x -> x <> [] ->
  (forall row, In row x -> zlen row < Z.of_nat k) ->
  top_k (splits_of x) (concat tot) (lay (concat x)) (lay (concat (concat x))) (concat (concat (concat x))) k = None.
Proof.
  intros x tot k SZ NX HK. destruct (top_k_run x tot k SZ) as (orders & M & O1 & O2 & M1 & M2 & E). cbv zeta in E.
  rewrite E. clear E. destruct (forallb _ _); [|reflexivity].
  destruct (ragged_index _ _ _) as [r|]; [|reflexivity]. cbv beta iota.
  match goal with |- (check ?c;; _) = _ => replace c with false; [reflexivity|] end.
  symmetry. apply Z.eqb_neq.
  assert (MK : M < Z.of_nat k).
  { destruct x as [|r0 x']; [congruence|]. specialize (HK r0 ltac:(now left)) as H0. pose proof (zlen_nonneg r0).
    destruct M2 as [->|(row & R1 & R2)]; [lia|]. specialize (HK row R1). lia. }
  assert (M0 : 0 <= M) by (destruct M2 as [->|(row & _ & <-)]; [lia|apply zlen_nonneg]).
  assert (BO : forall o, In o orders -> zlen o <= M).
  { intros o Ho. apply In_rd in Ho as (u & Bu & Hu). rewrite O1 in Bu. destruct (rd_in_bound x u Bu) as (row & Hr).
    destruct (O2 u row Hr) as (o' & P1 & P2 & _). assert (o' = o) by congruence. subst o'. rewrite P2. apply M1. eapply rd_In; eauto. }
  assert (NO : 0 < zlen orders) by (rewrite O1; destruct x; [congruence|rewrite zlen_cons; pose proof (zlen_nonneg x); lia]).
  rewrite <- O1. rewrite map_map, zlen_cat, map_map.
  assert (G : zsum (map (fun o => zlen (firstn k (o ++ repeat (last o (-1)) (Z.to_nat (M - zlen o))))) orders) = zlen orders * M).
  { clear - BO MK M0. induction orders as [|o l IH]; auto. cbn [map zsum]. rewrite zlen_cons, IH by (intros; apply BO; now right).
    specialize (BO o ltac:(now left)). rewrite firstn_all2; [rewrite zlen_app, zlen_repeat; lia|].
    rewrite app_length, repeat_length. unfold zlen in *. lia. }
  rewrite G. nia.
Qed.
Print Assumptions C49_top_k_raises.

(** ** generate_nbest_list *)

(** C49: the n-best list of sampled paths: one linear FSA per utterance and
    distinct token sequence. *)
Theorem C49_nbest_list : forall sched tokens (x : list (list (list Z))),
  (forall n, is_sched n (sched n)) ->
  Forall (fun i => 0 <= i < zlen tokens) (concat (concat x)) ->
  (forall u row, rd x u = Some row -> no_collision (map (words tokens) row)) ->
  exists Y : list (list (list Z)),
    nbest_list_of_paths sched tokens (lay x) (lay (concat x)) (concat (concat x)) =
      Some (flat_vec (map linear_nested (concat Y)), lay Y) /\
    zlen Y = zlen x /\
    forall u row, rd x u = Some row -> exists y, rd Y u = Some y /\ NoDup y /\
      forall s, In s y <-> exists p, In p row /\ words tokens p = s.
Proof.
  intros sched tokens x HS HI NC. set (WS := map (map (words tokens)) x).
  assert (SW : map zlen WS = map zlen x) by (unfold WS; rewrite map_map; apply map_ext; intros; apply zlen_map).
  destruct (C56_unique WS sched HS) as (out & reps & idx & E1 & E2 & _ & _ & E5).
  { intros u row H. unfold WS in H. rewrite rd_map in H. destruct (rd x u) as [r|] eqn:Hr; [|discriminate]. injection H as <-. now apply (NC u). }
  exists out. split; [|split].
  - unfold nbest_list_of_paths. rewrite index1_ok by exact HI.
    replace (map (attr_at tokens) (concat (concat x))) with (concat (map (map (attr_at tokens)) (concat x))) by (symmetry; apply concat_map).
    rewrite (lay_sizes (concat x) (map (map (attr_at tokens)) (concat x)))
      by (rewrite map_map; apply map_ext; intros; symmetry; apply zlen_map).
    rewrite remove_values_ok by exact HS. cbn [fst snd].
    replace (map (filter (fun v => 0 <? v)) (map (map (attr_at tokens)) (concat x))) with (concat WS)
      by (rewrite map_map; unfold WS; symmetry; apply concat_map).
    rewrite (lay_sizes x WS) by now symmetry. rewrite E1. cbn [lay l_rs l_ids]. rewrite splits_rows.
    rewrite linear_fsas_ok by apply HS. cbn [vo_vec flat_vec v_rs1]. rewrite splits_rows, zlen_map.
    unfold ids_of at 1. rewrite zlen_ids_from, Z.eqb_refl. reflexivity.
  - rewrite E2. unfold WS. apply zlen_map.
  - intros u row Hu. destruct (E5 u (map (words tokens) row)) as (o & r & ix & F1 & _ & _ & _ & _ & F6 & F7 & _); [unfold WS; now rewrite rd_map, Hu|].
    exists o. split; [exact F1|]. split; [exact F6|]. intros s. rewrite F7, in_map_iff. split; intros (p & P1 & P2); exists p; auto.
Qed.
Print Assumptions C49_nbest_list.

(** ** Examples *)
Definition exlat : lattice := mkLat [1; 2; -1; 3; -1] [7; 0; -1; 7; -1] [10; 20; 30; 40; 50].
Definition expaths : list (list (list Z)) := [[[0; 1; 2]; [0; 2]; [1; 2]]; []; [[3; 4]]].
Example C49_ex :
  (forall u row p, rd expaths u = Some row -> In p row -> sampled exlat p) /\
  (forall u row, rd expaths u = Some row -> no_collision (map (words (la_aux exlat)) row)) /\
  exists nb, from_lattice (fun n => zrange n) (fun s => s * 3) (fun _ => Some (lay expaths, lay (concat expaths), concat (concat expaths))) exlat =
    ([10; 20; 30; 40; 50], Some nb) /\ nb_shape nb = mk_layer [0; 2; 2; 3] [0; 0; 2] /\
    map sc (v_arcs (nb_fsa nb)) = [20; 30; 10; 20; 30; 40; 50] /\ nb_aux nb = [0; -1; 7; 0; -1; 7; -1].
Proof.
  split; [|split].
  - intros u row p Hu Hp. assert (Hin : In row expaths) by (eapply rd_In; eauto).
    destruct Hin as [<-|[<-|[<-|[]]]]; simpl in Hp;
      repeat match goal with H : _ \/ _ |- _ => destruct H end; subst; try contradiction;
      (split; [repeat constructor; cbn; try lia; discriminate|]).
    + exists [1; 2]. split; [reflexivity|]. intros [|[|[]]]; discriminate.
    + exists [1]. split; [reflexivity|]. intros [|[]]; discriminate.
    + exists [2]. split; [reflexivity|]. intros [|[]]; discriminate.
    + exists [3]. split; [reflexivity|]. intros [|[]]; discriminate.
  - intros u row Hu. assert (Hin : In row expaths) by (eapply rd_In; eauto).
    destruct Hin as [<-|[<-|[<-|[]]]]; intros s t Hs Ht Heq; cbn in Hs, Ht;
      repeat match goal with H : _ \/ _ |- _ => destruct H end; subst; auto;
      try contradiction; vm_compute in Heq; discriminate.
  - eexists. split; [vm_compute; reflexivity|]. vm_compute. auto.
Qed.
Definition exf (s : Z) : nfsa := [[mkArc 0 1 (-1) s]; []].
Example C49_top_k_ex : exists amap,
  top_k [0; 3; 4] [5; 9; 5; 2] (lay [exf 5; exf 9; exf 5; exf 2]) (lay (concat [exf 5; exf 9; exf 5; exf 2]))
        (concat (concat [exf 5; exf 9; exf 5; exf 2])) 2 =
  Some ([lay [exf 9; exf 5; exf 2; exf 2]; lay (concat [exf 9; exf 5; exf 2; exf 2])],
        concat (concat [exf 9; exf 5; exf 2; exf 2]), amap) /\ amap = [1; 0; 3; 3].
Proof. eexists. split; vm_compute; reflexivity. Qed.
(** two utterances with 1 and 2 paths, k = 3 *)
Example C49_top_k_raises_ex :
  top_k [0; 1; 3] [5; 9; 5] (lay [exf 5; exf 9; exf 5]) (lay (concat [exf 5; exf 9; exf 5])) (concat (concat [exf 5; exf 9; exf 5])) 3 = None.
Proof. vm_compute. reflexivity. Qed.
