From Coq Require Import ZArith List Lia Bool Reals Lra Permutation.
From Coq Require Import ZifyBool.
From Verif Require RnntProofs.
From Verif Require Import Base RaggedModel RaggedSpec RaggedProofs FsaLemmas LogReal ScoreModel MutualInfoProofs PathSums GraphProofs RaggedReduceModel RaggedReduceSpec.
Import ListNotations.
Open Scope Z_scope.

(** ** The loop over the rows *)
Lemma exsum_head acc l : exsum_from acc l = acc :: tl (exsum_from acc l).
Proof. destruct l; reflexivity. Qed.
Lemma row_values {A} (pre r rest : list A) : mapM (fun i => rd (pre ++ r ++ rest) (zlen pre + i)) (zrange (zlen r)) = Some r.
Proof.
  apply mapM_zrange. intros i x Hx. pose proof (rd_Some_bound _ _ _ Hx). rewrite rd_app_r by lia.
  replace (zlen pre + i - zlen pre) with i by lia. rewrite rd_app_l; auto. lia.
Qed.
Lemma reduce_rows_ok {A} op (init : A) (xs : list (list A)) : forall pre,
  reduce_rows op init (pre ++ concat xs) (tl (exsum_from (zlen pre) (map zlen xs))) (zlen pre) =
  Some (map (fun r => fold_left (fun v x => op x v) r init) xs).
Proof.
  induction xs as [|r xs IH]; intros pre; [reflexivity|]. cbn [map exsum_from tl concat].
  rewrite exsum_head. cbn [reduce_rows]. replace (zlen pre + zlen r - zlen pre) with (zlen r) by lia. rewrite row_values.
  pose proof (zlen_nonneg r). rewrite Z.max_r by lia.
  specialize (IH (pre ++ r)). rewrite zlen_app, <- app_assoc in IH. rewrite IH. reflexivity.
Qed.
Lemma segmented_ok {A} op (init : A) (xs : list (list A)) :
  segmented_reduce op init (splits_of xs) (concat xs) = Some (map (fun r => fold_left (fun v x => op x v) r init) xs).
Proof.
  unfold segmented_reduce, splits_of, exsum. rewrite exsum_head. exact (reduce_rows_ok op init xs []).
Qed.
Fixpoint offs {A} (j : Z) (xs : list (list A)) : list Z := match xs with [] => [] | r :: xs' => j :: offs (j + zlen r) xs' end.
Lemma argmax_rows_ok init (xs : list (list (option R))) : forall pre,
  argmax_rows init (pre ++ concat xs) (tl (exsum_from (zlen pre) (map zlen xs))) (zlen pre) =
  Some (map (fun p => argmax_elems (snd p) (fst p) init (-1)) (combine (offs (zlen pre) xs) xs)).
Proof.
  induction xs as [|r xs IH]; intros pre; [reflexivity|]. cbn [map exsum_from tl concat offs combine fst snd].
  rewrite exsum_head. cbn [argmax_rows]. replace (zlen pre + zlen r - zlen pre) with (zlen r) by lia. rewrite row_values.
  pose proof (zlen_nonneg r). rewrite Z.max_r by lia.
  specialize (IH (pre ++ r)). rewrite zlen_app, <- app_assoc in IH. rewrite IH. reflexivity.
Qed.
Lemma rd_offs {A} (xs : list (list A)) : forall j i, 0 <= i < zlen xs -> rd (offs j xs) i = Some (j + off1 xs i).
Proof.
  induction xs as [|r xs IH]; intros j i Hi; [rewrite zlen_nil in Hi; lia|]. cbn [offs]. rewrite zlen_cons in Hi.
  destruct (Z.eq_dec i 0) as [->|].
  - rewrite rd_cons_0. replace (off1 (r :: xs) 0) with 0 by reflexivity. f_equal. lia.
  - rewrite RnntProofs.rd_cons_pos by lia. rewrite IH by lia. f_equal. unfold off1.
    replace (Z.to_nat i) with (S (Z.to_nat (i - 1))) by lia. cbn [firstn concat]. rewrite zlen_app. lia.
Qed.

(** ** Reductions in any order *)
Section Order.
Context {A : Type} (op : A -> A -> A).
Hypothesis op_assoc : forall x y z, op x (op y z) = op (op x y) z.
Hypothesis op_comm : forall x y, op x y = op y x.
Lemma fold_op l : forall a b, fold_left (fun v x => op x v) l (op a b) = op a (fold_left (fun v x => op x v) l b).
Proof. induction l as [|x l IH]; intros a b; cbn [fold_left]; auto. rewrite <- IH. f_equal. rewrite !op_assoc. f_equal. apply op_comm. Qed.
Definition fold1 (l : list A) (d : A) : A := match l with [] => d | x :: l' => fold_left (fun v x => op x v) l' x end.
Lemma fold1_perm l l' d : Permutation l l' -> fold1 l d = fold1 l' d.
Proof.
  induction 1 as [|x l l' H IH|x y l|l l1 l2 H1 IH1 H2 IH2]; auto; [|cbn; f_equal; apply op_comm|congruence].
  cbn [fold1]. destruct l as [|a l], l' as [|b l']; auto.
  - apply Permutation_nil in H. discriminate.
  - apply Permutation_sym, Permutation_nil in H. discriminate.
  - cbn [fold_left fold1] in *. rewrite (op_comm a), (op_comm b), !fold_op. congruence.
Qed.
Lemma fold1_app l l' d : l <> [] -> l' <> [] -> fold1 (l ++ l') d = op (fold1 l d) (fold1 l' d).
Proof.
  destruct l as [|x l]; [congruence|]. destruct l' as [|y l']; [congruence|]. intros _ _. cbn [app fold1]. rewrite fold_left_app. cbn [fold_left].
  rewrite (op_comm y), fold_op. reflexivity.
Qed.
Lemma rleaves_nonempty (t : rtree A) : rleaves t <> [].
Proof. induction t; cbn; [discriminate|]. intros E. apply app_eq_nil in E. tauto. Qed.
Lemma reval_fold t d : reval op t = fold1 (rleaves t) d.
Proof.
  induction t as [a|l IHl r IHr]; [reflexivity|]. cbn [reval rleaves]. rewrite fold1_app by apply rleaves_nonempty. congruence.
Qed.
Lemma cuda_fold init row out : cuda_result op init row out -> out = fold_left (fun v x => op x v) row init.
Proof. intros (t & H & ->). rewrite (reval_fold t init), (fold1_perm _ _ _ H). reflexivity. Qed.
End Order.

Lemma lmax_assoc x y z : lmax x (lmax y z) = lmax (lmax x y) z.
Proof. destruct x, y, z; cbn; auto. f_equal. now rewrite Rmax_assoc. Qed.
Lemma lmax_comm x y : lmax x y = lmax y x.
Proof. destruct x, y; cbn; auto. f_equal. apply Rmax_comm. Qed.
Lemma lmin_assoc x y z : lmin x (lmin y z) = lmin (lmin x y) z.
Proof. destruct x, y, z; cbn; auto. f_equal. now rewrite Rmin_assoc. Qed.
Lemma lmin_comm x y : lmin x y = lmin y x.
Proof. destruct x, y; cbn; auto. f_equal. apply Rmin_comm. Qed.
Lemma lse_comm x y : logadd None x y = logadd None y x.
Proof. apply expo_inj. rewrite !logadd_exact. lra. Qed.
Lemma lse_assoc x y z : logadd None x (logadd None y z) = logadd None (logadd None x y) z.
Proof. apply expo_inj. rewrite !logadd_exact. lra. Qed.

(** ** What the loops compute *)
Lemma fold_sum row : forall i, fold_left (fun v x => ladd x v) (map Some row) (Some i) = Some (i + rsum row)%R.
Proof. induction row as [|x row IH]; intros i; cbn [map fold_left ladd rsum fold_right]; [f_equal; lra|]. rewrite IH. f_equal. unfold rsum. cbn. lra. Qed.
Lemma fold_sum_ninf row : forall i, In None (i :: row) -> fold_left (fun v x => ladd x v) row i = None.
Proof.
  induction row as [|x row IH]; intros i [E|H]; cbn [fold_left]; try (now destruct H); auto.
  - subst i. apply IH. rewrite ladd_None. now left.
  - apply IH. destruct H as [->|H]; [now left|now right].
Qed.
Lemma fold_lse row : forall i, expo (fold_left (fun v x => logadd None x v) row i) = (expo i + sumf expo row)%R.
Proof.
  induction row as [|x row IH]; intros i; cbn [fold_left]; [unfold sumf; cbn; lra|]. rewrite IH, logadd_exact. unfold sumf. cbn. lra.
Qed.
Lemma lle_refl x : lle x x. Proof. destruct x; cbn; auto. lra. Qed.
Lemma lle_trans x y z : lle x y -> lle y z -> lle x z.
Proof. destruct x, y, z; cbn; auto; try tauto. lra. Qed.
Lemma lmax_or x y : (lmax x y = x \/ lmax x y = y) /\ lle x (lmax x y) /\ lle y (lmax x y).
Proof.
  destruct x as [a|], y as [b|]; cbn; auto using Rle_refl. split; [|split; [apply Rmax_l|apply Rmax_r]].
  unfold Rmax. destruct (Rle_dec a b); auto.
Qed.
Lemma lmin_or x y : (lmin x y = x \/ lmin x y = y) /\ lle (lmin x y) x /\ lle (lmin x y) y.
Proof.
  destruct x as [a|], y as [b|]; cbn; auto using Rle_refl. split; [|split; [apply Rmin_l|apply Rmin_r]].
  unfold Rmin. destruct (Rle_dec a b); auto.
Qed.
Lemma fold_max row : forall i, greatest (i :: row) (fold_left (fun v x => lmax x v) row i).
Proof.
  induction row as [|x row IH]; intros i; cbn [fold_left].
  - split; [now left|]. intros x [->|[]]. apply lle_refl.
  - destruct (IH (lmax x i)) as (H1 & H2). destruct (lmax_or x i) as (M1 & M2 & M3). split.
    + destruct H1 as [E|H1]; [|right; now right]. rewrite <- E. destruct M1 as [->| ->]; [right; now left|now left].
    + intros y [->|[->|Hy]]; [| |apply H2; now right]; (eapply lle_trans; [|apply H2; now left]); auto.
Qed.
Lemma fold_min row : forall i, least (i :: row) (fold_left (fun v x => lmin x v) row i).
Proof.
  induction row as [|x row IH]; intros i; cbn [fold_left].
  - split; [now left|]. intros x [->|[]]. apply lle_refl.
  - destruct (IH (lmin x i)) as (H1 & H2). destruct (lmin_or x i) as (M1 & M2 & M3). split.
    + destruct H1 as [E|H1]; [|right; now right]. rewrite <- E. destruct M1 as [->| ->]; [right; now left|now left].
    + intros y [->|[->|Hy]]; [| |apply H2; now right]; (eapply lle_trans; [apply H2; now left|]); auto.
Qed.
Lemma lge_iff x y : lge x y = true <-> lle y x.
Proof. destruct x as [a|], y as [b|]; cbn; try tauto; [|split; [discriminate|tauto]]. destruct (Rle_dec b a); split; auto; try discriminate; tauto. Qed.
Lemma lle_total x y : lle x y \/ lle y x.
Proof. destruct x as [a|], y as [b|]; cbn; auto. destruct (Rle_dec a b); auto. right. lra. Qed.

(** the loop, with a current value and index: it keeps them, or ends at the last greatest element *)
Lemma argmax_elems_ok row : forall j val idx,
  argmax_elems row j val idx = idx /\ (forall x, In x row -> ~ lle val x) \/
  exists k m, argmax_elems row j val idx = j + k /\ rd row k = Some m /\ lle val m /\ (forall x, In x row -> lle x m) /\
    forall k' x, k < k' -> rd row k' = Some x -> ~ lle m x.
Proof.
  induction row as [|e row IH]; intros j val idx; cbn [argmax_elems].
  - left. split; [reflexivity|]. intros x [].
  - destruct (lge e val) eqn:E.
    + apply lge_iff in E. right. destruct (IH (j + 1) e j) as [(H1 & H2)|(k & m & H1 & H2 & H3 & H4 & H5)].
      * exists 0, e. rewrite rd_cons_0. split; [lia|]. split; [auto|]. split; [|split].
        { auto. }
        { intros x [->|Hx]; [apply lle_refl|]. destruct (lle_total x e); auto. now apply H2 in Hx. }
        { intros k' x Hk Hx. rewrite RnntProofs.rd_cons_pos in Hx by lia. apply H2. eapply rd_In; eauto. }
      * pose proof (rd_Some_bound _ _ _ H2). exists (k + 1), m. rewrite RnntProofs.rd_cons_pos by lia. replace (k + 1 - 1) with k by lia.
        split; [lia|]. split; [auto|]. split; [|split].
        { eapply lle_trans; eauto. }
        { intros x [->|Hx]; auto. }
        { intros k' x Hk Hx. rewrite RnntProofs.rd_cons_pos in Hx by lia. apply (H5 (k' - 1)); auto. lia. }
    + assert (Ne : ~ lle val e) by (intros L; apply lge_iff in L; congruence).
      destruct (IH (j + 1) val idx) as [(H1 & H2)|(k & m & H1 & H2 & H3 & H4 & H5)].
      * left. split; auto. intros x [->|Hx]; auto.
      * right. pose proof (rd_Some_bound _ _ _ H2). exists (k + 1), m. rewrite RnntProofs.rd_cons_pos by lia. replace (k + 1 - 1) with k by lia.
        split; [lia|]. split; [auto|]. split; [|split].
        { auto. }
        { intros x [->|Hx]; auto. destruct (lle_total x val); [eapply lle_trans; eauto|tauto]. }
        { intros k' x Hk Hx. rewrite RnntProofs.rd_cons_pos in Hx by lia. apply (H5 (k' - 1)); auto. lia. }
Qed.

(** ** The operator of the argmax on CUDA: the maximum of a total order *)
Lemma lle_antisym x y : lle x y -> lle y x -> x = y.
Proof. destruct x, y; cbn; try tauto. intros. f_equal. lra. Qed.
Definition pgt (a b : option R * Z) : bool :=
  negb (lge (fst b) (fst a)) || (lge (fst b) (fst a) && lge (fst a) (fst b) && (snd b <? snd a)).
Lemma pgt_iff a b : pgt a b = true <-> ~ lle (fst a) (fst b) \/ fst a = fst b /\ snd b < snd a.
Proof.
  unfold pgt. rewrite orb_true_iff, negb_true_iff, !andb_true_iff, !lge_iff, Z.ltb_lt. split.
  - intros [H|((H1 & H2) & H3)]; [left; intros L; apply lge_iff in L; congruence|right; split; auto using lle_antisym].
  - intros [H|(H1 & H2)]; [left; destruct (lge (fst b) (fst a)) eqn:E; auto; apply lge_iff in E; tauto|].
    right. rewrite H1. split; auto. split; apply lle_refl.
Qed.
Lemma pgt_trans a b c : pgt a b = true -> pgt b c = true -> pgt a c = true.
Proof.
  rewrite !pgt_iff. intros [H1|(E1 & H1)] [H2|(E2 & H2)].
  - left. intros L. destruct (lle_total (fst a) (fst b)); [tauto|]. apply H2. eapply lle_trans; eauto.
  - left. rewrite <- E2. auto.
  - left. rewrite E1. auto.
  - right. split; [congruence|lia].
Qed.
Lemma pgt_total a b : pgt a b = false -> pgt b a = false -> a = b.
Proof.
  intros H1 H2. assert (N1 : ~ (pgt a b = true)) by congruence. assert (N2 : ~ (pgt b a = true)) by congruence. rewrite pgt_iff in N1, N2.
  assert (E : fst a = fst b).
  { destruct (lge (fst b) (fst a)) eqn:E1; [|exfalso; apply N1; left; intros L; apply lge_iff in L; congruence].
    destruct (lge (fst a) (fst b)) eqn:E2; [|exfalso; apply N2; left; intros L; apply lge_iff in L; congruence].
    apply lge_iff in E1, E2. now apply lle_antisym. }
  destruct a as (x & i), b as (y & j). cbn [fst snd] in *. subst y. f_equal. destruct (Z.lt_total i j) as [L|[L|L]]; auto; exfalso; tauto.
Qed.
Lemma pgt_asym a b : pgt a b = true -> pgt b a = false.
Proof.
  intros H1. destruct (pgt b a) eqn:H2; auto. exfalso. apply pgt_iff in H1, H2. destruct H1 as [H1|(E1 & H1)], H2 as [H2|(E2 & H2)].
  - destruct (lle_total (fst a) (fst b)); tauto.
  - apply H1. rewrite E2. apply lle_refl.
  - apply H2. rewrite E1. apply lle_refl.
  - lia.
Qed.
Lemma pair_max_comm a b : pair_max a b = pair_max b a.
Proof.
  unfold pair_max. fold (pgt a b). fold (pgt b a). destruct (pgt a b) eqn:E1, (pgt b a) eqn:E2; auto.
  - apply pgt_asym in E1. congruence.
  - symmetry. now apply pgt_total.
Qed.
Lemma pair_max_assoc a b c : pair_max a (pair_max b c) = pair_max (pair_max a b) c.
Proof.
  unfold pair_max. fold (pgt b c). fold (pgt a b). destruct (pgt b c) eqn:E1, (pgt a b) eqn:E2.
  - fold (pgt a b). fold (pgt a c). rewrite E2, (pgt_trans _ _ _ E2 E1). reflexivity.
  - fold (pgt a b). fold (pgt b c). now rewrite E1, E2.
  - reflexivity.
  - fold (pgt a c). fold (pgt b c). rewrite E1. destruct (pgt a c) eqn:E3; auto. exfalso.
    destruct (pgt b a) eqn:E4; [rewrite (pgt_trans _ _ _ E4 E3) in E1; discriminate|]. rewrite (pgt_total _ _ E2 E4) in E3. congruence.
Qed.
Lemma argmax_pairs row : forall j val idx, idx < j ->
  argmax_elems row j val idx = snd (fold_left (fun v x => pair_max x v) (number j row) (val, idx)).
Proof.
  induction row as [|e row IH]; intros j val idx Hj; [reflexivity|]. cbn [argmax_elems number fold_left].
  assert (E : pair_max (e, j) (val, idx) = if lge e val then (e, j) else (val, idx)).
  { unfold pair_max. fold (pgt (e, j) (val, idx)). destruct (lge e val) eqn:L.
    - replace (pgt (e, j) (val, idx)) with true; auto. symmetry. apply pgt_iff. apply lge_iff in L. cbn [fst snd].
      destruct (lge val e) eqn:L2; [|left; intros X; apply lge_iff in X; congruence]. apply lge_iff in L2. right. split; [now apply lle_antisym|lia].
    - destruct (pgt (e, j) (val, idx)) eqn:G; auto. apply pgt_iff in G. cbn [fst snd] in G.
      assert (~ lle val e) by (intros X; apply lge_iff in X; congruence). destruct (lle_total e val); [|tauto].
      destruct G as [G|(G & _)]; [tauto|]. subst. exfalso. apply H. apply lle_refl. }
  rewrite E. destruct (lge e val); apply IH; lia.
Qed.

(** ** Elementwise kernels *)
Lemma shape_facts {A C} (xs : list (list A)) (out : list (list C)) : map zlen out = map zlen xs ->
  splits_of out = splits_of xs /\ zlen (concat out) = zlen (concat xs) /\ ids_of out = ids_of xs /\ zlen out = zlen xs /\
  forall r, 0 <= r <= zlen xs -> off1 out r = off1 xs r.
Proof.
  intros H. assert (E1 : splits_of out = splits_of xs) by (unfold splits_of; now rewrite H).
  assert (E2 : zlen (concat out) = zlen (concat xs)) by (rewrite <- !zsum_zlen_concat; now rewrite H).
  assert (E4 : zlen out = zlen xs) by (rewrite <- (zlen_map zlen out), <- (zlen_map zlen xs); now rewrite H).
  split; auto. split; auto. split; [|split; auto].
  - pose proof (row_ids_of_splits out) as P1. pose proof (row_ids_of_splits xs) as P2. rewrite E1, E2, P2 in P1. congruence.
  - intros r Hr. pose proof (rd_splits_off out r ltac:(lia)) as P1. pose proof (rd_splits_off xs r ltac:(lia)) as P2. rewrite E1, P2 in P1. congruence.
Qed.
Lemma per_elem {A C} (xs : list (list A)) (out : list (list C)) (F : Z -> Z -> option C) : map zlen out = map zlen xs ->
  (forall r k o c, rd out r = Some o -> rd o k = Some c -> F r (off1 xs r + k) = Some c) ->
  mapM (fun i => row <- rd (ids_of xs) i;; F row i) (zrange (zlen (concat xs))) = Some (concat out).
Proof.
  intros H HF. destruct (shape_facts xs out H) as (E1 & E2 & E3 & E4 & E5). rewrite <- E2. apply mapM_zrange. intros i c Hc.
  destruct (rd_concat_inv _ _ _ Hc) as (r & o & k & K1 & K2 & -> & K4). pose proof (rd_Some_bound _ _ _ K1).
  rewrite <- E3, K4. rewrite E5 by lia. eauto.
Qed.

(** ** Changing one element *)
Lemma modify_split {A} (F : A -> A) l1 x l2 :
  map (fun p => if fst p =? zlen l1 then F (snd p) else snd p) (combine (zrange (zlen (l1 ++ x :: l2))) (l1 ++ x :: l2)) = l1 ++ F x :: l2.
Proof.
  assert (G : forall l j c, map (fun p => if fst p =? c then F (snd p) else snd p) (combine (map (fun i => j + i) (zrange (zlen l))) l) =
              (fix go (j : Z) (l : list A) := match l with [] => [] | y :: l' => (if j =? c then F y else y) :: go (j + 1) l' end) j l).
  { induction l as [|y l IH]; intros j c; [reflexivity|]. pose proof (zlen_nonneg l). rewrite zlen_cons, zrange_cons by lia.
    cbn [map combine fst snd]. rewrite Z.add_0_r. f_equal. replace (1 + zlen l - 1) with (zlen l) by lia. rewrite map_map, <- IH.
    f_equal. f_equal. apply map_ext. intros i. lia. }
  specialize (G (l1 ++ x :: l2) 0 (zlen l1)). rewrite (map_ext _ (fun i => i)) in G by (intros; lia). rewrite map_id in G. rewrite G. clear G.
  assert (N : forall l j c, c < j -> (fix go (j : Z) (l : list A) := match l with [] => [] | y :: l' => (if j =? c then F y else y) :: go (j + 1) l' end) j l = l).
  { induction l as [|y l IH]; intros j c Hj; auto. replace (j =? c) with false by lia. f_equal. apply IH. lia. }
  assert (M : forall l1 j, (fix go (j0 : Z) (l : list A) := match l with [] => [] | y :: l' => (if j0 =? j + zlen l1 then F y else y) :: go (j0 + 1) l' end) j (l1 ++ x :: l2)
     = l1 ++ F x :: l2).
  { clear l1. induction l1 as [|y l1 IH]; intros j.
    - cbn [app]. rewrite zlen_nil, Z.add_0_r, Z.eqb_refl. f_equal. apply N. lia.
    - cbn [app]. pose proof (zlen_nonneg l1). rewrite zlen_cons. replace (j =? j + (1 + zlen l1)) with false by lia. f_equal.
      replace (j + (1 + zlen l1)) with (j + 1 + zlen l1) by lia. apply IH. }
  specialize (M l1 0). rewrite Z.add_0_l in M. exact M.
Qed.
Lemma rd_split {A} (l : list A) i x : rd l i = Some x -> exists l1 l2, l = l1 ++ x :: l2 /\ zlen l1 = i.
Proof.
  unfold rd. destruct (i <? 0) eqn:E; [discriminate|]. intros H. apply nth_error_split in H as (l1 & l2 & -> & L). exists l1, l2. split; auto. unfold zlen. lia.
Qed.
Lemma bump1_split l1 x l2 h : bump1 (l1 ++ x :: l2) (zlen l1) h = l1 ++ (x + h)%R :: l2.
Proof. exact (modify_split (fun y => (y + h)%R) l1 x l2). Qed.
Lemma bump_split l1 row l2 k h : bump (l1 ++ row :: l2) (zlen l1) k h = l1 ++ bump1 row k h :: l2.
Proof. exact (modify_split (fun y => bump1 y k h) l1 row l2). Qed.

Lemma rsum_app a b : rsum (a ++ b) = (rsum a + rsum b)%R.
Proof. unfold rsum. induction a as [|x a IH]; cbn; [lra|]. rewrite IH. lra. Qed.
Lemma rsum_cons x l : rsum (x :: l) = (x + rsum l)%R. Proof. reflexivity. Qed.
Lemma dot_app g1 g2 l1 l2 : zlen g1 = zlen l1 -> dot (g1 ++ g2) (l1 ++ l2) = (dot g1 l1 + dot g2 l2)%R.
Proof.
  intros H. unfold dot. revert l1 H. induction g1 as [|a g1 IH]; intros [|b l1] H; rewrite ?zlen_nil, ?zlen_cons in H.
  - cbn [app combine map]. unfold rsum at 2. cbn [fold_right]. lra.
  - pose proof (zlen_nonneg l1). lia.
  - pose proof (zlen_nonneg g1). lia.
  - cbn [app combine map]. rewrite !rsum_cons. rewrite IH by lia. lra.
Qed.
Lemma dot_cons a g b l : dot (a :: g) (b :: l) = (a * b + dot g l)%R. Proof. reflexivity. Qed.
Lemma dot_sub g l c : zlen g = zlen l -> dot g (map (fun x => x - c)%R l) = (dot g l - rsum g * c)%R.
Proof.
  revert l. induction g as [|a g IH]; intros [|b l] H; rewrite ?zlen_nil, ?zlen_cons in H.
  - unfold dot, rsum. cbn. lra.
  - pose proof (zlen_nonneg l). lia.
  - pose proof (zlen_nonneg g). lia.
  - cbn [map]. rewrite !dot_cons, rsum_cons, IH by lia. lra.
Qed.

(** ** Derivatives *)
Lemma d_affine (a b : R) f d : derivable_pt_lim f 0 d -> derivable_pt_lim (fun h => a + b * f h)%R 0 (b * d)%R.
Proof.
  intros H. replace (b * d)%R with (0 + b * d)%R by lra.
  apply (derivable_pt_lim_ext (plus_fct (fct_cte a) (mult_real_fct b f))); [reflexivity|].
  apply derivable_pt_lim_plus; [apply derivable_pt_lim_const|now apply derivable_pt_lim_scal].
Qed.
Lemma d_id : derivable_pt_lim (fun h => h) 0 1%R.
Proof. exact (derivable_pt_lim_id 0). Qed.
Lemma d_lse c x : (0 <= c)%R -> derivable_pt_lim (fun h => ln (c + exp (x + h)))%R 0 (exp x / (c + exp x))%R.
Proof.
  intros Hc. pose proof (exp_pos x).
  assert (D1 : derivable_pt_lim (fun h => x + h)%R 0 1%R).
  { apply (derivable_pt_lim_ext (fun h => x + 1 * h)%R); [intros; lra|]. pose proof (d_affine x 1 _ _ d_id) as D0. rewrite Rmult_1_r in D0. exact D0. }
  assert (D2 : derivable_pt_lim (comp exp (fun h => x + h)%R) 0 (exp x * 1)%R).
  { apply derivable_pt_lim_comp; auto. rewrite Rplus_0_r. apply derivable_pt_lim_exp. }
  assert (D3 : derivable_pt_lim (fun h => c + 1 * comp exp (fun h => x + h)%R h)%R 0 (1 * (exp x * 1))%R) by now apply d_affine.
  apply (derivable_pt_lim_ext (comp ln (fun h => c + 1 * comp exp (fun h => x + h)%R h)%R)).
  { intros h. unfold comp. f_equal. lra. }
  replace (exp x / (c + exp x))%R with (/ (c + exp x) * (1 * (exp x * 1)))%R by (field; lra).
  apply derivable_pt_lim_comp; auto. unfold comp. rewrite Rplus_0_r, Rmult_1_l. apply derivable_pt_lim_ln. lra.
Qed.

Lemma split_same {A B} (l : list A) (g : list B) i x : zlen g = zlen l -> rd l i = Some x ->
  exists l1 l2 g1 y g2, l = l1 ++ x :: l2 /\ g = g1 ++ y :: g2 /\ zlen l1 = i /\ zlen g1 = i /\ rd g i = Some y.
Proof.
  intros H Hi. pose proof (rd_Some_bound _ _ _ Hi). destruct (rd_in_bound g i) as (y & Hy); [lia|].
  destruct (rd_split _ _ _ Hi) as (l1 & l2 & -> & L1). destruct (rd_split _ _ _ Hy) as (g1 & g2 & E & G1). subst g.
  exists l1, l2, g1, y, g2. auto.
Qed.
(** a function of each row *)
Lemma grad_row (phi : list R -> R) gl xs i k row gi d : zlen gl = zlen xs -> rd xs i = Some row -> rd gl i = Some gi ->
  derivable_pt_lim (fun h => phi (bump1 row k h)) 0 d ->
  derivable_pt_lim (fun h => dot gl (map phi (bump xs i k h))) 0 (gi * d)%R.
Proof.
  intros HL Hx Hg D. destruct (split_same xs gl i row HL Hx) as (l1 & l2 & g1 & y & g2 & -> & -> & L1 & G1 & Hy).
  rewrite Hg in Hy. injection Hy as <-. subst i.
  apply (derivable_pt_lim_ext (fun h => (dot g1 (map phi l1) + dot g2 (map phi l2)) + gi * phi (bump1 row k h))%R); [|now apply d_affine].
  intros h. rewrite bump_split, map_app. cbn [map]. rewrite dot_app by (rewrite zlen_map; lia). rewrite dot_cons. lra.
Qed.
Lemma d_sum init row k x : rd row k = Some x -> derivable_pt_lim (fun h => init + rsum (bump1 row k h))%R 0 1%R.
Proof.
  intros H. destruct (rd_split _ _ _ H) as (l1 & l2 & -> & L). subst k.
  apply (derivable_pt_lim_ext (fun h => (init + rsum (l1 ++ x :: l2)) + 1 * h)%R).
  { intros h. rewrite bump1_split, !rsum_app, !rsum_cons. lra. }
  pose proof (d_affine (init + rsum (l1 ++ x :: l2))%R 1 _ _ d_id) as D0. rewrite Rmult_1_r in D0. exact D0.
Qed.
Lemma rsum_exp_nonneg l : (0 <= rsum (map exp l))%R.
Proof. induction l as [|x l IH]; cbn [map]; [unfold rsum; cbn; lra|]. rewrite rsum_cons. pose proof (exp_pos x). lra. Qed.
Lemma d_logsumexp e row k x : (0 <= e)%R -> rd row k = Some x ->
  derivable_pt_lim (fun h => ln (e + rsum (map exp (bump1 row k h))))%R 0 (exp x / (e + rsum (map exp row)))%R.
Proof.
  intros He H. destruct (rd_split _ _ _ H) as (l1 & l2 & -> & L). subst k.
  pose proof (rsum_exp_nonneg l1). pose proof (rsum_exp_nonneg l2).
  apply (derivable_pt_lim_ext (fun h => ln ((e + rsum (map exp l1) + rsum (map exp l2)) + exp (x + h)))%R).
  { intros h. rewrite bump1_split, map_app. cbn [map]. rewrite rsum_app, rsum_cons. f_equal. lra. }
  rewrite map_app. cbn [map]. rewrite rsum_app, rsum_cons.
  replace (e + (rsum (map exp l1) + (exp x + rsum (map exp l2))))%R with ((e + rsum (map exp l1) + rsum (map exp l2)) + exp x)%R by lra.
  apply d_lse. lra.
Qed.
(** normalisation *)
Lemma zlen_bump1 row k h : zlen (bump1 row k h) = zlen row.
Proof. unfold bump1. rewrite zlen_map. unfold zlen, zrange. rewrite combine_length, map_length, seq_length. unfold zlen. lia. Qed.
Lemma d_norm gr row k x d : zlen gr = zlen row -> rd row k = Some x -> rd gr k = Some d ->
  derivable_pt_lim (fun h => dot gr (lnorm (bump1 row k h))) 0 (d - exp (x - ln (rsum (map exp row))) * rsum gr)%R.
Proof.
  intros HL Hx Hd. assert (D := d_logsumexp 0 row k x ltac:(lra) Hx).
  assert (P : (0 < rsum (map exp row))%R).
  { destruct (rd_split _ _ _ Hx) as (l1 & l2 & -> & _). rewrite map_app, rsum_app. cbn [map]. rewrite rsum_cons.
    pose proof (rsum_exp_nonneg l1). pose proof (rsum_exp_nonneg l2). pose proof (exp_pos x). lra. }
  destruct (split_same row gr k x HL Hx) as (l1 & l2 & g1 & y & g2 & E1 & E2 & L1 & G1 & Hy). rewrite Hd in Hy. injection Hy as <-.
  apply (derivable_pt_lim_ext (fun h => (dot gr row + d * h) + (- rsum gr) * ln (0 + rsum (map exp (bump1 row k h))))%R).
  { intros h. unfold lnorm. rewrite dot_sub by (rewrite zlen_bump1; exact HL). rewrite Rplus_0_l.
    replace (dot gr (bump1 row k h)) with (dot gr row + d * h)%R; [lra|]. rewrite E1, E2. rewrite <- L1. rewrite bump1_split, !dot_app, !dot_cons by lia. lra. }
  replace (d - exp (x - ln (rsum (map exp row))) * rsum gr)%R with (d * 1 + (- rsum gr) * (exp x / (0 + rsum (map exp row))))%R.
  2:{ unfold Rminus at 2. rewrite exp_plus, exp_Ropp, exp_ln by exact P. rewrite Rplus_0_l. unfold Rdiv. lra. }
  apply derivable_pt_lim_plus; [apply d_affine, d_id|]. 
  apply (derivable_pt_lim_ext (fun h => 0 + (- rsum gr) * ln (0 + rsum (map exp (bump1 row k h))))%R); [intros; lra|]. now apply d_affine.
Qed.
