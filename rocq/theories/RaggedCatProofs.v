(** * Proofs about Stack/Cat, CreateRagged2, ToVecVec, PadRagged, SortSublists. *)
From Coq Require Import ZArith List Lia Bool Permutation Sorted.
From Coq Require Import ZifyBool.
From Verif Require Import Base RaggedModel RaggedSpec RaggedProofs FsaSpec FsaLemmas
  RaggedOpsModel RaggedOpsSpec RaggedOpsProofs.
Import ListNotations.
Open Scope Z_scope.

(** ** Cat on axis 0 *)
Lemma rd_splits_last {A} (xs : list (list A)) : rd (splits_of xs) (zlen xs) = Some (zlen (concat xs)).
Proof. pose proof (zlen_nonneg xs). rewrite rd_splits_off by lia. now rewrite off1_all. Qed.

Lemma stack_splits_ok {B} (xs : list (list (list B))) :
  stack_splits (zlen xs) (splits_of xs) (splits_of (map (@concat B) xs)) (ids_of xs)
               (map splits_of xs) = Some (splits_of (concat xs)).
Proof.
  unfold stack_splits. rewrite rd_splits_last.
  pose proof (zlen_nonneg xs). pose proof (zlen_nonneg (concat xs)).
  apply mapM_zrange; [lia|rewrite zlen_splits_of; lia|]. intros i Hi.
  rewrite (rd_splits_off (concat xs)) by lia.
  destruct (i =? zlen (concat xs)) eqn:E.
  - rewrite rd_splits_last. replace (zlen xs) with (zlen (map (@concat B) xs)) by apply zlen_map.
    rewrite rd_splits_last. replace (0 <=? _) with true by lia.
    replace (i <? _) with false by lia. f_equal. replace i with (zlen (concat xs)) by lia.
    now rewrite off1_all, concat_map_concat.
  - destruct (rd_in_bound (concat xs) i) as (e & He); [lia|].
    destruct (rd_concat_inv _ _ _ He) as (r & l & j & K1 & K2 & K3 & K4). rewrite K4.
    pose proof (rd_Some_bound _ _ _ K1). pose proof (rd_Some_bound _ _ _ K2).
    rewrite !rd_splits_off by (rewrite ?zlen_map; lia).
    replace (i - off1 xs r) with j by lia. replace (0 <=? j) with true by lia.
    replace (i <? _) with true by lia. rewrite rd_map, K1. simpl option_map. cbv iota beta.
    rewrite rd_splits_off by lia. f_equal. rewrite K3, (off1_concat xs r l j) by (auto; lia).
    now rewrite off1_map_concat.
Qed.

Lemma stack_ids_ok {B} (xs : list (list (list B))) :
  stack_ids (zlen xs) (splits_of xs) (splits_of (map (@concat B) xs)) (ids_of (map (@concat B) xs))
            (map ids_of xs) = Some (ids_of (concat xs)).
Proof.
  unfold stack_ids. replace (zlen xs) with (zlen (map (@concat B) xs)) by apply zlen_map.
  rewrite rd_splits_last. set (s := map (@concat B) xs).
  apply mapM_zrange; [apply zlen_nonneg|unfold ids_of, s; now rewrite zlen_ids_from, concat_map_concat|].
  intros i Hi. destruct (rd_in_bound (concat s) i) as (e & He); [lia|].
  destruct (rd_concat_inv _ _ _ He) as (r & l & j & K1 & K2 & K3 & K4). rewrite K4.
  unfold s in K1. rewrite rd_map in K1. destruct (rd xs r) as [a|] eqn:Ea; [|discriminate].
  simpl in K1. injection K1 as <-. pose proof (rd_Some_bound _ _ _ Ea).
  rewrite !rd_splits_off by (unfold s; rewrite ?zlen_map; lia).
  rewrite rd_map, Ea. simpl option_map. cbv iota beta.
  replace (i - off1 s r) with j by lia.
  pose proof (rd_Some_bound _ _ _ K2).
  destruct (rd_in_bound (ids_of a) j) as (q & Hq); [unfold ids_of; rewrite zlen_ids_from; lia|].
  rewrite Hq. pose proof (rd_ids_concat xs r a j q Ea Hq) as E. fold s in E. rewrite <- K3 in E.
  rewrite E. f_equal. lia.
Qed.

Lemma stack_merge_ok {B} (xs : list (list B)) : 0 < zlen xs ->
  exists mm, stack_merge_map (zlen xs) (splits_of xs) (ids_of xs) = Some mm /\
    merge_with_map mm (zlen xs) xs = Some (concat xs).
Proof.
  intros Hn. unfold stack_merge_map. rewrite rd_splits_last.
  match goal with |- exists el, mapM ?g _ = _ /\ _ => set (f := g) end.
  assert (G : forall i, 0 <= i < zlen (concat xs) -> exists m, f i = Some m /\
     (s <- rd xs (m mod zlen xs);; rd s (m / zlen xs)) = rd (concat xs) i).
  { intros i Hi. destruct (rd_in_bound (concat xs) i) as (e & He); [lia|].
    destruct (rd_concat_inv _ _ _ He) as (r & l & j & K1 & K2 & K3 & K4). unfold f. rewrite K4.
    pose proof (rd_Some_bound _ _ _ K1). rewrite rd_splits_off by lia. eexists; split; [reflexivity|].
    replace (r + zlen xs * (i - off1 xs r)) with (r + j * zlen xs) by lia.
    rewrite Z.mod_add, Z.div_add by lia. rewrite Z.mod_small, Z.div_small by lia.
    rewrite K1. replace (0 + j) with j by lia. congruence. }
  assert (T : exists el, mapM f (zrange (zlen (concat xs))) = Some el).
  { assert (Q : forall l, (forall i, In i l -> exists e, f i = Some e) -> exists el, mapM f l = Some el).
    { induction l as [|a l IH]; intros Hl; simpl; [eauto|].
      destruct (Hl a) as (e & ->); [now left|]. destruct IH as (el & ->); [intros; apply Hl; now right|]. eauto. }
    apply Q. intros i Hi. apply in_zrange in Hi. destruct (G i Hi) as (e & -> & _). eauto. }
  destruct T as (el & T). exists el. split; auto.
  pose proof (zlen_nonneg (concat xs)).
  assert (Le : zlen el = zlen (concat xs)).
  { apply mapM_length in T. rewrite zrange_length in T. unfold zlen in *. lia. }
  unfold merge_with_map. rewrite zsum_zlen_concat, Le, Z.eqb_refl.
  apply mapM_by_rd; [lia|]. intros i e Hi. destruct (mapM_rd _ _ _ _ _ T Hi) as (i' & I1 & I2).
  pose proof (rd_Some_bound _ _ _ Hi). rewrite rd_zrange in I1 by lia. injection I1 as <-.
  destruct (G i) as (e' & E1 & E2); [lia|]. replace e with e' by congruence. exact E2.
Qed.

Lemma heads_map {B} (f : B -> layer) (g : B -> list layer) (xs : list B) :
  heads (map (fun x => f x :: g x) xs) = Some (map f xs).
Proof. unfold heads. induction xs as [|a xs IH]; [reflexivity|]. cbn [map mapM hd_error]. now rewrite IH. Qed.

Lemma splits_rows {B} (x : list (list B)) : zlen (splits_of x) - 1 = zlen x.
Proof. rewrite zlen_splits_of. lia. Qed.

Lemma stack_axes_ok {A} (m : nat) : forall (xs : list (list (nest A m))) off_prev nrs idss nids,
  0 < zlen xs ->
  (match idss with
   | None => Some (ids_of xs)
   | Some ii => stack_ids (zlen xs) off_prev (splits_of xs) (ids_of xs) ii
   end) = Some nids ->
  exists mm,
    stack_axes m (zlen xs) off_prev (splits_of xs) nrs idss (map (layers_of m) xs)
               (map zlen (map (values_of m) xs)) =
      Some (mk_layer nrs nids :: layers_of m (concat xs), mm) /\
    merge_with_map mm (zlen xs) (map (values_of m) xs) = Some (values_of m (concat xs)).
Proof.
  induction m as [|m IH]; intros xs off_prev nrs idss nids Hn Hi.
  - cbn [stack_axes layers_of]. rewrite rd_splits_last, row_ids_of_splits, Hi.
    destruct (stack_merge_ok xs Hn) as (mm & E1 & E2). rewrite E1. exists mm. split; auto.
    change (map (values_of (A:=A) 0) xs) with (map (fun x : list A => x) xs). rewrite map_id. exact E2.
  - change (nest A (S m)) with (list (nest A m)) in xs, Hi.
    set (ys := map (@concat (nest A m)) xs).
    assert (Ly : map (values_of (A:=A) (S m)) xs = map (values_of (A:=A) m) ys)
      by (unfold ys; now rewrite map_map).
    change (exists mm,
      stack_axes (S m) (zlen xs) off_prev (splits_of xs) nrs idss
        (map (fun x => mk_layer (splits_of x) (ids_of x) :: layers_of (A:=A) m (concat x)) xs)
        (map zlen (map (values_of (A:=A) (S m)) xs)) =
      Some (mk_layer nrs nids :: mk_layer (splits_of (concat xs)) (ids_of (concat xs)) ::
            layers_of (A:=A) m (concat (concat xs)), mm) /\
      merge_with_map mm (zlen xs) (map (values_of (A:=A) (S m)) xs) = Some (values_of (A:=A) m (concat (concat xs)))).
    rewrite Ly. cbn [stack_axes]. rewrite rd_splits_last, row_ids_of_splits, Hi.
    rewrite heads_map, !map_map. cbn [tl l_rs l_ids].
    assert (Sz : (match m with
                  | O => Some (map zlen (map (values_of (A:=A) m) ys))
                  | S _ => hs <- heads (map (fun x => layers_of (A:=A) m (concat x)) xs);;
                           Some (map (fun l => zlen (l_rs l) - 1) hs)
                  end) = Some (map zlen ys)).
    { destruct m as [|m']; [unfold ys; now rewrite !map_map|].
      change (map (fun x => layers_of (A:=A) (S m') (concat x)) xs) with
        (map (fun x => mk_layer (splits_of (A:=nest A m') (concat x)) (ids_of (A:=nest A m') (concat x))
                         :: layers_of (A:=A) m' (concat (A:=nest A m') (concat x))) xs).
      rewrite heads_map. f_equal. rewrite map_map. cbn [l_rs]. unfold ys. rewrite map_map.
      apply map_ext. intros a. apply (splits_rows (B:=nest A m')). }
    rewrite map_map in Sz. rewrite Sz.
    change (exsum (map zlen ys)) with (splits_of ys).
    pose proof (stack_splits_ok xs) as E1. fold ys in E1.
    change (map (fun x : list (list (nest A m)) => splits_of x) xs) with (map splits_of xs).
    change (map (fun x : list (list (nest A m)) => ids_of x) xs) with (map ids_of xs).
    rewrite E1.
    pose proof (stack_ids_ok xs) as E2. fold ys in E2.
    assert (Zy : zlen ys = zlen xs) by apply zlen_map. rewrite <- Zy in E2.
    specialize (IH ys (splits_of xs) (splits_of (concat xs)) (Some (map ids_of xs)) (ids_of (concat xs))).
    rewrite Zy in IH, E2. destruct (IH Hn E2) as (mm & I1 & I2).
    assert (My : map (layers_of (A:=A) m) ys = map (fun x => layers_of (A:=A) m (concat x)) xs)
      by (unfold ys; now rewrite map_map).
    rewrite My in I1. rewrite map_map in I1. rewrite I1. exists mm.
    unfold ys in I2 |- *. rewrite concat_map_concat in *. cbn [fst snd]. auto.
Qed.


Lemma mapM_rd_all {B} (l : list B) : mapM (rd l) (zrange (zlen l)) = Some l.
Proof. apply mapM_zrange; auto. apply zlen_nonneg. Qed.

Lemma zlen_1 {B} (l : list B) : zlen l = 1 -> exists a, l = [a].
Proof.
  destruct l as [|a [|b l]]; [discriminate|eauto|]. rewrite !zlen_cons. pose proof (zlen_nonneg l). lia.
Qed.

Lemma merge_one {B} (v : list B) : merge_with_map (zrange (zlen v)) 1 [v] = Some v.
Proof.
  unfold merge_with_map. cbn [map zsum]. pose proof (zlen_nonneg v).
  rewrite zlen_zrange by lia. replace (_ =? _) with true by lia.
  apply mapM_zrange; auto. intros i Hi. rewrite Z.mod_1_r, Z.div_1_r. reflexivity.
Qed.

Theorem ragged_cat0_ok {A} (m : nat) (xs : list (list (nest A (S m)))) : xs <> [] ->
  ragged_cat0 (map (fun x => (layers_of (S m) x, values_of (S m) x)) xs) =
  Some (layers_of (A:=A) (S m) (concat xs), values_of (A:=A) (S m) (concat xs)).
Proof.
  intros Hne. unfold ragged_cat0. rewrite !map_map. cbn [fst snd].
  destruct xs as [|x0 [|x1 xs]]; [congruence| |].
  - cbn [map stack_axis0]. change (zlen [_]) with 1.
    change (layers_of (A:=A) (S m) x0) with
      (mk_layer (splits_of (A:=nest A m) x0) (ids_of (A:=nest A m) x0) :: layers_of (A:=A) m (concat x0)).
    cbn [hd_error l_rs fst snd tl]. rewrite merge_one. cbn [concat]. now rewrite app_nil_r.
  - set (ys := x0 :: x1 :: xs) in *. change (nest A (S m)) with (list (nest A m)) in *.
    assert (Hn : 0 < zlen ys) by (unfold ys; rewrite !zlen_cons; pose proof (zlen_nonneg xs); lia).
    assert (E : stack_axis0 (map (fun x => (layers_of (A:=A) (S m) x, zlen (values_of (A:=A) (S m) x))) ys) =
      stack_axes (S m) (zlen ys) (zrange (zlen ys + 1)) (splits_of ys) (splits_of ys) None
        (map (layers_of (A:=A) (S m)) ys) (map zlen (map (values_of (A:=A) (S m)) ys))).
    { unfold stack_axis0. cbn [map]. unfold ys at 1. cbn [map].
      change ((layers_of (A:=A) (S m) x0, zlen (values_of (A:=A) (S m) x0)) ::
              (layers_of (A:=A) (S m) x1, zlen (values_of (A:=A) (S m) x1)) ::
              map (fun x => (layers_of (A:=A) (S m) x, zlen (values_of (A:=A) (S m) x))) xs) with
        (map (fun x => (layers_of (A:=A) (S m) x, zlen (values_of (A:=A) (S m) x))) ys).
      rewrite (proj2 (forallb_forall _ _)).
      2:{ intros s Hs. apply in_map_iff in Hs as (x & <- & _). cbn [fst]. apply Z.eqb_eq.
          change (list (nest A m)) with (nest A (S m)) in *. now rewrite !zlen_layers. }
      rewrite !map_map. cbn [fst snd].
      change (map (fun x => layers_of (A:=A) (S m) x) ys) with
        (map (fun x => mk_layer (splits_of x) (ids_of x) :: layers_of (A:=A) m (concat x)) ys).
      rewrite heads_map, map_map. cbn [l_rs]. rewrite zlen_map.
      replace (length (layers_of (A:=A) (S m) x0)) with (S m).
      2:{ pose proof (zlen_layers (A:=A) (S m) x0) as Z0. unfold zlen in Z0.
          change (nest A (S m)) with (list (nest A m)) in Z0. lia. }
      replace (map (fun x : list (list (nest A m)) => zlen (splits_of x) - 1) ys) with (map zlen ys);
        [reflexivity|]. apply map_ext. intros a. symmetry. apply splits_rows. }
    change (list (nest A m)) with (nest A (S m)) in *.
    cbv beta in E. rewrite E.
    destruct (stack_axes_ok (A:=A) (S m) ys (zrange (zlen ys + 1)) (splits_of ys) None (ids_of ys) Hn eq_refl)
      as (mm & E1 & E2).
    rewrite E1. cbn [fst snd]. rewrite zlen_map.
    exact (f_equal (fun o => v <- o ;; Some (layers_of (A:=A) (S m) (concat ys), v)) E2).
Qed.

(** ** Cat on axis 1 of two-axis tensors *)
Lemma rd_pick {B} (x : list (list B)) i : 0 <= i < zlen x -> rd x i = Some (pick x i).
Proof. intros H. unfold pick. destruct (rd_in_bound x i H) as (l & ->). reflexivity. Qed.

Lemma row_len_ok {B} (x : list (list B)) i : 0 <= i < zlen x ->
  row_len (splits_of x) i = Some (zlen (pick x i)).
Proof.
  intros H. unfold row_len. rewrite !rd_splits_off by lia.
  rewrite (off1_next x i (pick x i)) by now apply rd_pick. f_equal. lia.
Qed.

Lemma concat_map_uniform {B} (w : list (list B)) n : (forall l, In l w -> zlen l = n) -> 0 <= n ->
  forall k, 0 <= k <= zlen w -> off1 w k = k * n.
Proof.
  intros H Hn k Hk. unfold off1.
  assert (G : forall q, (q <= length w)%nat -> zlen (concat (firstn q w)) = Z.of_nat q * n).
  { clear Hk. induction w as [|l w IH]; intros [|q] Hq; simpl in *; try lia; try reflexivity.
    rewrite zlen_app, IH by (auto; lia). rewrite (H l) by now left. lia. }
  rewrite G by (unfold zlen in *; lia). lia.
Qed.

Lemma zsum_map_add {B} (f g : B -> Z) l : zsum (map (fun x => f x + g x) l) = zsum (map f l) + zsum (map g l).
Proof. induction l; simpl; lia. Qed.

Lemma zsum_swap {B C} (f : B -> C -> Z) l l' :
  zsum (map (fun x => zsum (map (f x) l')) l) = zsum (map (fun y => zsum (map (fun x => f x y) l)) l').
Proof.
  induction l as [|a l IH]; simpl.
  - induction l'; simpl; auto.
  - rewrite IH. now rewrite zsum_map_add.
Qed.

Lemma zsum_rows {B} (x : list (list B)) : zsum (map (fun i => zlen (pick x i)) (zrange (zlen x))) = zlen (concat x).
Proof.
  rewrite <- zsum_zlen_concat. f_equal. apply list_ext_rd.
  - rewrite !zlen_map, zlen_zrange; auto. apply zlen_nonneg.
  - intros i Hi. rewrite zlen_map, zlen_zrange in Hi by apply zlen_nonneg. rewrite !rd_map, rd_zrange by auto. simpl.
    unfold pick. destruct (rd_in_bound x i Hi) as (l & ->). reflexivity.
Qed.

Theorem ragged_cat1_ok {A} (xs : list (list (list A))) rows : xs <> [] ->
  Forall (fun x => zlen x = rows) xs ->
  ragged_cat1 (map (fun x => (mk_layer (splits_of x) (ids_of x), concat x)) xs) =
  let y := cat_rows xs rows in Some (mk_layer (splits_of y) (ids_of y), concat y).
Proof.
  intros Hne Hr. unfold ragged_cat1.
  set (srcs := map _ xs).
  assert (H0 : exists s0, hd_error srcs = Some s0 /\ zlen (l_rs (fst s0)) - 1 = rows).
  { destruct xs as [|x0 xs]; [congruence|]. eexists; split; [reflexivity|]. cbn [fst l_rs].
    rewrite splits_rows. now inversion Hr. }
  destruct H0 as (s0 & -> & ->).
  assert (Hrows : 0 <= rows).
  { destruct xs as [|x0 xs]; [congruence|]. inversion Hr; subst. apply zlen_nonneg. }
  assert (Hn : 0 < zlen xs).
  { destruct xs; [congruence|]. rewrite zlen_cons. pose proof (zlen_nonneg xs). lia. }
  assert (Hls : zlen srcs = zlen xs) by apply zlen_map. rewrite Hls.
  assert (Hmr : map (fun s : layer * list A => l_rs (fst s)) srcs = map splits_of xs)
    by (unfold srcs; now rewrite map_map).
  assert (Hmv : map snd srcs = map (@concat A) xs) by (unfold srcs; now rewrite map_map).
  rewrite Hmr, Hmv.
  set (w := map (fun i => map (fun x => pick x i) xs) (zrange rows)).
  assert (Hy : cat_rows xs rows = map (@concat A) w) by (unfold cat_rows, w; now rewrite map_map).
  rewrite Hy.
  assert (Lw : zlen w = rows) by (unfold w; rewrite zlen_map, zlen_zrange; auto).
  assert (Ew : forall l, In l w -> zlen l = zlen xs).
  { intros l Hl. apply in_map_iff in Hl as (i & <- & _). apply zlen_map. }
  assert (Ow : forall k, 0 <= k <= rows -> off1 w k = k * zlen xs)
    by (intros; apply concat_map_uniform; auto; lia).
  assert (Lz : zlen (concat w) = rows * zlen xs) by (rewrite <- off1_all, Lw; apply Ow; lia).
  unfold intersperse. rewrite zlen_map. replace (0 <? zlen xs) with true by lia.
  rewrite (proj2 (forallb_forall _ _)).
  2:{ intros rs Hrs. apply in_map_iff in Hrs as (x & <- & Hx). rewrite zlen_splits_of.
      rewrite Forall_forall in Hr. rewrite (Hr x Hx). lia. }
  destruct (zlen xs =? 1) eqn:E1.
  - destruct (zlen_1 xs) as (x & ->); [lia|]. cbn [map hd_error].
    pose proof (Forall_inv Hr) as Hx. cbv beta in Hx.
    rewrite <- Hx at 1. rewrite rd_splits_last, row_ids_of_splits. change (zlen [x]) with 1. cbn [fst snd].
    rewrite merge_one.
    assert (Wx : map (@concat A) w = x).
    { unfold w. rewrite map_map. cbn [map concat].
      apply list_ext_rd; [rewrite zlen_map, zlen_zrange; auto|].
      intros i Hi. rewrite zlen_map, zlen_zrange in Hi by auto.
      rewrite rd_map, rd_zrange by auto. simpl. rewrite app_nil_r. symmetry. apply rd_pick; lia. }
    rewrite Wx. unfold subsample. rewrite splits_rows, Z.mod_1_r, Z.div_1_r. cbv zeta.
    change (0 =? 0) with true. cbv iota.
    rewrite (mapM_zrange _ _ (splits_of x)).
    + do 3 f_equal. rewrite <- (map_id (ids_of x)) at 2. apply map_ext. intros; apply Z.div_1_r.
    + lia.
    + rewrite zlen_splits_of. lia.
    + intros i Hi. f_equal. lia.
  - assert (M : mapM (fun i => mapM (fun rs => row_len rs i) (map splits_of xs)) (zrange rows) =
       Some (map (map zlen) w)).
    { apply mapM_zrange; auto; [rewrite zlen_map; auto|]. intros i Hi.
      unfold w. rewrite !rd_map, rd_zrange by auto. simpl. rewrite map_map.
      clear - Hr Hi. induction Hr as [|x xs Hx Hr IH]; simpl; auto.
      rewrite row_len_ok by (subst; auto). now rewrite IH. }
    rewrite M. cbn [fst snd].
    assert (Sp : exsum (concat (map (map zlen) w)) = splits_of (concat w)).
    { unfold splits_of. f_equal. rewrite concat_map. reflexivity. }
    rewrite Sp. rewrite <- Lz, rd_splits_last, row_ids_of_splits.
    match goal with |- context [mapM ?g (zrange (zlen (concat (concat w))))] => set (f := g) end.
    assert (G : forall i, 0 <= i < zlen (concat (concat w)) -> exists m, f i = Some m /\
       (s <- rd (map (@concat A) xs) (m mod zlen xs);; rd s (m / zlen xs)) = rd (concat (concat w)) i).
    { intros i Hi. destruct (rd_in_bound _ i Hi) as (e & He).
      destruct (rd_concat_inv _ _ _ He) as (q & row & j & K1 & K2 & K3 & K4). unfold f. rewrite K4.
      pose proof (rd_Some_bound _ _ _ K1). rewrite rd_splits_off by lia.
      destruct (rd_concat_inv _ _ _ K1) as (k & l & r & J1 & J2 & J3 & _).
      pose proof (rd_Some_bound _ _ _ J1) as Bk. pose proof (rd_Some_bound _ _ _ J2) as Br.
      assert (Ll : zlen l = zlen xs) by (apply Ew; eapply rd_In; eauto).
      rewrite Ow in J3 by lia.
      assert (Q1 : q mod zlen xs = r).
      { rewrite J3. rewrite Z.add_comm, Z.mod_add by lia. apply Z.mod_small. lia. }
      assert (Q2 : q / zlen xs = k).
      { rewrite J3. rewrite Z.add_comm, Z.div_add by lia. rewrite Z.div_small by lia. lia. }
      rewrite Q1, Q2. unfold w in J1. rewrite rd_map, rd_zrange in J1 by lia. simpl in J1. injection J1 as <-.
      rewrite rd_map in J2. destruct (rd xs r) as [x|] eqn:Ex; [|discriminate]. simpl in J2. injection J2 as <-.
      assert (Hx : zlen x = rows) by (rewrite Forall_forall in Hr; apply Hr; eapply rd_In; eauto).
      rewrite rd_map, Ex. simpl option_map. cbv iota beta. rewrite rd_splits_off by lia.
      eexists; split; [reflexivity|]. replace (i - off1 (concat w) q) with j by lia.
      replace (r + zlen xs * (off1 x k + j)) with (r + (off1 x k + j) * zlen xs) by lia.
      rewrite Z.mod_add, Z.div_add by lia. rewrite Z.mod_small, Z.div_small by lia.
      rewrite rd_map, Ex. simpl option_map. cbv iota beta. replace (0 + (off1 x k + j)) with (off1 x k + j) by lia.
      rewrite He. eapply rd_concat_off; [apply rd_pick; lia|exact K2]. }
    assert (T : exists el, mapM f (zrange (zlen (concat (concat w)))) = Some el).
    { assert (Q : forall l, (forall i, In i l -> exists e, f i = Some e) -> exists el, mapM f l = Some el).
      { induction l as [|a l IH]; intros Hl; simpl; [eauto|].
        destruct (Hl a) as (e & ->); [now left|]. destruct IH as (el & ->); [intros; apply Hl; now right|]. eauto. }
      apply Q. intros i Hi. apply in_zrange in Hi. destruct (G i Hi) as (e & -> & _). eauto. }
    destruct T as (el & T). rewrite T. cbn [fst snd].
    pose proof (zlen_nonneg (concat (concat w))).
    assert (Le : zlen el = zlen (concat (concat w))).
    { apply mapM_length in T. rewrite zrange_length in T. unfold zlen in *. lia. }
    assert (Mg : merge_with_map el (zlen xs) (map (@concat A) xs) = Some (concat (concat w))).
    { unfold merge_with_map.
      assert (Hs : zsum (map zlen (map (@concat A) xs)) = zlen el).
      { rewrite Le. rewrite <- zsum_zlen_concat. rewrite <- concat_map_concat in Le.
        rewrite map_map. transitivity (zsum (map (fun x => zsum (map (fun i => zlen (pick x i)) (zrange rows))) xs)).
        - f_equal. apply map_ext_in. intros x Hx. rewrite Forall_forall in Hr. rewrite <- (Hr x Hx).
          symmetry. apply zsum_rows.
        - rewrite zsum_swap. unfold w. rewrite concat_map. rewrite map_map.
          clear. induction (zrange rows); simpl; auto. rewrite zsum_app, IHl. f_equal. now rewrite map_map. }
      rewrite Hs, Z.eqb_refl. apply mapM_by_rd; [lia|]. intros i e Hi.
      destruct (mapM_rd _ _ _ _ _ T Hi) as (i' & I1 & I2).
      pose proof (rd_Some_bound _ _ _ Hi). rewrite rd_zrange in I1 by lia. injection I1 as <-.
      destruct (G i) as (e' & F1 & F2); [lia|]. replace e with e' by congruence. exact F2. }
    rewrite Mg. cbv zeta. rewrite concat_map_concat.
    unfold subsample. rewrite splits_rows, Lz. rewrite Z.mod_mul, Z.div_mul by lia.
    change (0 =? 0) with true. cbv iota zeta.
    pose proof (compose_layers_ok w) as CL. unfold compose_layers in CL. cbn [l_ids l_rs] in CL.
    rewrite (mapM_zrange _ _ (splits_of (map (@concat A) w))).
    + replace (map (fun r => r / zlen xs) (ids_of (concat w))) with (ids_of (map (@concat A) w)); [reflexivity|].
      apply list_ext_rd; [rewrite zlen_map; unfold ids_of; now rewrite !zlen_ids_from, concat_map_concat|].
      intros i Hi. unfold ids_of in Hi. rewrite zlen_ids_from, concat_map_concat in Hi.
      destruct (rd_in_bound _ i Hi) as (e & He).
      destruct (rd_concat3 _ _ _ He) as (k & g & r & st & j & K1 & K2 & K3 & K4 & K5 & K6).
      rewrite rd_map, K4. simpl.
      assert (E : rd (map (@concat A) w) k = Some (concat g)) by now rewrite rd_map, K1.
      destruct (rd_concat_off _ _ _ _ _ K2 K3) as (E2 & _).
      destruct (rd_concat_off _ _ _ _ _ E E2) as (_ & E3).
      replace i with (off1 (map (@concat A) w) k + (off1 g r + j)) by lia. rewrite E3. f_equal.
      pose proof (rd_Some_bound _ _ _ K1). pose proof (rd_Some_bound _ _ _ K2) as B2.
      rewrite (Ew g) in B2 by (eapply rd_In; eauto). rewrite Ow by lia.
      rewrite Z.add_comm, Z.div_add by lia. rewrite Z.div_small by lia. lia.
    + lia.
    + rewrite zlen_splits_of, zlen_map. lia.
    + intros i Hi. rewrite <- Ow by lia.
      pose proof (off1_nonneg w i). pose proof (off1_bound w i).
      rewrite !rd_splits_off by (rewrite ?zlen_map; lia). f_equal.
      rewrite off1_map_concat. unfold off1 at 1.
      replace (firstn (Z.to_nat (off1 w i)) (concat w)) with (concat (firstn (Z.to_nat i) w)); auto.
      unfold off1, zlen. rewrite Nat2Z.id.
      rewrite <- (firstn_skipn (Z.to_nat i) w) at 3. rewrite concat_app. now rewrite firstn_app_exact.
Qed.
