(** * C04, C05: index_select, index_add, index_and_sum, compose_arc_maps *)
From Coq Require Import ZArith List Lia Bool Permutation.
From Coq Require Import ZifyBool.
From Verif Require Import Base RaggedModel RaggedSpec RaggedProofs FsaSpec FsaLemmas.
From Verif Require Import RaggedOpsModel RaggedOpsSpec RaggedOpsProofs RaggedCatProofs RaggedListProofs.
From Verif Require Import OpsModel OpsSpec OpsProofs.
Import ListNotations.
Open Scope Z_scope.

(** ** C04 *)
Theorem C04_index_select : forall (A : Type) (d : A) src index,
  idx_ok (zlen src) index -> (src <> [] \/ index = []) ->
  exists out, index_select1 src index d = Some out /\ zlen out = zlen index /\
    forall i j, rd index i = Some j -> rd out i = if j =? -1 then Some d else rd src j.
Proof.
  intros A d src index H Hne. eexists. split; [now apply index_select1_ok|].
  split; [apply zlen_map|]. intros i j Hj. rewrite rd_map, Hj. simpl.
  unfold idx_ok in H. rewrite Forall_forall in H. specialize (H j (rd_In _ _ _ Hj)).
  destruct (j =? -1) eqn:E.
  - replace j with (-1) by lia. reflexivity.
  - symmetry. apply sel_rd. lia.
Qed.
Print Assumptions C04_index_select.

Example C04_index_select_ex :
  idx_ok (zlen [10; 20; 30]) [2; -1; 0; 2] /\ index_select1 [10; 20; 30] [2; -1; 0; 2] 7 = Some [30; 7; 10; 30].
Proof. split; [unfold idx_ok; repeat constructor; cbv; discriminate|reflexivity]. Qed.

(** On an empty source the result is empty whatever the index: an index [-1]
    does not give the default, the documented length is not respected. *)
Theorem C04_index_select_empty_refuted : exists (src index : list Z) d out,
  idx_ok (zlen src) index /\ index_select1 src index d = Some out /\ zlen out <> zlen index.
Proof. exists [], [-1], 5, []. split; [repeat constructor; cbv; discriminate|]. split; [reflexivity|]. discriminate. Qed.
Print Assumptions C04_index_select_empty_refuted.

(** index_add, for any order in which the atomic additions run *)
Theorem C04_index_add : forall sched index value dest,
  is_sched (zlen index) sched -> zlen value = zlen index -> idx_ok (zlen dest) index ->
  exists out, index_add1 sched index value dest = Some out /\ zlen out = zlen dest /\
    forall k v, rd dest k = Some v -> rd out k = Some (v + total_at index value k).
Proof.
  intros sched index value dest Hs Hl Hi. eexists. split; [now apply index_add1_ok|].
  pose proof (zlen_nonneg dest).
  split; [unfold scatter_add; now rewrite zlen_tab|]. intros k v Hk. pose proof (rd_Some_bound _ _ _ Hk).
  unfold scatter_add. rewrite rd_tab by auto. unfold sel. now rewrite Hk.
Qed.
Print Assumptions C04_index_add.

Example C04_index_add_ex : is_sched (zlen [1; -1; 1; 0]) [2; 0; 3; 1] /\
  index_add1 [2; 0; 3; 1] [1; -1; 1; 0] [5; 6; 7; 8] [100; 200; 300] = Some [108; 212; 300].
Proof. split; [solve_sched|reflexivity]. Qed.

(** a length mismatch is rejected *)
Theorem C04_index_add_dims : forall sched index value dest,
  zlen value <> zlen index -> index_add1 sched index value dest = None.
Proof. intros. unfold index_add1. replace (_ =? _) with false by lia. reflexivity. Qed.
Print Assumptions C04_index_add_dims.

Theorem C04_adjoint : forall sched x index g,
  idx_ok (zlen x) index -> (x <> [] \/ index = []) -> zlen g = zlen index -> is_sched (zlen index) sched ->
  exists y gx, index_select1 x index 0 = Some y /\
    index_select1_backward sched (zlen x) index g = Some gx /\ zlen gx = zlen x /\
    dot y g = dot x gx.
Proof.
  intros sched x index g Hi Hne Hg Hs. pose proof (zlen_nonneg x) as X0.
  assert (L : zlen (repeat 0 (Z.to_nat (zlen x))) = zlen x) by (rewrite zlen_repeat; lia).
  do 2 eexists. split; [now apply index_select1_ok|]. unfold index_select1_backward.
  split; [apply index_add1_ok; auto; now rewrite L|].
  split; [unfold scatter_add; rewrite zlen_tab; lia|]. now apply scatter_adjoint.
Qed.
Print Assumptions C04_adjoint.

Example C04_adjoint_ex :
  index_select1 [3; 5; 7] [2; -1; 0; 2] 0 = Some [7; 0; 3; 7] /\
  index_select1_backward [3; 1; 0; 2] 3 [2; -1; 0; 2] [1; 10; 100; 1000] = Some [100; 0; 1001] /\
  dot [7; 0; 3; 7] [1; 10; 100; 1000] = dot [3; 5; 7] [100; 0; 1001].
Proof. repeat split. Qed.

(** After a forward pass on an empty source the backward pass with the
    gradient of the (empty) output is rejected. *)
Theorem C04_empty_backward_refuted : exists (x index y : list Z) sched,
  idx_ok (zlen x) index /\ is_sched (zlen index) sched /\ index_select1 x index 0 = Some y /\
  index_select1_backward sched (zlen x) index (map (fun _ => 1) y) = None.
Proof.
  exists [], [-1], [], [0]. split; [repeat constructor; cbv; discriminate|]. split; [solve_sched|]. split; reflexivity.
Qed.
Print Assumptions C04_empty_backward_refuted.

Theorem C04_adjoint_2d : forall sched cols (x g : list (list Z)) index, 0 < cols ->
  Forall (fun r => zlen r = cols) x -> Forall (fun r => zlen r = cols) g ->
  idx_ok (zlen x) index -> (x <> [] \/ index = []) -> zlen g = zlen index -> is_sched (zlen index * cols) sched ->
  exists y gx, index_select2 cols x index = Some y /\
    (forall i j, rd index i = Some j ->
       rd y i = if j =? -1 then Some (repeat 0 (Z.to_nat cols)) else rd x j) /\
    index_select2_backward sched (zlen x) cols index (concat g) = Some gx /\ zlen gx = zlen x * cols /\
    dot2 y g = dot (concat x) gx.
Proof.
  intros sched cols x g index Hc Hx Hg Hi Hne Hl Hs. pose proof (zlen_nonneg x) as X0.
  set (zr := repeat 0 (Z.to_nat cols)). set (z := repeat zr (Z.to_nat (zlen x))).
  assert (Lz : zlen z = zlen x) by (unfold z; rewrite zlen_repeat; lia).
  assert (Fz : Forall (fun r => zlen r = cols) z).
  { apply Forall_forall. intros r Hr. apply repeat_spec in Hr. subst r. unfold zr. rewrite zlen_repeat. lia. }
  assert (Cz : repeat 0 (Z.to_nat (zlen x * cols)) = concat z).
  { apply list_ext_rd.
    - rewrite (zlen_concat_rows cols) by (auto; lia). rewrite zlen_repeat, Lz. nia.
    - intros i Hi'. rewrite zlen_repeat in Hi'. rewrite rd_repeat by lia.
      assert (E : 0 <= i < zlen (concat z)) by (rewrite (zlen_concat_rows cols) by (auto; lia); nia).
      destruct (rd_in_bound _ _ E) as (v & Hv). rewrite Hv. f_equal. apply rd_In in Hv.
      apply in_concat in Hv as (r & H1 & H2). apply repeat_spec in H1. subst r. apply repeat_spec in H2. auto. }
  destruct (C04_index_select _ zr x index Hi Hne) as (y & Hy & _ & Hy2).
  exists y. eexists. split; [exact Hy|]. split; [exact Hy2|]. unfold index_select2_backward. rewrite Cz.
  split; [apply index_add2_ok; auto; now rewrite Lz|].
  split; [unfold scatter_add2; rewrite zlen_tab, Lz; [reflexivity|nia]|].
  rewrite index_select1_ok in Hy by auto. injection Hy as <-. now apply adjoint2.
Qed.
Print Assumptions C04_adjoint_2d.

Example C04_adjoint_2d_ex :
  index_select2 2 [[3; 5]; [7; 9]] [1; -1; 1] = Some [[7; 9]; [0; 0]; [7; 9]] /\
  index_select2_backward [5; 1; 0; 3; 2; 4] 2 2 [1; -1; 1] (concat [[1; 2]; [3; 4]; [5; 6]]) = Some [0; 0; 6; 8] /\
  dot2 [[7; 9]; [0; 0]; [7; 9]] [[1; 2]; [3; 4]; [5; 6]] = dot (concat [[3; 5]; [7; 9]]) [0; 0; 6; 8].
Proof. repeat split. Qed.

(** index_and_sum (and the phantom version used for scores): output r is the
    sum of the selected source elements, and its backward is the transpose. *)
Theorem C04_index_and_sum_adjoint : forall sched (x : list Z) (y : list (list Z)) g,
  Forall (idx_ok (zlen x)) y -> zlen g = zlen y -> is_sched (zlen (concat y)) sched ->
  exists gx, index_and_sum x (splits_of y) (concat y) = Some (map (fun js => zsum (map (sel 0 x) js)) y) /\
    index_and_sum_backward sched (zlen x) (ids_of y) (concat y) g = Some gx /\ zlen gx = zlen x /\
    dot (map (fun js => zsum (map (sel 0 x) js)) y) g = dot x gx.
Proof.
  intros sched x y g Hi Hg Hs. pose proof (zlen_nonneg x) as X0.
  assert (L : zlen (repeat 0 (Z.to_nat (zlen x))) = zlen x) by (rewrite zlen_repeat; lia).
  pose proof (idx_ok_concat _ _ Hi) as Hc.
  pose proof (ids_expand y g Hg) as E. set (gg := concat _) in E.
  assert (Lg : zlen gg = zlen (concat y)).
  { pose proof (mapM_length _ _ _ E) as M. transitivity (zlen (ids_of y)); [unfold zlen; now rewrite M|].
    apply zlen_ids_from. }
  eexists. split; [now apply index_and_sum_ok|]. unfold index_and_sum_backward. rewrite E.
  split; [apply index_add1_ok; auto; now rewrite L|].
  split; [unfold scatter_add; rewrite zlen_tab; lia|].
  rewrite dot_expand by auto. now apply scatter_adjoint.
Qed.
Print Assumptions C04_index_and_sum_adjoint.

Example C04_index_and_sum_ex : Forall (idx_ok (zlen [3; 5; 7])) [[0; 2]; []; [2; -1; 2]] /\
  index_and_sum [3; 5; 7] [0; 2; 2; 5] [0; 2; 2; -1; 2] = Some [10; 0; 14] /\
  index_and_sum_backward [4; 3; 2; 1; 0] 3 [0; 0; 2; 2; 2] [0; 2; 2; -1; 2] [1; 10; 100] = Some [1; 0; 201].
Proof. split; [unfold idx_ok; repeat constructor; cbv; discriminate|]. split; reflexivity. Qed.

(** ** C05 *)
Lemma compose_ok m1 m2 : idx_ok (zlen m1) m2 -> (m1 <> [] \/ m2 = []) ->
  compose_arc_maps m1 m2 = Some (map (sel (-1) m1) m2).
Proof. apply index_select1_ok. Qed.

Lemma sel_map_sel {A} (d : A) x m j : sel d (map (sel d x) m) j = sel d x (sel (-1) m j).
Proof.
  unfold sel at 1. rewrite rd_map. unfold sel at 3. destruct (rd m j); reflexivity.
Qed.

Theorem C05_compose : forall n m1 m2,
  idx_ok n m1 -> idx_ok (zlen m1) m2 -> (m1 <> [] \/ m2 = []) ->
  exists m, compose_arc_maps m1 m2 = Some m /\ zlen m = zlen m2 /\ idx_ok n m /\
    forall i, as_map m i = comp (as_map m1) (as_map m2) i.
Proof.
  intros n m1 m2 H1 H2 Hne. eexists. split; [now apply compose_ok|]. split; [apply zlen_map|].
  split.
  - apply Forall_forall. intros v Hv. apply in_map_iff in Hv as (j & <- & Hj).
    unfold idx_ok in *. rewrite Forall_forall in H1, H2. specialize (H2 _ Hj). unfold sel.
    destruct (rd m1 j) eqn:E; [apply H1; eapply rd_In; eauto|].
    destruct m1 as [|a m1].
    + destruct Hne as [? | ->]; [congruence|destruct Hj].
    + assert (-1 <= a < n) by (apply H1; now left). lia.
  - intros i. unfold as_map, comp. rewrite rd_map. destruct (rd m2 i) as [j|] eqn:E; simpl; auto.
    unfold idx_ok in H2. rewrite Forall_forall in H2. specialize (H2 _ (rd_In _ _ _ E)). unfold as_map.
    destruct (j =? -1) eqn:E2.
    + replace j with (-1) by lia. reflexivity.
    + unfold sel. destruct (rd m1 j) eqn:E3; auto.
Qed.
Print Assumptions C05_compose.

Example C05_compose_ex : idx_ok 9 [8; -1; 3] /\ idx_ok (zlen [8; -1; 3]) [2; 0; -1; 1; 0] /\
  compose_arc_maps [8; -1; 3] [2; 0; -1; 1; 0] = Some [3; 8; -1; -1; 8].
Proof. split; [|split]; [unfold idx_ok; repeat constructor; cbv; discriminate..|reflexivity]. Qed.

(** length is not respected for an empty first map *)
Theorem C05_empty_refuted : exists m1 m2 m, idx_ok (zlen m1) m2 /\
  compose_arc_maps m1 m2 = Some m /\ zlen m <> zlen m2.
Proof. exists [], [-1], []. split; [repeat constructor; cbv; discriminate|]. split; [reflexivity|discriminate]. Qed.
Print Assumptions C05_empty_refuted.

(** Both ways of composing a chain of three maps succeed and agree. *)
Theorem C05_assoc : forall m1 m2 m3,
  idx_ok (zlen m1) m2 -> idx_ok (zlen m2) m3 -> (m1 <> [] \/ m2 = []) -> (m2 <> [] \/ m3 = []) ->
  exists a b r, compose_arc_maps m1 m2 = Some a /\ compose_arc_maps a m3 = Some r /\
                compose_arc_maps m2 m3 = Some b /\ compose_arc_maps m1 b = Some r.
Proof.
  intros m1 m2 m3 H2 H3 N1 N2.
  exists (map (sel (-1) m1) m2), (map (sel (-1) m2) m3), (map (sel (-1) m1) (map (sel (-1) m2) m3)).
  split; [now apply compose_ok|]. split; [|split; [now apply compose_ok|]].
  - rewrite compose_ok.
    + f_equal. rewrite map_map. apply map_ext_in. intros j Hj.
      apply sel_map_sel.
    + unfold idx_ok. now rewrite zlen_map.
    + destruct N2 as [N2|N2]; auto. left. destruct m2; [congruence|discriminate].
  - apply compose_ok.
    + apply Forall_forall. intros v Hv. apply in_map_iff in Hv as (j & <- & Hj). unfold sel.
      unfold idx_ok in *. rewrite Forall_forall in H2, H3. destruct (rd m2 j) eqn:E; [apply H2; eapply rd_In; eauto|].
      pose proof (zlen_nonneg m1). lia.
    + destruct N1 as [N1|N1]; auto. right. subst m2. destruct N2 as [N2| ->]; [congruence|reflexivity].
Qed.
Print Assumptions C05_assoc.

Example C05_assoc_ex : compose_arc_maps [8; -1; 3] [2; 0; -1] = Some [3; 8; -1] /\
  compose_arc_maps [3; 8; -1] [1; 1; 2; -1] = Some [8; 8; -1; -1] /\
  compose_arc_maps [2; 0; -1] [1; 1; 2; -1] = Some [0; 0; -1; -1] /\
  compose_arc_maps [8; -1; 3] [0; 0; -1; -1] = Some [8; 8; -1; -1].
Proof. repeat split. Qed.

(** arange is a two-sided identity *)
Theorem C05_identity : forall n m, 0 < n -> idx_ok n m ->
  compose_arc_maps (zrange n) m = Some m /\ compose_arc_maps m (zrange (zlen m)) = Some m.
Proof.
  intros n m Hn H. split.
  - rewrite compose_ok.
    + f_equal. rewrite <- (map_id m) at 2. apply map_ext_in. intros j Hj.
      unfold idx_ok in H. rewrite Forall_forall in H. specialize (H _ Hj). destruct (Z.eq_dec j (-1)) as [->|E]; [reflexivity|].
      unfold sel. rewrite rd_zrange by lia. reflexivity.
    + rewrite zlen_zrange by lia. auto.
    + left. intros E. pose proof (zlen_zrange n ltac:(lia)) as L. rewrite E in L. change (zlen (@nil Z)) with 0 in L. lia.
  - rewrite compose_ok.
    + f_equal. symmetry. apply tab_sel.
    + apply Forall_forall. intros j Hj. apply in_zrange in Hj. lia.
    + destruct m; [right; reflexivity|left; discriminate].
Qed.
Print Assumptions C05_identity.

(** selecting attributes through the composed map = selecting twice (the
    default of the attribute is used for undefined arcs in both cases) *)
Theorem C05_select_twice : forall (A : Type) (d : A) attr m1 m2,
  idx_ok (zlen attr) m1 -> idx_ok (zlen m1) m2 -> (attr <> [] \/ m1 = []) -> (m1 <> [] \/ m2 = []) ->
  exists m once r, compose_arc_maps m1 m2 = Some m /\ index_select1 attr m d = Some r /\
    index_select1 attr m1 d = Some once /\ index_select1 once m2 d = Some r.
Proof.
  intros A d attr m1 m2 H1 H2 N1 N2.
  exists (map (sel (-1) m1) m2), (map (sel d attr) m1), (map (sel d attr) (map (sel (-1) m1) m2)).
  split; [now apply compose_ok|]. split; [|split].
  - apply index_select1_ok.
    + apply Forall_forall. intros v Hv. apply in_map_iff in Hv as (j & <- & Hj). unfold sel.
      unfold idx_ok in *. rewrite Forall_forall in H1, H2. destruct (rd m1 j) eqn:E; [apply H1; eapply rd_In; eauto|].
      pose proof (zlen_nonneg attr). lia.
    + destruct N1 as [N1|N1]; auto. right. subst m1. destruct N2 as [N2| ->]; [congruence|reflexivity].
  - now apply index_select1_ok.
  - rewrite index_select1_ok.
    + f_equal. rewrite map_map. apply map_ext_in. intros j Hj. apply sel_map_sel.
    + unfold idx_ok. now rewrite zlen_map.
    + destruct N2 as [N2|N2]; auto. left. destruct m1; [congruence|discriminate].
Qed.
Print Assumptions C05_select_twice.

Example C05_select_twice_ex :
  compose_arc_maps [1; -1; 0] [2; 1; -1; 0] = Some [0; -1; -1; 1] /\
  index_select1 [70; 80] [0; -1; -1; 1] 9 = Some [70; 9; 9; 80] /\
  index_select1 [70; 80] [1; -1; 0] 9 = Some [80; 9; 70] /\
  index_select1 [80; 9; 70] [2; 1; -1; 0] 9 = Some [70; 9; 9; 80].
Proof. repeat split. Qed.

(** ragged arc maps (one output arc <- several input arcs): composition is the
    composition of the relations, sequences concatenated in order *)
Theorem C05_compose_ragged : forall (m1 m2 : list (list Z)),
  Forall (idx_ok (zlen m1)) m2 ->
  exists m, compose_arc_maps_ragged (mk_layer (splits_of m1) (ids_of m1)) (concat m1)
                                    (mk_layer (splits_of m2) (ids_of m2)) (concat m2) =
     Some (mk_layer (splits_of m) (ids_of m), concat m) /\
   zlen m = zlen m2 /\
   forall i js, rd m2 i = Some js -> rd m i = Some (concat (map (sel [] m1) js)).
Proof.
  intros m1 m2 H. exists (map (fun js => concat (map (pick m1) js)) m2).
  assert (H' : Forall (index_ok m1) m2) by exact H.
  pose proof (ragged_index_ragged_ok m1 m2 H') as E.
  change (layers_of (A:=Z) 1 m1) with [mk_layer (splits_of m1) (ids_of m1)] in E.
  change (layers_of (A:=Z) 1 m2) with [mk_layer (splits_of m2) (ids_of m2)] in E.
  unfold compose_arc_maps_ragged. rewrite E. split; [reflexivity|]. split; [apply zlen_map|].
  intros i js Hi. rewrite rd_map, Hi. reflexivity.
Qed.
Print Assumptions C05_compose_ragged.

Example C05_compose_ragged_ex :
  Forall (idx_ok (zlen [[4; 5]; []; [6]])) [[2; 0]; []; [0; -1]] /\
  compose_arc_maps_ragged (mk_layer [0; 2; 2; 3] [0; 0; 2]) [4; 5; 6] (mk_layer [0; 2; 2; 4] [0; 0; 2; 2]) [2; 0; 0; -1] =
  Some (mk_layer [0; 3; 3; 5] [0; 0; 0; 2; 2], [6; 4; 5; 4; 5]).
Proof. split; [unfold idx_ok; repeat constructor; cbv; discriminate|reflexivity]. Qed.
