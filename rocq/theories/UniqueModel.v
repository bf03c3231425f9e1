(** * Model of RaggedTensor.unique: UniqueSequences, k2/csrc/ragged_ops.cu.

    Values are int32; the hashes are int64 with wrap-around arithmetic (the
    CPU branch of ComputeHash).  Tensors with two or three axes are modelled;
    more axes only add layers in front, which the code copies. *)
From Coq Require Import ZArith List Lia Bool.
From Verif Require Import Base RaggedModel RaggedOpsModel.
Import ListNotations.
Open Scope Z_scope.

(** int64_t arithmetic: the representative of z in [-2^63, 2^63) *)
Definition wrap64 (z : Z) : Z := (z + 2 ^ 63) mod 2 ^ 64 - 2 ^ 63.

(** ragged_ops.cu:2581-2590, the body of the loop over rows of ComputeHash:
    the two running hashes and their combination. *)
Definition hash_step (h : Z * Z) (elem : Z) : Z * Z :=
  (wrap64 (31 * fst h + elem), wrap64 (167 * snd h + elem)).
Definition hash_row (row : list Z) : Z :=
  let h := fold_left hash_step row (13, 787) in
  wrap64 (fst h + 104729 * snd h).

(** ragged_ops.cu:2563-2612 ComputeHash, CPU branch; [j] of the code runs
    through the rows in order, so row i is the slice between its splits. *)
Definition compute_hash (rs values : list Z) : option (list Z) :=
  mapM (fun i =>
    b <- rd rs i;; e <- rd rs (i + 1);; check (b <=? e);;
    seg <- slice values b e;;
    Some (hash_row seg)) (zrange (zlen rs - 1)).

(** ragged_ops.cu:2640-2650 lambda_set_keep *)
Definition unique_keep (rs ids sorted : list Z) (i : Z) : option bool :=
  r <- rd ids i;; s <- rd rs r;;
  if i =? s then Some true
  else a <- rd sorted i;; b <- rd sorted (i - 1);; Some (negb (a =? b)).

(** ragged_ops.cu:2658-2668 set_num_repeats *)
Definition unique_repeats (n2o : list Z) (dim : Z) (i : Z) : option Z :=
  if i <? zlen n2o - 1 then
    a <- rd n2o (i + 1);; b <- rd n2o i;; Some (a - b)
  else b <- rd n2o i;; Some (dim - b).

(** ragged_ops.cu:567-605 Index with axis = 1 on a tensor with three axes
    (597-604): the first layer is indexed on its last axis, the second on axis
    0, and the two are composed (ComposeRaggedShapes checks the sizes).  The
    IsMonotonic check of debug builds is left out. *)
Definition index_axis1 {A} (l1 l2 : layer) (values : list A) (idx : list Z)
  : option (layer * layer * list A) :=
  top <- index_last (l_ids l1) (zlen (l_rs l1) - 1) idx;;
  bot <- ragged_index [l2] values idx;;
  match fst (fst bot) with
  | [b] => check (zlen (snd top) =? zlen (l_rs b) - 1);;
           Some (mk_layer (fst top) (snd top), b, snd (fst bot))
  | _ => None
  end.

(** ragged_ops.cu:2614-2674 UniqueSequences, three axes.  Returns the tensor
    (two layers and values), the values of num_repeats (its shape is the first
    layer of the tensor) and new2old_indexes. *)
Definition unique_sequences (sched : Z -> list Z) (l1 l2 : layer) (values : list Z)
  : option (layer * layer * list Z * list Z * list Z) :=
  hashes <- compute_hash (l_rs l2) values;;
  so <- sort_sublists Z.ltb (l_rs l1) hashes;;
  keep <- mapM (unique_keep (l_rs l1) (l_ids l1) (fst so)) (zrange (zlen hashes));;
  n2o <- new2old (sched (zlen keep + 1)) keep;;
  n2u <- mapM (rd (snd so)) n2o;;
  ans <- index_axis1 l1 l2 values n2u;;
  reps <- mapM (unique_repeats n2o (zlen hashes)) (zrange (zlen n2o));;
  Some (ans, reps, n2u).

(** ragged_ops.cu:2619-2623: with two axes, Unsqueeze(src, 0) adds a first
    axis with one row, and RemoveAxis(0) drops it again. *)
Definition unique_sequences2 (sched : Z -> list Z) (l : layer) (values : list Z)
  : option (layer * list Z * list Z * list Z) :=
  let n := zlen (l_rs l) - 1 in
  r <- unique_sequences sched (mk_layer [0; n] (repeat 0 (Z.to_nat n))) l values;;
  match r with (((_, b), vs), reps, n2u) => Some (b, vs, reps, n2u) end.
