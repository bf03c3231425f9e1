(** * Model of the reductions of a ragged tensor over its last axis

    RaggedTensor.sum, max, min, argmax, logsumexp, normalize and add, and the
    gradients of sum, logsumexp and normalize.  Only the row splits of the last axis
    and the values matter.  A value is an exact real or -inf ([None]); NaN is an
    error; +inf, rounding and the cut-off of LogAdd are left out. *)
From Coq Require Import ZArith List Reals Bool.
From Verif Require Import Base RaggedModel LogReal ScoreModel.
Import ListNotations.
Open Scope Z_scope.

(** /repo/k2/csrc/ragged_ops_inl.h:63-73 SegmentedReduce on the CPU: the index j is
    carried over from row to row. *)
Fixpoint reduce_rows {A} (op : A -> A -> A) (init : A) (values : list A) (ends : list Z) (j : Z) : option (list A) :=
  match ends with
  | [] => Some []
  | e :: ends' =>
      vs <- mapM (fun i => rd values (j + i)) (zrange (e - j));;
      rest <- reduce_rows op init values ends' (Z.max j e);;
      Some (fold_left (fun v x => op x v) vs init :: rest)
  end.
Definition segmented_reduce {A} (op : A -> A -> A) (init : A) (row_splits : list Z) (values : list A) : option (list A) :=
  match row_splits with [] => None | r0 :: ends => reduce_rows op init values ends r0 end.

(** ragged_ops_inl.h:74-90 on CUDA: cub::DeviceSegmentedReduce combines the elements
    of a row and the initial value in an unspecified tree. *)
Inductive rtree (A : Type) := RLeaf (a : A) | RNode (l r : rtree A).
Arguments RLeaf {A}. Arguments RNode {A}.
Fixpoint rleaves {A} (t : rtree A) : list A := match t with RLeaf a => [a] | RNode l r => rleaves l ++ rleaves r end.
Fixpoint reval {A} (op : A -> A -> A) (t : rtree A) : A := match t with RLeaf a => a | RNode l r => op (reval op l) (reval op r) end.

(** array_ops.h / utils.h: PlusOp, MaxOp, MinOp, LogAdd *)
Definition lmin (x y : option R) : option R :=
  match x, y with None, _ => None | _, None => None | Some a, Some b => Some (Rmin a b) end.
Definition r_sum := segmented_reduce ladd.
Definition r_max := segmented_reduce lmax.
Definition r_min := segmented_reduce lmin.
Definition r_logsumexp := segmented_reduce (logadd None).

(** ragged_ops_inl.h:643-660 ArgMaxPerSublist on the CPU *)
Fixpoint argmax_elems (vs : list (option R)) (j : Z) (val : option R) (idx : Z) : Z :=
  match vs with
  | [] => idx
  | e :: vs' => if lge e val then argmax_elems vs' (j + 1) e j else argmax_elems vs' (j + 1) val idx
  end.
Fixpoint argmax_rows (init : option R) (values : list (option R)) (ends : list Z) (j : Z) : option (list Z) :=
  match ends with
  | [] => Some []
  | e :: ends' =>
      vs <- mapM (fun i => rd values (j + i)) (zrange (e - j));;
      rest <- argmax_rows init values ends' (Z.max j e);;
      Some (argmax_elems vs j init (-1) :: rest)
  end.
Definition r_argmax (init : option R) (row_splits : list Z) (values : list (option R)) : option (list Z) :=
  match row_splits with [] => None | r0 :: ends => argmax_rows init values ends r0 end.
(** PairMaxOp (591-600), the operator used on CUDA with the initial pair (init, -1) *)
Definition pair_max (a b : option R * Z) : option R * Z :=
  if negb (lge (fst b) (fst a)) || (lge (fst b) (fst a) && lge (fst a) (fst b) && (snd b <? snd a)) then a else b.

(** ragged_ops_inl.h:93-117 AddPerSublist *)
Definition r_add (row_splits : list Z) (values value : list R) (alpha : R) : option (list R) :=
  check (zlen value =? zlen row_splits - 1);;
  ids <- row_splits_to_row_ids row_splits (zlen values);;
  mapM (fun i => row <- rd ids i;; v <- rd value row;; x <- rd values i;; Some (x + v * alpha)%R) (zrange (zlen values)).

(** src - normalizer in floating point: a normalizer of -inf gives +inf or NaN (an
    error here; it is the sum of the row that the element is in, so the element is
    -inf, too, and the result NaN) *)
Definition lsub (x n : option R) : option (option R) :=
  match n with None => None | Some b => Some (match x with None => None | Some a => Some (a - b)%R end) end.
(** ragged_ops_inl.h:119-164 NormalizePerSublist; [eps]: numeric_limits::epsilon() *)
Definition r_normalize_log (row_splits : list Z) (values : list (option R)) : option (list (option R)) :=
  sums <- r_logsumexp None row_splits values;;
  ids <- row_splits_to_row_ids row_splits (zlen values);;
  mapM (fun i => row <- rd ids i;; n <- rd sums row;; x <- rd values i;; lsub x n) (zrange (zlen values)).
Definition r_normalize (eps : R) (row_splits : list Z) (values : list R) : option (list R) :=
  sums <- segmented_reduce Rplus 0%R row_splits values;;
  ids <- row_splits_to_row_ids row_splits (zlen values);;
  mapM (fun i => row <- rd ids i;; n <- rd sums row;; x <- rd values i;; Some (x / (n + eps))%R) (zrange (zlen values)).

(** A 1-D tensor of gradients: memory and stride (0 for an expanded scalar) *)
Record vec1 := mkVec1 { g_mem : list R; g_stride : Z }.

(** /repo/k2/python/csrc/torch/v2/autograd/sum.h:75-113 backward *)
Definition sum_backward (row_splits : list Z) (n : Z) (g : vec1) : option (list R) :=
  ids <- row_splits_to_row_ids row_splits n;;
  mapM (fun i => row <- rd ids i;; rd (g_mem g) (row * g_stride g)) (zrange n).

(** autograd/logsumexp.h:77-125 backward: exp(input - output); NaN when both are -inf *)
Definition lexp_sub (x s : option R) : option R :=
  match x, s with
  | Some a, Some b => Some (exp (a - b))
  | None, Some _ => Some 0%R
  | _, None => None
  end.
Definition logsumexp_backward (row_splits : list Z) (input sums : list (option R)) (g : vec1) : option (list R) :=
  ids <- row_splits_to_row_ids row_splits (zlen input);;
  mapM (fun i => row <- rd ids i;; d <- rd (g_mem g) (row * g_stride g);; x <- rd input i;; s <- rd sums row;;
                 p <- lexp_sub x s;; Some (d * p)%R) (zrange (zlen input)).

(** autograd/normalize.h:72-140 backward.  [out]: what forward returned.  With stride
    0 (113-124) the sum of a row is its length times the single element. *)
Definition normalize_backward (use_log : bool) (row_splits : list Z) (out : list (option R)) (g : vec1) : option (list R) :=
  check use_log;;
  ids <- row_splits_to_row_ids row_splits (zlen out);;
  sums <- (if negb (g_stride g =? 0) then
             logical <- mapM (fun i => rd (g_mem g) (i * g_stride g)) (zrange (zlen out));;
             segmented_reduce Rplus 0%R row_splits logical
           else
             mapM (fun i => b <- rd row_splits i;; e <- rd row_splits (i + 1);; d <- rd (g_mem g) 0;; Some (IZR (e - b) * d)%R)
                  (zrange (zlen row_splits - 1)));;
  mapM (fun i => row <- rd ids i;; scale <- rd sums row;; d <- rd (g_mem g) (i * g_stride g);; o <- rd out i;;
                 Some (d - expo o * scale)%R) (zrange (zlen out)).
