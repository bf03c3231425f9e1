(** * Model of index_select, index_add, index_and_sum and compose_arc_maps.
    Tensor elements are exact integers (no rounding); [A] where only copies
    are made. *)
From Coq Require Import ZArith List Lia Bool.
From Verif Require Import Base RaggedModel RaggedOpsModel.
Import ListNotations.
Open Scope Z_scope.

Fixpoint foldM {S B} (f : S -> B -> option S) (l : list B) (s : S) : option S :=
  match l with
  | [] => Some s
  | x :: t => s' <- f s x;; foldM f t s'
  end.

(** k2/csrc/array_ops_inl.h:824-860 Index(Array1, Array1<int32>,
    allow_minus_one = true, default_value): every negative index gives the
    default. *)
Definition index1 {A} (default : A) (src : list A) (index : list Z) : option (list A) :=
  mapM (fun j => if j <? 0 then Some default else rd src j) index.

(** k2/python/csrc/torch/index_select.cu:57-92 IndexSelect1D (lines 77-83: an
    empty source or an empty index gives a tensor of shape {0}). *)
Definition index_select1 {A} (src : list A) (index : list Z) (default : A) : option (list A) :=
  if (zlen index =? 0) || (zlen src =? 0) then Some []
  else index1 default src index.

(** index_select.cu:113-138 IndexSelect2D; a -1 row is a row of zeros
    (array_ops_inl.h IndexRows).  [cols] = src.sizes()[1]. *)
Definition index_select2 (cols : Z) (src : list (list Z)) (index : list Z) : option (list (list Z)) :=
  if (zlen index =? 0) || (zlen src =? 0) then Some []
  else index1 (repeat 0 (Z.to_nat cols)) src index.

(** AtomicAdd(dest + j, v). *)
Definition add_at (dest : list Z) (j v : Z) : option (list Z) :=
  old <- rd dest j;; wr dest j (old + v).

(** k2/csrc/tensor_ops.cu:305-333 IndexAdd1DImpl (allow_minus_one = true, the
    only way python calls it) and IndexAdd1D 366-394 (dim check): the loop
    bodies run in the order [sched]. *)
Definition index_add1 (sched : list Z) (index value dest : list Z) : option (list Z) :=
  check (zlen value =? zlen index);;
  foldM (fun d i =>
    j <- rd index i;;
    if j =? -1 then Some d else v <- rd value i;; add_at d j v) sched dest.

(** tensor_ops.cu:335-365 IndexAdd2DImpl: one body per (i,j), here
    k = i * cols + j; [dest] and [value] are matrices given by their rows,
    stored flat (row-major). *)
Definition index_add2 (sched : list Z) (cols : Z) (index value dest : list Z) : option (list Z) :=
  check (zlen value =? zlen index * cols);;
  foldM (fun d k =>
    let i := k / cols in let j := k mod cols in
    r <- rd index i;;
    if r =? -1 then Some d else v <- rd value (i * cols + j);; add_at d (r * cols + j) v) sched dest.

(** k2/python/k2/ops.py:65-80 _IndexSelectFunction.backward and
    autograd_utils.py:62-77 _PhantomIndexSelectScoresFunction.backward:
    index_add of the output gradient into zeros of the source's shape. *)
Definition index_select1_backward (sched : list Z) (src_len : Z) (index out_grad : list Z) : option (list Z) :=
  index_add1 sched index out_grad (repeat 0 (Z.to_nat src_len)).
Definition index_select2_backward (sched : list Z) (src_rows cols : Z) (index out_grad : list Z) : option (list Z) :=
  index_add2 sched cols index out_grad (repeat 0 (Z.to_nat (src_rows * cols))).

(** k2/csrc/ragged_ops_inl.h SumPerSublist for two axes. *)
Definition sum_per_sublist (rs values : list Z) : option (list Z) :=
  rows <- to_vec_vec rs values;; Some (map zsum rows).

(** k2/python/csrc/torch/v2/autograd/index_and_sum.h:51-77 forward. *)
Definition index_and_sum (src : list Z) (rs indexes : list Z) : option (list Z) :=
  vs <- index1 0 src indexes;; sum_per_sublist rs vs.
(** index_and_sum.h:79-106 backward, autograd_utils.py:100-117
    _PhantomIndexAndSumScoresFunction.backward: index_select of the gradient by
    row_ids, then index_add. *)
Definition index_and_sum_backward (sched : list Z) (src_len : Z) (row_ids indexes out_grad : list Z)
  : option (list Z) :=
  expanded <- index1 0 out_grad row_ids;;
  index_add1 sched indexes expanded (repeat 0 (Z.to_nat src_len)).

(** k2/python/k2/ops.py:248-276 compose_arc_maps. *)
Definition compose_arc_maps (step1 step2 : list Z) : option (list Z) :=
  index_select1 step1 step2 (-1).
