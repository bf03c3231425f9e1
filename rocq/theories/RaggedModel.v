(** * Model of k2's ragged-array primitives on flat arrays. *)
From Coq Require Import ZArith List Lia Bool.
From Verif Require Import Base.
Import ListNotations.
Open Scope Z_scope.

(** k2/csrc/utils.cu:75-91 RowSplitsToRowIds, CPU branch.  The inner
    [for (; cur_row_start < next_row_start; ++cur_row_start)] writes the cells
    cur, cur+1, ... consecutively, so the output array is built by appending.
    [row] is the loop variable, [nexts] the remaining row_splits[row+1..]. *)
Fixpoint rs2ri_loop (cur row : Z) (nexts : list Z) : list Z :=
  match nexts with
  | [] => []
  | nx :: t => repeat row (Z.to_nat (nx - cur)) ++ rs2ri_loop (Z.max cur nx) (row + 1) t
  end.

(** utils.cu:78 early return, :81-83 checks, :84-88 loop.  [num_elems] is the
    dimension of the output array; if the early return is taken the (empty)
    output is returned unchanged. *)
Definition row_splits_to_row_ids (row_splits : list Z) (num_elems : Z) : option (list Z) :=
  let num_rows := zlen row_splits - 1 in
  if (num_rows <=? 0) || (num_elems <=? 0) then
    (if num_elems <=? 0 then Some [] else None (* output left uninitialised *))
  else
    r0 <- rd row_splits 0;;
    rn <- rd row_splits num_rows;;
    check (r0 =? 0);;
    check (rn =? num_elems);;
    Some (rs2ri_loop r0 0 (tl row_splits)).

(** utils.cu:159-186 RowIdsToRowSplits, CPU branch: the loop over elements.
    [cur] is cur_row, [i] the loop variable; the [while (cur_row < row)] loop
    writes row_splits[cur+1..row] = i. *)
Fixpoint ri2rs_loop (cur i : Z) (ids : list Z) : option (Z * list Z) :=
  match ids with
  | [] => Some (cur, [])
  | row :: t =>
      check (cur <=? row);;                              (* K2_CHECK_GE *)
      r <- ri2rs_loop row (i + 1) t;;
      Some (fst r, repeat i (Z.to_nat (row - cur)) ++ snd r)
  end.

(** utils.cu:164-168 corner case; :183-186 trailing rows.  A row id larger
    than num_rows would write past the end of row_splits: modelled as [None]. *)
Definition row_ids_to_row_splits (row_ids : list Z) (num_rows : Z) : option (list Z) :=
  if zlen row_ids =? 0 then Some (repeat 0 (Z.to_nat (num_rows + 1)))
  else
    r <- ri2rs_loop (-1) 0 row_ids;;
    check (0 <=? fst r);;                                (* K2_CHECK_GE(cur_row, 0) *)
    let out := snd r ++ repeat (zlen row_ids) (Z.to_nat (num_rows - fst r)) in
    check (zlen out =? num_rows + 1);;
    Some out.

(** algorithms.cu:29-36 Renumbering::ComputeOld2New: exclusive sum of the keep
    flags (0/1), with one extra element. *)
Definition b2z (b : bool) : Z := if b then 1 else 0.
Definition old2new (keep : list bool) : list Z := exsum (map b2z keep).

(** algorithms.cu:41-67 ComputeNew2OldHelper/ComputeNew2Old: the loop runs over
    old_dim+1 indexes and writes new2old[old2new[i]] = i for the kept ones and
    for i = old_dim; reading old2new[old_dim+1] is avoided by the short-circuit
    [||].  The final Range(0, num_new_elems) drops the extra element. *)
Definition new2old_body (keep : list bool) (i : Z) : option (list (Z * Z)) :=
  let o2n := old2new keep in
  let old_dim := zlen keep in
  a <- rd o2n i;;
  if i =? old_dim then Some [(a, i)]
  else b <- rd o2n (i + 1);;
       Some (if a <? b then [(a, i)] else []).

Definition new2old (sched : list Z) (keep : list bool) : option (list Z) :=
  num_new <- rd (old2new keep) (zlen keep);;
  arr <- k2_fill (num_new + 1) sched (new2old_body keep);;
  Some (firstn (Z.to_nat num_new) arr).

(** ragged_ops.cu:567-605 Index on the last axis (branch
    [axis == src.NumAxes() - 1], 576-596): [row_ids] are the row ids of the
    last layer, [num_rows] = src.TotSize(num_axes - 2).  Returns the new row
    splits and row ids of the last layer.  The values are gathered by
    src.values[indexes] (ragged_ops_inl.h). *)
Definition index_last (row_ids : list Z) (num_rows : Z) (indexes : list Z)
  : option (list Z * list Z) :=
  ids <- mapM (rd row_ids) indexes;;
  rs <- row_ids_to_row_splits ids num_rows;;
  Some (rs, ids).
