(** * Model of the linear FST constructors of k2/python/k2/fsa_algo.py.

    Ragged tensors are rows of values; the row splits and row ids they stand for
    are the subject of C06 and C07.  Scores and labels are integers. *)
From Coq Require Import ZArith List Lia Bool.
From Verif Require Import Base RaggedModel FsaSpec RaggedOpsModel FsaOpsModel OpsModel GraphModel.
Import ListNotations.
Open Scope Z_scope.

(** linear_fst (fsa_algo.py:102-131), labels a list of integers: [labels[0]]
    raises on the empty list (120); the attribute setter (fsa.py:395) requires
    one aux label per arc. *)
Definition linear_fst_one (sched : list Z) (labels aux : list Z) : option (fsa_out * list Z) :=
  o <- linear_fsa sched labels;;
  _ <- rd labels 0;;
  let a := aux ++ [-1] in
  check (zlen a =? zlen (arcs (o_fsa o)));;
  Some (o, a).

(** the same, labels a list of lists (121-126): the aux labels are joined, one
    -1 after each list; [aux_labels[0]] raises on the empty list. *)
Definition linear_fst_batch (sched : list Z) (labels aux : list (list Z)) : option (vec_out * list Z) :=
  o <- linear_fsas sched (exsum (map zlen labels)) (concat labels);;
  _ <- rd labels 0;;
  _ <- rd aux 0;;
  let a := concat (map (fun l => l ++ [-1]) aux) in
  check (zlen a =? zlen (v_arcs (vo_vec o)));;
  Some (o, a).

(** torch.cumsum *)
Fixpoint cumsum_from (acc : Z) (l : list Z) : list Z :=
  match l with [] => [] | x :: t => (acc + x) :: cumsum_from (acc + x) t end.

(** new_arc_flag and dest_arc_row_ids, fsa_algo.py:152-186 *)
Definition new_arc_flag (labels : list Z) : list Z :=
  match labels with
  | [] => []
  | _ => 1 :: map (fun l => if l =? 0 then 0 else 1) (removelast labels)
  end.
Definition dest_row_ids (labels : list Z) : list Z := map (fun x => x - 1) (cumsum_from 0 (new_arc_flag labels)).

(** RaggedShape2 from row ids only, ragged_ops.cu:121-133: the number of rows
    is one more than the last row id. *)
Definition rows_from_ids (ids : list Z) : Z := match rd ids (zlen ids - 1) with Some r => r + 1 | None => 0 end.

(** RaggedTensor.remove_values_leq(0), ragged_ops_inl.h:297-319 *)
Definition positive (rows : list (list Z)) : list (list Z) := map (filter (fun x => 0 <? x)) rows.

(** The labels of each FSA as a ragged tensor: shape.remove_axis(1)
    (fsa_algo.py:83, 213) *)
Definition labels_by_fsa (v : fsavec) : option (list (list Z)) :=
  rs <- mapM (rd (v_rs2 v)) (v_rs1 v);;
  to_vec_vec rs (map lab (v_arcs v)).

Definition set_scores (v : fsavec) (s : list Z) : option fsavec :=
  check (zlen s =? zlen (v_arcs v));;
  Some (mkVec (v_rs1 v) (v_rs2 v) (map (fun p => mkArc (src (fst p)) (dst (fst p)) (lab (fst p)) (snd p)) (combine (v_arcs v) s))).

(** attributes of the arcs of the result of an FSA operation, ragged attribute:
    -1 stands for an empty list (ragged_ops.cu IndexAxis0, C07, C51) *)
Definition carry_rows (aux : list (list Z)) (arc_map : list Z) : option (list (list Z)) :=
  mapM (fun i => if i =? -1 then Some [] else rd aux i) arc_map.

(** linear_fsa_with_self_loops (fsa_algo.py:70-99), FsaVec *)
Definition linear_fsa_with_self_loops (sched1 sched2 sched3 : list Z) (v : fsavec) : option vec_out :=
  labs <- labels_by_fsa v;;
  o <- linear_fsas sched1 (exsum (map zlen (positive labs))) (concat (positive labs));;
  add_eps_loops_vec sched2 sched3 (vo_vec o).

(** linear_fst_with_self_loops (fsa_algo.py:134-226), FsaVec; a single FST is
    made a vector of one (206-209).  The result's aux_labels are ragged. *)
Definition linear_fst_with_self_loops (sched1 sched2 sched3 : list Z) (v : fsavec) (aux : list Z)
  : option (vec_out * list (list Z)) :=
  let labels := map lab (v_arcs v) in
  let ids := dest_row_ids labels in
  rs <- row_ids_to_row_splits ids (rows_from_ids ids);;
  aux_rows <- to_vec_vec rs aux;;                              (* dest_aux_labels, 195-197 *)
  let dest_aux := positive aux_rows in
  dest_scores <- index_and_sum (map sc (v_arcs v)) rs (zrange (zlen (v_arcs v)));;   (* 200-204 *)
  labs <- labels_by_fsa v;;
  o <- linear_fsas sched1 (exsum (map zlen (positive labs))) (concat (positive labs));;
  check (zlen dest_aux =? zlen (v_arcs (vo_vec o)));;          (* ans.aux_labels = dest_aux_labels *)
  w <- set_scores (vo_vec o) dest_scores;;
  r <- add_eps_loops_vec sched2 sched3 w;;
  a <- carry_rows dest_aux (vo_map r);;
  Some (r, a).
