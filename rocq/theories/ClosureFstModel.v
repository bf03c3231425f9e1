(** * Model of the python function closure, k2/python/k2/fsa_algo.py:828-883,
    on an FSA with the tensor attribute aux_labels. *)
From Coq Require Import ZArith List Lia Bool.
From Verif Require Import Base RaggedModel FsaSpec FsaOpsModel RaggedOpsModel OpsModel.
Import ListNotations.
Open Scope Z_scope.

(** fix_aux_labels (839-866).  An index out of range raises. *)
Definition fix_aux_labels (aux row_splits1 arc_map : list Z) : option (list Z) :=
  last_arc <- rd row_splits1 1;;                                       (* 858 *)
  let minus_one_index :=                                               (* 857, 860 *)
    map (fun i => if i >? last_arc then i + 1 else i)
        (filter (fun i => match rd aux i with Some x => x =? -1 | None => false end) (zrange (zlen aux))) in
  ans <- index_select1 aux arc_map 0;;                                 (* 863 *)
  ans <- foldM (fun d i => wr d i 0) minus_one_index ans;;             (* 864 *)
  wr ans last_arc (-1).                                                (* 865 *)

(** closure (868-883) *)
Definition closure_py (sched1 sched2 : list Z) (f : fsa) (aux : list Z) : option (fsa_out * list Z) :=
  o <- closure sched1 sched2 f;;
  a <- fix_aux_labels aux (row_splits f) (o_map o);;
  check (zlen a =? zlen (arcs (o_fsa o)));;                            (* fsa.py:395 *)
  Some (o, a).
