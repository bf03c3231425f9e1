(** * Model of RemoveEpsilon and RemoveEpsilonAndAddSelfLoops on FsaVecs

    fsa_algo.cu:281-309, and k2.remove_epsilon and k2.remove_epsilon_and_add_self_loops
    (fsa_algo.py:699-777) as far as the arcs and the arc map are concerned (attributes:
    C13, C52).  [ord n] is the order of the threads of a kernel over [n] elements. *)
From Coq Require Import ZArith List Bool.
From Verif Require Import Base RaggedModel FsaSpec FsaOpsModel PropsModel OpsModel IntersectModel LinearModel ReverseModel RmEpsModel RmDevModel.
Import ListNotations.
Open Scope Z_scope.

(** RemoveEpsilonHost on an FsaVec: RecursionWrapper, fsa_algo.cu:221-244.  The FSAs are
    taken out of the vector (src.Index(0, i)); [remove_epsilon_vec] runs the algorithm on
    each of them and shifts the arc maps.  Stack(0, dests), which is fatal for no FSAs, gives
    the row splits computed by [create_vec]; Cat(0, arc_derivs) appends the arc maps.
    Scores are exact integers: a score NaN (C27_unreachable_nan_refuted) makes the model
    stop, the program goes on with NaN. *)
Definition finite_arc (o : oarc) : option arc := s <- o_sc o;; Some (mkArc (o_src o) (o_dst o) (o_lab o) s).
Definition remove_epsilon_host (v : fsavec) : option (fsavec * list (list Z)) :=
  let num_fsas := zlen (v_rs1 v) - 1 in
  check (0 <? num_fsas);;
  srcs <- mapM (vec_element v) (zrange num_fsas);;
  rs <- remove_epsilon_vec 0 (map (fun f => (row_splits f, arcs f)) srcs);;
  dests <- mapM (fun r => l <- mapM finite_arc (snd r);; Some (fst r, l)) rs;;
  Some (create_vec dests, concat (map (fun r => map o_der (snd r)) rs)).

(** RemoveEpsilon, fsa_algo.cu:281-291 *)
Definition remove_epsilon_any (cpu : bool) (ord : Z -> list Z) (fuel : nat) (props : Z) (v : fsavec) : option (fsavec * list (list Z)) :=
  if negb (Z.land props kTopSortedAndAcyclic =? 0) && cpu then remove_epsilon_host v
  else remove_epsilon_device ord fuel v.

(** RemoveEpsilonAndAddSelfLoops, fsa_algo.cu:294-309; Index on axis 0 gives an empty row
    for -1 (C07_index_axis0) *)
Definition remove_epsilon_add_loops (cpu : bool) (ord : Z -> list Z) (fuel : nat) (props : Z) (v : fsavec) : option (fsavec * list (list Z)) :=
  temp <- remove_epsilon_any cpu ord fuel props v;;
  let n := zlen (v_rs2 (fst temp)) - 1 in
  o <- add_eps_loops_vec (ord (zlen (v_arcs (fst temp)) + n)) (ord n) (fst temp);;
  m <- carry_rows (snd temp) (vo_map o);;
  Some (vo_vec o, m).

(** k2.remove_epsilon, fsa_algo.py:699-737 (fsa.properties raises for invalid input) *)
Definition k2_remove_epsilon (cpu : bool) (ord : Z -> list Z) (fuel : nat) (v : fsavec) : option (fsavec * list (list Z)) :=
  props <- py_properties (ord (zlen (v_arcs v))) v;;
  remove_epsilon_any cpu ord fuel props v.

(** k2.remove_epsilon_and_add_self_loops, fsa_algo.py:746-777.  In the shortcut the arc map
    is a tensor; here it is written as rows of at most one arc. *)
Definition k2_remove_epsilon_add_loops (cpu : bool) (ord : Z -> list Z) (fuel : nat) (v : fsavec) : option (fsavec * list (list Z)) :=
  props <- py_properties (ord (zlen (v_arcs v))) v;;
  if negb (Z.land props kEpsilonFree =? 0) then
    let n := zlen (v_rs2 v) - 1 in
    o <- add_eps_loops_vec (ord (zlen (v_arcs v) + n)) (ord n) v;;
    Some (vo_vec o, map (fun j => if j =? -1 then [] else [j]) (vo_map o))
  else remove_epsilon_add_loops cpu ord fuel props v.
