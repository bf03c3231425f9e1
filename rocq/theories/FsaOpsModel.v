(** * Model of the array-level FSA constructors of k2/csrc.

    Conventions.  A [sched] argument is the order in which the indexes of a
    K2_EVAL loop are run; the theorems quantify over all of them.  RowIds(1) is
    what RaggedShape::RowIds computes lazily from the row splits
    (ragged.cu RaggedShape::RowIds, which calls RowSplitsToRowIds).
    K2_DCHECKs are disabled in release builds and are not modelled.
    Several output arrays written at the same index are modelled as one array
    of tuples. *)
From Coq Require Import ZArith List Lia Bool.
From Verif Require Import Base RaggedModel FsaSpec.
Import ListNotations.
Open Scope Z_scope.

(** Result of an operation returning an Fsa and an arc map: the row_splits and
    arcs, the row_ids stored beside the row_splits, and the arc map. *)
Record fsa_out := mkOut { o_fsa : fsa; o_row_ids : list Z; o_map : list Z }.

(** Array of structs -> struct of arrays. *)
Definition arcs_of {B} (l : list (arc * B)) : list arc := map fst l.

Definition num_states (f : fsa) : Z := zlen (row_splits f) - 1.

(** ** LinearFsa: k2/csrc/fsa_algo.cu:364-386 *)
Definition linear_fsa_body (symbols : list Z) (i : Z) : option (list (Z * arc)) :=
  let n := zlen symbols in
  if i <? n then
    s <- rd symbols i;;
    check (negb (s =? -1));;                     (* K2_CHECK_NE, line 379 *)
    Some [(i, mkArc i (i + 1) s 0)]
  else Some [(i, mkArc i (i + 1) (-1) 0)].

(** row_splits1 = Range(num_states + 1) with its last element overwritten by
    num_arcs (line 383); row_ids1 = Range(num_arcs). *)
Definition linear_fsa (sched : list Z) (symbols : list Z) : option fsa_out :=
  let n := zlen symbols in
  let num_st := n + 2 in
  let num_arcs := n + 1 in
  out <- k2_fill num_arcs sched (linear_fsa_body symbols);;
  rs <- wr (zrange (num_st + 1)) num_st num_arcs;;
  Some (mkOut (mkFsa rs out) (zrange num_arcs) []).

(** ** Closure: k2/csrc/fsa_algo.cu:1396-1493 *)

(** lambda_set_arcs (1427-1473); the triple is
    (out_arcs, out_row_ids, tmp_arc_map). *)
Definition closure_body (f : fsa) (rids : list Z) (i : Z)
  : option (list (Z * (arc * Z * Z))) :=
  let fin := num_states f - 1 in
  s <- rd rids i;;
  a0x <- rd (row_splits f) s;;
  nx <- rd (row_splits f) (s + 1);;
  let idx1 := i - a0x in
  let cnt := nx - a0x in
  a <- rd (arcs f) i;;
  rs1 <- rd (row_splits f) 1;;
  let a' := if dst a =? fin then mkArc (src a) 0 0 (sc a) else a in
  let new_arc := mkArc 0 fin (-1) 0 in
  let out_idx := if src a >? 0 then i + 1 else i in
  Some ((if (negb (src a >? 0)) && (idx1 =? cnt - 1)
         then [(out_idx + 1, (new_arc, 0, -1))] else [])
     ++ (if rs1 =? 0 then [(0, (new_arc, 0, -1))] else [])
     ++ [(out_idx, (a', src a', i))]).

(** lambda_set_row_splits (1480-1486) *)
Definition closure_rs_body (f : fsa) (i : Z) : option (list (Z * Z)) :=
  if i =? 0 then Some [(i, 0)]
  else x <- rd (row_splits f) i;; Some [(i, x + 1)].

Definition closure (sched1 sched2 : list Z) (f : fsa) : option fsa_out :=
  let n := num_states f in
  if n <? 2 then
    check (n =? 0);;                              (* 1402-1404 *)
    Some (mkOut f [] [])
  else
    rids <- row_splits_to_row_ids (row_splits f) (zlen (arcs f));;
    out <- k2_fill (zlen (arcs f) + 1) sched1 (closure_body f rids);;
    rs <- k2_fill (n + 1) sched2 (closure_rs_body f);;
    Some (mkOut (mkFsa rs (map (fun t => fst (fst t)) out))
                (map (fun t => snd (fst t)) out) (map snd out)).

(** ** Union: k2/csrc/fsa_algo.cu:1305-1394 *)

(** lambda_set_out (1341-1383); triple (out_arcs, out_row_ids, tmp_arc_map).
    tmp_arc_map is initialised with -1, so an index that is never written holds
    -1; out_arcs has no such initialisation, so it is enough to attach -1 to
    the write of the new epsilon arc. *)
Definition union_body (v : fsavec) (rids1 rids2 : list Z) (i : Z)
  : option (list (Z * (arc * Z * Z))) :=
  let num_fsas := zlen (v_rs1 v) - 1 in
  let num_st := zlen (v_rs2 v) - 1 in
  let out_final := num_st + 2 - num_fsas - 1 in
  s01 <- rd rids2 i;;
  f0 <- rd rids1 s01;;
  s0x_next <- rd (v_rs1 v) (f0 + 1);;
  let fin01 := s0x_next - 1 in
  s0x <- rd (v_rs1 v) f0;;
  let fin1 := fin01 - s0x in
  a0xx <- rd (v_rs2 v) s0x;;
  let off := 1 - f0 in
  let out_state := s01 + off in
  a <- rd (v_arcs v) i;;
  let d := if dst a =? fin1 then out_final else dst a - src a + out_state in
  Some ([(i + num_fsas, (mkArc out_state d (lab a) (sc a), out_state, i))]
        ++ (if a0xx =? i then [(f0, (mkArc 0 (s0x + off) 0 0, 0, -1))] else [])).

Definition union (sched : list Z) (v : fsavec) : option fsa_out :=
  let num_fsas := zlen (v_rs1 v) - 1 in
  let num_st := zlen (v_rs2 v) - 1 in
  let num_out_states := num_st + 2 - num_fsas in
  rids1 <- row_splits_to_row_ids (v_rs1 v) num_st;;
  rids2 <- row_splits_to_row_ids (v_rs2 v) (zlen (v_arcs v));;
  out <- k2_fill (zlen (v_arcs v) + num_fsas) sched (union_body v rids1 rids2);;
  let row_ids := map (fun t => snd (fst t)) out in
  rs <- row_ids_to_row_splits row_ids num_out_states;;
  Some (mkOut (mkFsa rs (map (fun t => fst (fst t)) out)) row_ids (map snd out)).

(** ** AddEpsilonSelfLoops: k2/csrc/fsa_algo.cu:1146-1303 *)

(** Two kernels launched on parallel streams into the same arrays: index
    i < n1 is index i of the first kernel, index n1 + i is index i of the
    second; a schedule of the sum is any interleaving of the two. *)
Definition seq_body {A} (n1 : Z) (b1 b2 : Z -> option (list (Z * A))) (i : Z) :=
  if i <? n1 then b1 i else b2 (i - n1).

(** Single FSA (1152-1210).  lambda_copy_data; triple (new_arcs, new_row_ids, arc_map). *)
Definition eps_copy_body (f : fsa) (rids : list Z) (i : Z) : option (list (Z * (arc * Z * Z))) :=
  s <- rd rids i;;
  a <- rd (arcs f) i;;
  Some [(i + 1 + s, (a, s, i))].
(** lambda_set_new_data, writes to new_arcs / new_row_ids / arc_map *)
Definition eps_loop_body (f : fsa) (s : Z) : option (list (Z * (arc * Z * Z))) :=
  a0x <- rd (row_splits f) s;;
  let new0x := a0x + s in
  Some (if s + 1 <? num_states f then [(new0x, (mkArc s s 0 0, s, -1))] else []).
(** lambda_set_new_data, writes to new_row_splits *)
Definition eps_rs_body (f : fsa) (s : Z) : option (list (Z * Z)) :=
  a0x <- rd (row_splits f) s;;
  let new0x := a0x + s in
  Some ((s, new0x) :: (if s + 1 <? num_states f then [] else [(num_states f, new0x)])).

Definition add_eps_loops (sched1 sched2 : list Z) (f : fsa) : option fsa_out :=
  let n := num_states f in
  if n <? 2 then
    check (n =? 0);; Some (mkOut f [] [])
  else
    rids <- row_splits_to_row_ids (row_splits f) (zlen (arcs f));;
    out <- k2_fill (zlen (arcs f) + (n - 1)) sched1
             (seq_body (zlen (arcs f)) (eps_copy_body f rids) (eps_loop_body f));;
    rs <- k2_fill (n + 1) sched2 (eps_rs_body f);;
    Some (mkOut (mkFsa rs (map (fun t => fst (fst t)) out))
                (map (fun t => snd (fst t)) out) (map snd out)).

(** FsaVec (1211-1301).  [fmod] is fsa_idx0_mod_data: the exclusive sum of the
    non-empty flags (lambda_set_fsa_nonempty, 1222-1229). *)
Definition fsa_nonempty (rs1 : list Z) : list Z :=
  map (fun k => match rd rs1 k, rd rs1 (k + 1) with
                | Some x, Some y => b2z (x <? y) | _, _ => 0 end) (zrange (zlen rs1 - 1)).

Definition epsv_copy_body (v : fsavec) (rids1 rids2 fmod : list Z) (i : Z)
  : option (list (Z * (arc * Z * Z))) :=
  s01 <- rd rids2 i;;
  f0 <- rd rids1 s01;;
  m <- rd fmod f0;;
  a <- rd (v_arcs v) i;;
  Some [(i + 1 + s01 - m, (a, s01, i))].
Definition epsv_loop_body (v : fsavec) (rids1 fmod : list Z) (s01 : Z)
  : option (list (Z * (arc * Z * Z))) :=
  f0 <- rd rids1 s01;;
  m <- rd fmod f0;;
  s0x <- rd (v_rs1 v) f0;;
  nx <- rd (v_rs1 v) (f0 + 1);;
  a01x <- rd (v_rs2 v) s01;;
  let new := a01x + s01 - m in
  Some (if s01 + 1 <? nx then [(new, (mkArc (s01 - s0x) (s01 - s0x) 0 0, s01, -1))] else []).
Definition epsv_rs_body (v : fsavec) (rids1 fmod : list Z) (s01 : Z) : option (list (Z * Z)) :=
  let num_st := zlen (v_rs2 v) - 1 in
  f0 <- rd rids1 s01;;
  m <- rd fmod f0;;
  nx <- rd (v_rs1 v) (f0 + 1);;
  a01x <- rd (v_rs2 v) s01;;
  let new := a01x + s01 - m in
  Some ((s01, new) ::
        (if s01 + 1 <? nx then [] else if s01 + 1 =? num_st then [(num_st, new)] else [])).

Record vec_out := mkVOut { vo_vec : fsavec; vo_row_ids2 : list Z; vo_map : list Z }.

Definition add_eps_loops_vec (sched1 sched2 : list Z) (v : fsavec) : option vec_out :=
  let num_st := zlen (v_rs2 v) - 1 in
  if num_st =? 0 then Some (mkVOut v [] [])
  else
    let fmod := exsum (fsa_nonempty (v_rs1 v)) in
    n_nonempty <- rd fmod (zlen fmod - 1);;
    rids1 <- row_splits_to_row_ids (v_rs1 v) num_st;;
    rids2 <- row_splits_to_row_ids (v_rs2 v) (zlen (v_arcs v));;
    out <- k2_fill (zlen (v_arcs v) + num_st - n_nonempty) sched1
             (seq_body (zlen (v_arcs v)) (epsv_copy_body v rids1 rids2 fmod)
                       (epsv_loop_body v rids1 fmod));;
    rs2 <- k2_fill (num_st + 1) sched2 (epsv_rs_body v rids1 fmod);;
    Some (mkVOut (mkVec (v_rs1 v) rs2 (map (fun t => fst (fst t)) out))
                 (map (fun t => snd (fst t)) out) (map snd out)).

(** ** RemoveEpsilonSelfLoops: k2/csrc/fsa_algo.cu:2152-2181 *)

(** lambda_set_keep (2168-2178): index i writes keep[i] only. *)
Definition is_eps_self_loop (a : arc) : bool := (lab a =? 0) && (src a =? dst a).
Definition remove_eps_loops (sched : list Z) (v : fsavec) : option vec_out :=
  let num_st := zlen (v_rs2 v) - 1 in
  n2o <- new2old sched (map (fun a => negb (is_eps_self_loop a)) (v_arcs v));;
  rids2 <- row_splits_to_row_ids (v_rs2 v) (zlen (v_arcs v));;
  r <- index_last rids2 num_st n2o;;
  vals <- mapM (rd (v_arcs v)) n2o;;
  Some (mkVOut (mkVec (v_rs1 v) (fst r) vals) (snd r) n2o).
