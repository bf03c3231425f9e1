(** * Model of the graph builders of k2/csrc/fsa_algo.cu.

    Kernels in which index [i] writes only cell [i] are modelled by [mapM] over
    the index range: the result does not depend on the execution order.
    Integer division and remainder are applied to non-negative numbers only.
    A Ragged<int32_t> with two axes is given by its row splits and values. *)
From Coq Require Import ZArith List Lia Bool.
From Verif Require Import Base RaggedModel FsaSpec FsaOpsModel.
Import ListNotations.
Open Scope Z_scope.

(** ** LinearFsas: fsa_algo.cu:388-454 *)

(** ChangeSublistSize(symbols.shape, size_delta), ragged_ops.cu:1681-1735, two
    axes: row_splits (1707-1711).  The row_ids it writes are those of the row
    splits. *)
Definition change_sublist_size (rs : list Z) (delta : Z) : list Z :=
  imap (fun i x => x + delta * i) 0 rs.

(** lambda (416-449): writes to arcs/row_ids2 *)
Definition linear_fsas_arc_body (rs1 ids1 syms : list Z) (s01 : Z) : option (list (Z * (arc * Z))) :=
  f0 <- rd ids1 s01;;
  s0x <- rd rs1 f0;;
  nx <- rd rs1 (f0 + 1);;
  let idx1 := s01 - s0x in
  let a0xx := s0x - f0 in
  let next_a0xx := nx - (f0 + 1) in
  let a012 := a0xx + idx1 in
  let sym01 := a012 - f0 in
  if a012 <? next_a0xx then
    l <- (if a012 + 1 <? next_a0xx then rd syms sym01 else Some (-1));;
    Some [(a012, (mkArc idx1 (idx1 + 1) l 0, s01))]
  else Some [].
(** writes to row_splits2; the assignment at 448 follows the one at 446 *)
Definition linear_fsas_rs_body (rs1 ids1 : list Z) (s01 : Z) : option (list (Z * Z)) :=
  f0 <- rd ids1 s01;;
  s0x <- rd rs1 f0;;
  nx <- rd rs1 (f0 + 1);;
  let a012 := s0x - f0 + (s01 - s0x) in
  Some ((if a012 <? nx - (f0 + 1) then [] else [(s01 + 1, a012)]) ++ [(s01, a012)]).

Definition linear_fsas (sched : list Z) (rs syms : list Z) : option vec_out :=
  let rs1 := change_sublist_size rs 2 in
  let num_fsas := zlen rs - 1 in
  num_states <- rd rs1 num_fsas;;
  let num_arcs := zlen syms + num_fsas in
  ids1 <- row_splits_to_row_ids rs1 num_states;;
  if num_states =? 0 then                       (* row_splits2 = 0, line 405 *)
    Some (mkVOut (mkVec rs1 [0] []) [] [])
  else
    out <- k2_fill num_arcs sched (linear_fsas_arc_body rs1 ids1 syms);;
    rs2 <- k2_fill (num_states + 1) sched (linear_fsas_rs_body rs1 ids1);;
    Some (mkVOut (mkVec rs1 rs2 (map fst out)) (map snd out) []).

(** ** CtcGraphs: fsa_algo.cu:577-730 *)

(** lambda_set_num_arcs (612-651) *)
Definition ctc_num_arcs (rs syms ids1 : list Z) (modified : bool) (s01 : Z) : option Z :=
  f0 <- rd ids1 s01;;
  let sym01 := s01 / 2 - f0 in
  if s01 mod 2 =? 0 then Some 2
  else
    fin <- rd rs (f0 + 1);;
    if sym01 =? fin then Some 0
    else if modified then Some 3
    else
      cur <- rd syms sym01;;
      nxt <- (if sym01 + 1 =? fin then Some (-1) else rd syms (sym01 + 1));;
      check (negb (cur =? -1));;
      Some (if cur =? nxt then 2 else 3).

(** lambda_set_arcs (671-728): the arc and its aux label.  [None] also stands
    for the early return at 689, which leaves the arc uninitialised. *)
Definition ctc_arc (rs syms rs1 ids1 rs2 ids2 : list Z) (modified : bool) (i : Z) : option (arc * Z) :=
  s01 <- rd ids2 i;;
  f0 <- rd ids1 s01;;
  s0x <- rd rs1 f0;;
  let s1 := s01 - s0x in
  a01x <- rd rs2 s01;;
  let a2 := i - a01x in
  let sym01 := s01 / 2 - f0 in
  fin <- rd rs (f0 + 1);;
  let final_state := fin =? sym01 in
  cur <- (if final_state then Some (-1) else rd syms sym01);;
  if negb (s01 mod 2 =? 0) then
    check (negb final_state);;
    nxt <- (if sym01 + 1 =? fin then Some (-1) else rd syms (sym01 + 1));;
    if (cur =? nxt) && negb modified then
      check (a2 <? 2);;
      Some (if a2 =? 0 then mkArc s1 (s1 + 1) 0 0 else mkArc s1 s1 cur 0, 0)
    else if a2 =? 0 then Some (mkArc s1 (s1 + 1) 0 0, 0)
    else if a2 =? 1 then Some (mkArc s1 s1 cur 0, 0)
    else if a2 =? 2 then
      Some (mkArc s1 (s1 + 2) nxt 0, if sym01 + 1 =? fin then -1 else nxt)
    else None
  else
    check (a2 <? 2);;
    Some (if a2 =? 0 then mkArc s1 s1 0 0 else mkArc s1 (s1 + 1) cur 0,
          if final_state && negb (a2 =? 0) then -1 else if a2 =? 0 then 0 else cur).

(** The shape code common to the batched builders: the number of arcs of every
    state is known, the row splits are exclusive sums (654-660), the row ids are
    computed from them, and one kernel writes the arcs. *)
Definition build_vec {B} (rs1 : list Z)
    (narcs : list Z -> Z -> option Z)
    (arc_at : list Z -> list Z -> list Z -> Z -> option (arc * B)) : option (fsavec * list B) :=
  num_states <- rd rs1 (zlen rs1 - 1);;
  ids1 <- row_splits_to_row_ids rs1 num_states;;
  na <- mapM (narcs ids1) (zrange num_states);;
  let rs2 := exsum na in
  num_arcs <- rd rs2 num_states;;
  ids2 <- row_splits_to_row_ids rs2 num_arcs;;
  out <- mapM (arc_at ids1 rs2 ids2) (zrange num_arcs);;
  Some (mkVec rs1 rs2 (map fst out), map snd out).

Definition ctc_graphs (rs syms : list Z) (modified : bool) : option (fsavec * list Z) :=
  (* lambda_set_num_states (592-598) *)
  ns <- mapM (fun f => a <- rd rs f;; b <- rd rs (f + 1);; Some ((b - a) * 2 + 2)) (zrange (zlen rs - 1));;
  let rs1 := exsum ns in
  build_vec rs1 (fun ids1 => ctc_num_arcs rs syms ids1 modified)
            (fun ids1 rs2 ids2 => ctc_arc rs syms rs1 ids1 rs2 ids2 modified).

(** ** CtcTopo: fsa_algo.cu:732-817.  The K2_EVAL2 loop over (i,j) writes cell
    i * dim1 + j. *)
Definition ctc_topo_arc (max_token : Z) (idx : Z) : arc * Z * Z :=
  let dim1 := max_token + 2 in
  let i := idx / dim1 in
  let j := idx mod dim1 in
  let l := if j =? dim1 - 1 then -1 else j in
  (mkArc i j l 0, if i =? j then 0 else l, i).
Definition ctc_topo_mod_arc (max_token : Z) (idx : Z) : arc * Z * Z :=
  let states := max_token + 2 in
  if idx <? states - 1 then (mkArc 0 0 idx 0, idx, 0)
  else if idx <? (states - 1) * 2 then
    let d := idx - (states - 1) + 1 in
    let l := if d =? states - 1 then -1 else d in
    (mkArc 0 d l 0, l, 0)
  else
    let bias := idx - (states - 1) * 2 in
    let state := bias / 2 + 1 in
    (mkArc state (if bias mod 2 =? 0 then state else 0) state 0, 0, state).
Definition ctc_topo (max_token : Z) (modified : bool) : option (fsa * list Z) :=
  let states := max_token + 2 in
  let out := if modified then tab ((states - 1) * 2 + (states - 2) * 2) (ctc_topo_mod_arc max_token)
             else tab ((states - 1) * (max_token + 2)) (ctc_topo_arc max_token) in
  rs <- row_ids_to_row_splits (map snd out) states;;
  Some (mkFsa rs (map (fun t => fst (fst t)) out), map (fun t => snd (fst t)) out).

(** ** TrivialGraph: fsa_algo.cu:819-850 *)
Definition trivial_graph (max_token : Z) : fsa * list Z :=
  let n := max_token + 1 in
  (mkFsa [0; n; n] (tab n (fun i => if i =? n - 1 then mkArc 0 1 (-1) 0 else mkArc 0 0 (i + 1) 0)),
   tab n (fun i => if i =? n - 1 then -1 else i + 1)).

(** ** LevenshteinGraphs: fsa_algo.cu:456-575.  Scores are integers in some
    unit: [half] stands for the constant 0.5 and [ins_del] for ins_del_score. *)

(** lambda_set_num_arcs (477-490) *)
Definition lev_num_arcs (rs1 ids1 : list Z) (s01 : Z) : option Z :=
  f0 <- rd ids1 s01;;
  nx <- rd rs1 (f0 + 1);;
  let fin := nx - 1 in
  Some (if s01 =? fin - 1 then 2 else if s01 =? fin then 0 else 3).

(** lambda_set_arcs (519-573): arc, aux label, score offset *)
Definition lev_arc (half ins_del : Z) (syms rs1 ids1 rs2 ids2 : list Z) (i : Z) : option (arc * (Z * Z)) :=
  s01 <- rd ids2 i;;
  f0 <- rd ids1 s01;;
  s0x <- rd rs1 f0;;
  nx <- rd rs1 (f0 + 1);;
  let fin := nx - 1 in
  let s1 := s01 - s0x in
  a01x <- rd rs2 s01;;
  let a2 := i - a01x in
  cur <- (if negb (s01 =? fin - 1) && negb (s01 =? fin) then
            c <- rd syms (s01 - 2 * f0);;
            check (negb (c =? 0) && negb (c =? -1));; Some c
          else Some 0);;
  if a2 =? 0 then Some (mkArc s1 s1 0 ins_del, (0, ins_del - (- half)))
  else if a2 =? 1 then
    Some (if s01 =? fin - 1 then (mkArc s1 (s1 + 1) (-1) 0, (-1, 0))
          else (mkArc s1 (s1 + 1) 0 (- half), (cur, 0)))
  else if a2 =? 2 then Some (mkArc s1 (s1 + 1) cur 0, (cur, 0))
  else None.

(** line 494 computes num_arcs in closed form and 496 hands it to RaggedShape2,
    which compares it with the last row split in debug builds only
    (ragged_ops.cu:116, K2_DCHECK_EQ); the model fails when they differ. *)
Definition levenshtein_graphs (half ins_del : Z) (rs syms : list Z) : option (fsavec * list (Z * Z)) :=
  let rs1 := change_sublist_size rs 2 in
  r <- build_vec rs1 (lev_num_arcs rs1) (fun ids1 rs2 ids2 => lev_arc half ins_del syms rs1 ids1 rs2 ids2);;
  check (zlen (v_arcs (fst r)) =? zlen syms * 3 + (zlen rs - 1) * 2);;
  Some r.
