(** * Model of ReplaceFsa (k2/csrc/fsa_algo.cu:1869-2150), the function behind
    k2.replace_fsa (k2/python/k2/fsa_algo.py:1110-1158).

    In every kernel index [i] writes only cell [i], so kernels are modelled by
    [mapM] over the index range.  FsaVecs are given by their row splits and arcs; a
    single index FSA is a batch of one (1873-1877). *)
From Coq Require Import ZArith List Lia Bool.
From Verif Require Import Base RaggedModel FsaSpec GraphModel.
Import ListNotations.
Open Scope Z_scope.

(** [src_idx0 < 0 || src_idx0 >= num_src_fsas], 1941, 2071 *)
Definition outside (n src_idx0 : Z) : bool := (src_idx0 <? 0) || (n <=? src_idx0).

(** lambda_set_num_ostates, 1921-1954 *)
Definition rep_ostates (srs1 : list Z) (irs2 : list Z) (iarcs : list arc) (begin : Z) (sf_rs sf_ids : list Z) (idx01 : Z) : option Z :=
  idx0 <- rd sf_ids idx01;;
  idx0x <- rd sf_rs idx0;;
  let idx1 := idx01 - idx0x in
  if idx1 =? 0 then Some 1 else
  a01x <- rd irs2 idx0;;
  a <- rd iarcs (a01x + (idx1 - 1));;
  let src_idx0 := lab a - begin in
  if outside (zlen srs1 - 1) src_idx0 then Some 0 else
  b <- rd srs1 src_idx0;;
  e <- rd srs1 (src_idx0 + 1);;
  Some (Z.max (e - b - 1) 0).

(** lambda_set_num_oarcs, 1982-2025 *)
Definition rep_oarcs (srs1 srs2 : list Z) (irs2 : list Z) (iarcs : list arc) (begin : Z) (tos2 ids2 tos3 ids3 : list Z) (idx0123 : Z) : option Z :=
  idx012 <- rd ids3 idx0123;;
  idx012x <- rd tos3 idx012;;
  idx01 <- rd ids2 idx012;;
  idx01x <- rd tos2 idx01;;
  idx01x_next <- rd tos2 (idx01 + 1);;
  let idx2 := idx012 - idx01x in
  let idx3 := idx0123 - idx012x in
  if idx2 =? 0 then
    check (idx3 =? 0);;
    Some (idx01x_next - idx01x - 1)
  else
    a01x <- rd irs2 idx01;;
    a <- rd iarcs (a01x + (idx2 - 1));;
    let src_idx0 := lab a - begin in
    check (0 <=? src_idx0);;
    check (src_idx0 <? zlen srs1 - 1);;
    s0x <- rd srs1 src_idx0;;
    b <- rd srs2 (s0x + idx3);;
    e <- rd srs2 (s0x + idx3 + 1);;
    Some (e - b).

(** lambda_set_arcs, 2055-2144: the arc, arc_map_src and arc_map_index.  The code
    also reads [src_arcs_data[src_arc_idx012]] when [idx2 == 0] (2091); the value is not
    used then, and the read, which may be out of range, is left out here. *)
Definition rep_arcs (srs1 srs2 : list Z) (sarcs : list arc) (irs2 : list Z) (iarcs : list arc) (begin : Z)
    (tos1 ids1 tos2 ids2 tos3 ids3 rs4 ids4 : list Z) (idx01234 : Z) : option (arc * (Z * Z)) :=
  idx0123 <- rd ids4 idx01234;;
  idx0123x <- rd rs4 idx0123;;
  let idx4 := idx01234 - idx0123x in
  idx012 <- rd ids3 idx0123;;
  idx012x <- rd tos3 idx012;;
  let idx3 := idx0123 - idx012x in
  idx01 <- rd ids2 idx012;;
  idx01x <- rd tos2 idx01;;
  let idx2 := idx012 - idx01x in
  idx0 <- rd ids1 idx01;;
  idx0x <- rd tos1 idx0;;
  idx0xx <- rd tos2 idx0x;;
  idx0xxx <- rd tos3 idx0xx;;
  index_arc_idx2 <- (if idx2 =? 0 then check (idx3 =? 0);; Some idx4 else Some (idx2 - 1));;
  a01x <- rd irs2 idx01;;
  let index_arc_idx012 := a01x + index_arc_idx2 in
  index_arc <- rd iarcs index_arc_idx012;;
  d0x <- rd tos2 (idx0x + dst index_arc);;
  orig_dest <- rd tos3 d0x;;
  let src_fsa_idx0 := lab index_arc - begin in
  if outside (zlen srs1 - 1) src_fsa_idx0 then
    check (idx2 =? 0);;
    Some (mkArc (idx0123 - idx0xxx) (orig_dest - idx0xxx) (lab index_arc) (sc index_arc), (-1, index_arc_idx012))
  else
    s0x <- rd srs1 src_fsa_idx0;;
    s0x_next <- rd srs1 (src_fsa_idx0 + 1);;
    let num_states := s0x_next - s0x in
    src_arc_idx01x <- rd srs2 (s0x + idx3);;
    let src_arc_idx012 := src_arc_idx01x + idx4 in
    if idx2 =? 0 then
      dest <- (if num_states =? 0 then Some (orig_dest - idx0xxx)
               else x <- rd tos3 idx01x;; y <- rd tos3 (idx01x + idx4 + 1);; Some (idx0123 + (y - x) - idx0xxx));;
      Some (mkArc (idx0123 - idx0xxx) dest 0 (sc index_arc), (-1, index_arc_idx012))
    else
      src_arc <- rd sarcs src_arc_idx012;;
      let dest := if lab src_arc =? -1 then orig_dest - idx0xxx else (idx0123 - idx3 + dst src_arc) - idx0xxx in
      Some (mkArc (idx0123 - idx0xxx) dest (if lab src_arc =? -1 then 0 else lab src_arc) (sc src_arc), (src_arc_idx012, -1)).

(** ReplaceFsa: row splits, arcs, and the two arc maps *)
Definition replace_fsa (srs1 srs2 : list Z) (sarcs : list arc) (irs1 irs2 : list Z) (iarcs : list arc) (begin : Z)
    : option (list Z * list Z * list arc * list Z * list Z) :=
  let num_states := zlen irs2 - 1 in
  let sf_rs := change_sublist_size irs2 1 in                 (* 1893 *)
  foo_size <- rd sf_rs num_states;;
  sf_ids <- row_splits_to_row_ids sf_rs foo_size;;
  nos <- mapM (rep_ostates srs1 irs2 iarcs begin sf_rs sf_ids) (zrange foo_size);;
  let tos3 := exsum nos in                                   (* 1955 *)
  ids1 <- row_splits_to_row_ids irs1 num_states;;            (* 1963 *)
  tot_ostates <- rd tos3 foo_size;;
  ids3 <- row_splits_to_row_ids tos3 tot_ostates;;
  noa <- mapM (rep_oarcs srs1 srs2 irs2 iarcs begin sf_rs sf_ids tos3 ids3) (zrange tot_ostates);;
  let rs4 := exsum noa in                                    (* 2026 *)
  tot_oarcs <- rd rs4 tot_ostates;;
  check (zlen iarcs <=? tot_oarcs);;                         (* 2039 *)
  ids4 <- row_splits_to_row_ids rs4 tot_oarcs;;
  out <- mapM (rep_arcs srs1 srs2 sarcs irs2 iarcs begin irs1 ids1 sf_rs sf_ids tos3 ids3 rs4 ids4) (zrange tot_oarcs);;
  (* RemoveAxis(.., 1) twice, 2147-2148 *)
  r1 <- mapM (rd sf_rs) irs1;;
  r2 <- mapM (rd tos3) r1;;
  Some (r2, rs4, map fst out, map (fun x => fst (snd x)) out, map (fun x => snd (snd x)) out).
