(** * Model of ExpandArcs (k2/csrc/fsa_algo.cu), of Invert for ragged aux labels
    and of the binding expand_arcs (k2/python/csrc/torch/fsa_algo.cu).

    In every kernel index [i] writes only cell [i], so kernels are modelled by
    [mapM] over the index range.  An FsaVec is given by its row splits and arcs; a
    single FSA is expanded as a batch of one (fsa_algo.cu:1499-1503). *)
From Coq Require Import ZArith List Lia Bool.
From Verif Require Import Base RaggedModel FsaSpec GraphModel.
Import ListNotations.
Open Scope Z_scope.

(** lambda_set_num_ostates, fsa_algo.cu:1543-1573 *)
Definition num_ostates (sf_rs sf_ids rs2 lrs : list Z) (idx01 : Z) : option Z :=
  idx0 <- rd sf_ids idx01;;
  idx0x <- rd sf_rs idx0;;
  let idx1 := idx01 - idx0x in
  if idx1 =? 0 then Some 1 else
  a01x <- rd rs2 idx0;;
  let a012 := a01x + (idx1 - 1) in
  b <- rd lrs a012;;
  e <- rd lrs (a012 + 1);;
  Some (Z.max (e - b - 1) 0).

(** lambda_set_num_oarcs, fsa_algo.cu:1597-1624 *)
Definition num_oarcs (tos2 ids2 tos3 ids3 : list Z) (idx0123 : Z) : option Z :=
  idx012 <- rd ids3 idx0123;;
  idx012x <- rd tos3 idx012;;
  idx01 <- rd ids2 idx012;;
  idx01x <- rd tos2 idx01;;
  idx01x_next <- rd tos2 (idx01 + 1);;
  if idx012 - idx01x =? 0 then
    check (idx0123 - idx012x =? 0);;
    Some (idx01x_next - idx01x - 1)
  else Some 1.

(** lambda_set_arcs, fsa_algo.cu:1653-1731: the arc, fsas_arc_map and
    labels_arc_map *)
Definition set_arcs (rs2 : list Z) (arcs : list arc) (lrs tos1 ids1 tos2 ids2 tos3 ids3 rs4 ids4 : list Z)
    (idx01234 : Z) : option (arc * (Z * Z)) :=
  idx0123 <- rd ids4 idx01234;;
  idx0123x <- rd rs4 idx0123;;
  let idx4 := idx01234 - idx0123x in
  idx012 <- rd ids3 idx0123;;
  idx012x <- rd tos3 idx012;;
  let idx3 := idx0123 - idx012x in
  idx01 <- rd ids2 idx012;;
  idx01x <- rd tos2 idx01;;
  let idx2 := idx012 - idx01x in
  idx0 <- rd ids1 idx01;;
  idx0x <- rd tos1 idx0;;
  idx0xx <- rd tos2 idx0x;;
  idx0xxx <- rd tos3 idx0xx;;
  fsa_idx01x <- rd rs2 idx01;;
  pr <- (if idx2 =? 0 then check (idx3 =? 0);; Some (idx4, 0)
         else check (idx4 =? 0);; Some (idx2 - 1, idx3 + 1));;
  let '(fsa_idx2, seq_pos) := pr in
  let fsa_idx012 := fsa_idx01x + fsa_idx2 in
  iarc <- rd arcs fsa_idx012;;
  b <- rd lrs fsa_idx012;;
  e <- rd lrs (fsa_idx012 + 1);;
  let len1 := e - b in
  check (seq_pos <? Z.max 1 len1);;
  d0x <- rd tos2 (idx0x + dst iarc);;
  d0xx <- rd tos3 d0x;;
  dest <- (if len1 <=? seq_pos + 1 then Some (d0xx - idx0xxx)
           else x <- rd tos3 (idx01x + (fsa_idx2 + 1));; Some (x + seq_pos - idx0xxx));;
  Some (mkArc (idx0123 - idx0xxx) dest
          (if negb (lab iarc =? -1) then (if seq_pos =? 0 then lab iarc else 0)
           else (if len1 <=? seq_pos + 1 then -1 else 0))
          (if seq_pos =? 0 then sc iarc else 0),
        (if seq_pos =? 0 then fsa_idx012 else -1,
         if seq_pos <? len1 then b + seq_pos else -1)).

(** ExpandArcs, fsa_algo.cu:1495-1737: row splits, arcs, fsas_arc_map,
    labels_arc_map *)
Definition expand_arcs (rs1 rs2 : list Z) (arcs : list arc) (lrs : list Z)
    : option (list Z * list Z * list (arc * (Z * Z))) :=
  check (zlen arcs =? zlen lrs - 1);;                        (* 1506 *)
  let num_states := zlen rs2 - 1 in
  let sf_rs := change_sublist_size rs2 1 in                  (* 1518 *)
  foo_size <- rd sf_rs num_states;;
  sf_ids <- row_splits_to_row_ids sf_rs foo_size;;
  nos <- mapM (num_ostates sf_rs sf_ids rs2 lrs) (zrange foo_size);;
  let tos3 := exsum nos in                                   (* 1574 *)
  ids1 <- row_splits_to_row_ids rs1 num_states;;             (* 1581 *)
  tot_ostates <- rd tos3 foo_size;;
  ids3 <- row_splits_to_row_ids tos3 tot_ostates;;
  noa <- mapM (num_oarcs sf_rs sf_ids tos3 ids3) (zrange tot_ostates);;
  let rs4 := exsum noa in                                    (* 1625 *)
  tot_oarcs <- rd rs4 tot_ostates;;
  check (zlen arcs <=? tot_oarcs);;                          (* 1637 *)
  ids4 <- row_splits_to_row_ids rs4 tot_oarcs;;
  out <- mapM (set_arcs rs2 arcs lrs rs1 ids1 sf_rs sf_ids tos3 ids3 rs4 ids4) (zrange tot_oarcs);;
  (* RemoveAxis(.., 1) twice, 1735-1736 *)
  r1 <- mapM (rd sf_rs) rs1;;
  r2 <- mapM (rd tos3) r1;;
  Some (r2, rs4, out).

(** lambda_get_combined_size, torch/fsa_algo.cu:505-530: the loop over the ragged
    attributes, each given by its row splits and values *)
Definition combined_step (final : bool) (arc_idx : Z) (m : option Z) (rag : list Z * list Z) : option Z :=
  max_num_elems <- m;;
  b <- rd (fst rag) arc_idx;;
  e <- rd (fst rag) (arc_idx + 1);;
  let size := e - b in
  extra <- (if final && (max_num_elems <=? size) then v <- rd (snd rag) (e - 1);; Some (negb (v =? -1)) else Some false);;
  Some (if extra then size + 1 else if max_num_elems <? size then size else max_num_elems).
Definition combined_size (arcs : list arc) (rags : list (list Z * list Z)) (arc_idx : Z) : option Z :=
  a <- rd arcs arc_idx;;
  fold_left (combined_step (lab a =? -1) arc_idx) rags (Some 1).

(** lambda_linearize_labels, torch/fsa_algo.cu:558-597 *)
Definition linearize (cs_rs cs_ids : list Z) (rag : list Z * list Z) (x : arc * (Z * Z)) : option Z :=
  let final := lab (fst x) =? -1 in
  let c01 := snd (snd x) in
  check (0 <=? c01);;
  c0 <- rd cs_ids c01;;
  c0x <- rd cs_rs c0;;
  let c1 := c01 - c0x in
  check (0 <=? c1);;
  b <- rd (fst rag) c0;;
  e <- rd (fst rag) (c0 + 1);;
  l0 <- (if e <=? b + c1 then Some 0 else rd (snd rag) (b + c1));;
  let l := if (l0 =? -1) || (l0 =? 0) then (if final then -1 else 0) else l0 in
  check (negb final || (l =? -1));;
  Some l.

(** expand_arcs, torch/fsa_algo.cu:466-605: row splits, arcs with fsas_arc_map,
    linear labels.  The limit of six attributes (481) is that of the code. *)
Definition expand_arcs_py (rs1 rs2 : list Z) (arcs : list arc) (rags : list (list Z * list Z))
    : option (list Z * list Z * list arc * list Z * list (list Z)) :=
  check (negb (zlen rags =? 0) && (zlen rags <=? 6));;
  check (forallb (fun rag : list Z * list Z => zlen (fst rag) - 1 =? zlen arcs) rags);;
  sizes <- mapM (combined_size arcs rags) (zrange (zlen arcs));;
  let cs_rs := exsum sizes in
  tot <- rd cs_rs (zlen arcs);;
  cs_ids <- row_splits_to_row_ids cs_rs tot;;
  r <- expand_arcs rs1 rs2 arcs cs_rs;;
  let '(r1, r2, out) := r in
  labs <- mapM (fun rag => mapM (linearize cs_rs cs_ids rag) out) rags;;
  Some (r1, r2, map fst out, map (fun x => fst (snd x)) out, labs).

(** Invert for ragged aux labels, fsa_algo.cu:1740-1800: row splits and arcs of
    the result, row splits and values of its aux labels, arc map.  [laux] are the
    values of the aux labels of the source.  The values of the new aux labels are
    written at the positions given by the row splits, which here is the
    concatenation of at most one value per arc. *)
Definition invert_ragged (rs1 rs2 : list Z) (arcs : list arc) (lrs laux : list Z)
    : option (list Z * list Z * list arc * (list Z * list Z) * list Z) :=
  r <- expand_arcs rs1 rs2 arcs lrs;;
  let '(r1, r2, out) := r in
  let sizes := map (fun x : arc * (Z * Z) => if lab (fst x) =? 0 then 0 else 1) out in
  new <- mapM (fun x : arc * (Z * Z) =>
           l <- (if snd (snd x) =? -1 then Some 0 else rd laux (snd (snd x)));;
           let a := fst x in Some (mkArc (src a) (dst a) l (sc a))) out;;
  Some (r1, r2, new,
        (exsum sizes, concat (map (fun x => if lab (fst x) =? 0 then [] else [lab (fst x)]) out)),
        map (fun x => fst (snd x)) out).
