(** * Model: Reverse (k2/csrc/reverse.cu) and the helpers it uses. *)
From Coq Require Import ZArith List Lia Bool.
From Verif Require Import Base RaggedModel RaggedOpsModel FsaSpec FsaOpsModel OpsModel PropsModel.
Import ListNotations.
Open Scope Z_scope.

(** k2/csrc/fsa_utils.cu:650-677 GetDestStates(fsas, as_idx01 = true) *)
Definition dest_states01 (v : fsavec) (rids2 : list Z) : option (list Z) :=
  mapM (fun i => a <- rd (v_arcs v) i;; s <- rd rids2 i;; Some (dst a + (s - src a)))
       (zrange (zlen (v_arcs v))).

(** k2/csrc/ragged_ops.cu:1482-1500 GetTransposeReorderingCpu: one push_back
    per element, then the columns are copied one after the other.  An element
    out of [0, num_cols) is undefined behaviour: [None]. *)
Definition transpose_reordering (values : list Z) (num_cols : Z) : option (list Z) :=
  cols <- foldM (fun cols i => bucket <- rd values i;; col <- rd cols bucket;; wr cols bucket (col ++ [i]))
                (zrange (zlen values)) (repeat [] (Z.to_nat num_cols));;
  Some (concat cols).

(** k2/csrc/fsa_utils.cu:901-928 GetIncomingArcs: (row_splits2, row_ids2,
    values); axis 1 is that of the input. *)
Definition incoming_arcs (num_states : Z) (dests : list Z) : option (list Z * list Z * list Z) :=
  order <- transpose_reordering dests num_states;;
  ids2 <- mapM (rd dests) order;;
  rs2 <- row_ids_to_row_splits ids2 num_states;;
  Some (rs2, ids2, order).

(** reverse.cu:94-125 ConstructStateMapping, lambda_set_old2new_map *)
Definition rev_old2new_body (v : fsavec) (rids1 offset : list Z) (idx01 : Z) : option Z :=
  idx0 <- rd rids1 idx01;;
  idx0x <- rd (v_rs1 v) idx0;;
  nx <- rd (v_rs1 v) (idx0 + 1);;
  off <- rd offset idx0;;
  let fin := nx - 1 in
  Some (off + (if idx01 =? idx0x then fin else if idx01 =? fin then idx0x else idx01)).

(** reverse.cu:152-184 CreateReversedArcSahpe,
    lambda_set_num_arcs_per_reversed_state *)
Definition rev_count_body (v : fsavec) (rids1 inc_rs2 old2new : list Z) (idx01 : Z) : option (list (Z * Z)) :=
  idx0 <- rd rids1 idx01;;
  idx0x <- rd (v_rs1 v) idx0;;
  b <- rd inc_rs2 idx01;;
  e <- rd inc_rs2 (idx01 + 1);;
  t <- rd old2new idx01;;
  Some [(t, (if idx01 =? idx0x then 1 else 0) + (e - b))].

(** reverse.cu:220-274 lambda_map_original_arcs; writes (arc, arc map) *)
Definition rev_arc_body (v : fsavec) (rids2 inc_rs2 inc_ids2 order old2new rrs1 rids1' rrs2 : list Z) (p : Z)
  : option (list (Z * (arc * Z))) :=
  i <- rd order p;;
  dest01 <- rd inc_ids2 p;;
  inc01x <- rd inc_rs2 dest01;;
  let idx2 := p - inc01x in
  rev01 <- rd old2new dest01;;
  rev01x <- rd rrs2 rev01;;
  a <- rd (v_arcs v) i;;
  src01 <- rd rids2 i;;
  ndest01 <- rd old2new src01;;
  ndest0 <- rd rids1' ndest01;;
  ndest0x <- rd rrs1 ndest0;;
  let adest01 := dst a + (src01 - src a) in
  nsrc01 <- rd old2new adest01;;
  nsrc0 <- rd rids1' nsrc01;;
  nsrc0x <- rd rrs1 nsrc0;;
  Some [(rev01x + idx2,
         (mkArc (nsrc01 - nsrc0x) (ndest01 - ndest0x) (if lab a =? -1 then 0 else lab a) (sc a), i))].

(** reverse.cu:281-309 lambda_add_external_final_arc *)
Definition rev_final_body (nonempty rrs1 rrs2 : list Z) (i : Z) : option (list (Z * (arc * Z))) :=
  ne <- rd nonempty i;;
  if ne =? 0 then Some []
  else
    b <- rd rrs1 i;; e <- rd rrs1 (i + 1);;
    let dest1 := e - 1 - b in
    nx <- rd rrs2 e;;
    Some [(nx - 1, (mkArc (dest1 - 1) dest1 (-1) 0, -1))].

(** reverse.cu:317-336 Reverser::Reverse.  The two kernels that fill the arcs
    run one after the other; here any interleaving is allowed. *)
Definition reverse (sched1 sched2 : list Z) (v : fsavec) : option vec_out :=
  let num_states := zlen (v_rs2 v) - 1 in
  let num_fsas := zlen (v_rs1 v) - 1 in
  rids1 <- row_splits_to_row_ids (v_rs1 v) num_states;;
  rids2 <- row_splits_to_row_ids (v_rs2 v) (zlen (v_arcs v));;
  dests <- dest_states01 v rids2;;
  inc <- incoming_arcs num_states dests;;
  let '(inc_rs2, inc_ids2, order) := inc in
  let nonempty := fsa_nonempty (v_rs1 v) in                 (* CollectNonEmptyFsas, 52-75 *)
  let offset := exsum nonempty in
  old2new <- mapM (rev_old2new_body v rids1 offset) (zrange num_states);;
  rrs1 <- mapM (fun i => a <- rd offset i;; b <- rd (v_rs1 v) i;; Some (a + b)) (zrange (num_fsas + 1));;
  nrev <- rd rrs1 num_fsas;;
  carr <- k2_eval sched1 (rev_count_body v rids1 inc_rs2 old2new)
                  (repeat (Some 0) (Z.to_nat (nrev + 1)));;
  counts <- freeze carr;;
  let rrs2 := exsum (firstn (Z.to_nat nrev) counts) in
  rids1' <- row_splits_to_row_ids rrs1 nrev;;
  narcs <- rd rrs2 nrev;;
  rids2' <- row_splits_to_row_ids rrs2 narcs;;
  out <- k2_fill narcs sched2
           (seq_body (zlen order) (rev_arc_body v rids2 inc_rs2 inc_ids2 order old2new rrs1 rids1' rrs2)
                     (rev_final_body nonempty rrs1 rrs2));;
  Some (mkVOut (mkVec rrs1 rrs2 (map fst out)) rids2' (map snd out)).

(** k2/csrc/ragged.cu:172-218 RaggedShape::Index (axis 0), ragged.h:442-448,
    fsa.h:336 GetFsaVecElement (row ids, a function of the row splits, are
    left out). *)
Definition vec_element (v : fsavec) (i : Z) : option fsa :=
  check (0 <=? i);; check (i + 1 <? zlen (v_rs1 v));;
  if (i =? 0) && (zlen (v_rs1 v) - 1 =? 1) then Some (mkFsa (v_rs2 v) (v_arcs v))
  else
    b <- (if i =? 0 then Some 0 else rd (v_rs1 v) i);; e <- rd (v_rs1 v) (i + 1);;
    bn <- (if b =? 0 then Some 0 else rd (v_rs2 v) b);; en <- rd (v_rs2 v) e;;
    rs <- slice (v_rs2 v) b (e + 1);;
    vals <- slice (v_arcs v) bn en;;
    Some (mkFsa (map (fun x => x - bn) rs) vals).

(** reverse.cu:344-362 Reverse on a single Fsa *)
Definition reverse_single (sched1 sched2 : list Z) (f : fsa) : option (fsa * list Z) :=
  o <- reverse sched1 sched2 (fsa_to_vec f);;
  g <- vec_element (vo_vec o) 0;;
  Some (g, vo_map o).
