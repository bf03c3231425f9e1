(** * Model: building FSAs from arrays of arcs and from tensors, and back
      (k2/csrc/fsa.cu:236-510; the Python Fsa(tensor), Fsa.as_dict and
      Fsa.from_dict go through them, k2/python/csrc/torch/fsa.cu:72-107).

    A score is an opaque integer (the tensor holds its bit pattern).  Sizes do
    not overflow.  Results: [None] is a fatal error or undefined behaviour,
    [Some None] the error flag (the Python wrapper then raises). *)
From Coq Require Import ZArith List Lia Bool.
From Verif Require Import Base RaggedModel FsaSpec OpsModel PropsModel.
Import ListNotations.
Open Scope Z_scope.

(** fsa.cu:268-281 lambda_misc.  Every thread whose arc has label -1 reads
    final_state_data[0] and later writes it; the threads race.  An event
    (false, i) is the read of thread i, (true, i) are its writes.  State:
    final_state_data[0], final_state_data[1], and the old_value of every thread. *)
Definition misc_event (arcs : list arc) (st : Z * Z * list Z) (e : bool * Z) : option (Z * Z * list Z) :=
  let '(fin, flag, old) := st in
  a <- rd arcs (snd e);;
  if lab a =? -1 then
    if fst e then
      o <- rd old (snd e);;
      Some (dst a, (if (0 <=? o) && negb (o =? dst a) then 0 else flag), old)
    else old' <- wr old (snd e) fin;; Some (fin, flag, old')
  else Some st.
Definition lambda_misc (ev : list (bool * Z)) (arcs : list arc) : option (Z * Z) :=
  r <- foldM (misc_event arcs) ev (-1, -1, repeat (-1) (length arcs));; Some (fst r).

(** array_ops.cu:164-192 ValidateRowIds, 194-221 ValidateRowSplits *)
Definition nondecreasing (l : list Z) : option bool :=
  r <- mapM (fun i => x <- rd l i;; y <- rd l (i + 1);; Some (x <=? y)) (zrange (zlen l - 1));;
  Some (forallb (fun b => b) r).
Definition validate_row_ids (ids : list Z) : option bool :=
  if zlen ids =? 0 then Some true
  else x <- rd ids 0;; if x <? 0 then Some false else nondecreasing ids.
Definition validate_row_splits (rs : list Z) : option bool :=
  if zlen rs =? 0 then Some false
  else x <- rd rs 0;; if negb (x =? 0) then Some false else nondecreasing rs.

(** fsa.cu:236-345 FsaFromArray1 *)
Definition fsa_from_array1 (ev : list (bool * Z)) (sched : list Z) (arcs : list arc) (final_state : Z) : option (option fsa) :=
  let num_arcs := zlen arcs in
  if (num_arcs =? 0) && (final_state =? -1) then Some None
  else
    r <- lambda_misc ev arcs;;
    let '(fin, flag) := r in
    if flag =? 0 then Some None
    else if (fin <=? 0) && (final_state <=? 0) then Some None
    else if (fin <=? 0) && (num_arcs =? 0) then Some (Some (mkFsa [0] []))     (* EmptyRaggedShape *)
    else
      let fs := if negb (fin <=? 0) && (final_state =? -1) then fin else final_state in
      check (fin <=? fs);;                                  (* K2_CHECK_LE *)
      let row_ids1 := map src arcs in
      v <- validate_row_ids row_ids1;;
      if negb v then Some None
      else
        rs <- row_ids_to_row_splits row_ids1 (fs + 1);;
        back <- rd rs (fs + 1);;
        check (back =? num_arcs);;     (* else row_splits does not fit the arcs: undefined behaviour *)
        p <- fsa_props sched (mkFsa rs arcs);;
        if Z.land p (Z.lor kValid kNonempty) =? Z.lor kValid kNonempty then Some (Some (mkFsa rs arcs))
        else Some None.

(** fsa.cu:347-353 FsaToTensor, 355-377 FsaFromTensor for an int32 tensor whose
    rows are given *)
Definition arc_ints (a : arc) : list Z := [src a; dst a; lab a; sc a].
Definition ints_arc (r : list Z) : option arc :=
  match r with [s; d; l; x] => Some (mkArc s d l x) | _ => None end.
Definition fsa_to_tensor (f : fsa) : list (list Z) := map arc_ints (arcs f).
Definition fsa_from_tensor (ev : list (bool * Z)) (sched : list Z) (num_cols : Z) (t : list (list Z)) : option (option fsa) :=
  if negb (num_cols =? 4) then Some None
  else arcs <- mapM ints_arc t;; fsa_from_array1 ev sched arcs (-1).

(** Array1<Arc> over the memory of an int32 array *)
Fixpoint ints_arcs (t : list Z) : option (list arc) :=
  match t with
  | [] => Some []
  | s :: d :: l :: x :: r => q <- ints_arcs r;; Some (mkArc s d l x :: q)
  | _ => None
  end.

(** array_ops.cu:283-294 RowIdsToRowSplits on arrays *)
Definition row_ids_to_row_splits_checked (ids : list Z) (num_rows : Z) : option (list Z) :=
  check (0 <=? num_rows);;
  check ((zlen ids =? 0) || (0 <? num_rows));;
  ok <- (if 0 <? zlen ids then x <- rd ids (zlen ids - 1);; Some (x <? num_rows) else Some true);;
  check ok;;
  row_ids_to_row_splits ids num_rows.
(** array_ops.cu:223-269 ValidateRowSplitsAndIds.  row_splits are read only at
    rows in range. *)
Definition validate_row_splits_and_ids (rs ids : list Z) : option bool :=
  let num_rows := zlen rs - 1 in
  let n := zlen ids in
  if (num_rows <? 0) || ((num_rows =? 0) && (0 <? n)) then Some false
  else
    r0 <- rd rs 0;;
    i0 <- (if 0 <? n then rd ids 0 else Some 0);;
    if negb (r0 =? 0) || (i0 <? 0) then Some false
    else
      back <- rd rs num_rows;;
      if negb (n =? back) then Some false
      else
        oks <- mapM (fun i =>
          ok1 <- (if i <? num_rows then a <- rd rs i;; b <- rd rs (i + 1);; Some (a <=? b) else Some true);;
          ok2 <- (if i <? n - 1 then a <- rd ids i;; b <- rd ids (i + 1);; Some (a <=? b) else Some true);;
          ok3 <- (if i <? n then
                    row <- rd ids i;;
                    if (row <? 0) || (num_rows <=? row) then Some false
                    else a <- rd rs row;; b <- rd rs (row + 1);; Some ((a <=? i) && (i <? b))
                  else Some true);;
          Some (ok1 && ok2 && ok3)) (zrange (Z.max n num_rows));;
        Some (forallb (fun b => b) oks).

(** fsa.cu:379-475 FsaVecFromTensor for an int32 tensor with one axis *)
Definition fsa_vec_from_tensor (t : list Z) : option (option fsavec) :=
  let num_ints := zlen t in
  num_fsas <- rd t 0;;
  let arcs_start := 2 + (num_fsas + 1) * 2 in
  if (num_fsas <? 0) || (num_ints <? arcs_start) || negb ((num_ints - arcs_start) mod 4 =? 0) then Some None
  else
    let rs1 := firstn (Z.to_nat (num_fsas + 1)) (skipn 2 t) in
    let rs12 := firstn (Z.to_nat (num_fsas + 1)) (skipn (Z.to_nat (2 + num_fsas + 1)) t) in
    let num_arcs := (num_ints - arcs_start) / 4 in
    arcs <- ints_arcs (skipn (Z.to_nat arcs_start) t);;
    b <- rd rs12 num_fsas;;
    if negb (num_arcs =? b) then Some None
    else
      v1 <- validate_row_splits rs1;;
      v2 <- (if v1 then validate_row_splits rs12 else Some false);;
      if negb v2 then Some None
      else
        num_states <- rd rs1 num_fsas;;
        ids12 <- row_splits_to_row_ids rs12 num_arcs;;
        ids2 <- mapM (fun i => f <- rd ids12 i;; s0x <- rd rs1 f;; a <- rd arcs i;; Some (s0x + src a)) (zrange num_arcs);;
        rs2 <- row_ids_to_row_splits_checked ids2 num_states;;
        v <- validate_row_splits_and_ids rs2 ids2;;
        if negb v then Some None else Some (Some (mkVec rs1 rs2 arcs)).

(** fsa.cu:477-510 FsaVecToTensor (not the shortcut for an FsaVec that lies in the
    memory of a tensor with the same contents) *)
Definition fsa_vec_to_tensor (v : fsavec) : option (list Z) :=
  rs12 <- mapM (rd (v_rs2 v)) (v_rs1 v);;
  Some (zlen (v_rs1 v) - 1 :: 0 :: v_rs1 v ++ rs12 ++ concat (map arc_ints (v_arcs v))).
