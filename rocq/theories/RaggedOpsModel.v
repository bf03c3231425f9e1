(** * Model of the N-axis ragged operations: IndexAxis0, Index by a ragged
    index, StackAxis0/Cat, RemoveAxis, CreateRagged2, ToList, PadRagged,
    SortSublists. *)
From Coq Require Import ZArith List Lia Bool.
From Verif Require Import Base RaggedModel.
Import ListNotations.
Open Scope Z_scope.

(** k2/csrc/ragged.h RaggedShapeLayer (row_splits, row_ids); the
    [cached_tot_size] field is the last row split and is not stored. *)
Record layer := mk_layer { l_rs : list Z; l_ids : list Z }.
(** RaggedShape: the vector of layers; axis a > 0 is [nth (a-1)].  The values
    of a Ragged<T> are kept beside it. *)

(** ragged_ops.cu:378-425 GetOldAndNewOffsets, the kernel at lines 400-421.
    The C++ loops over the axes for each index i; the model goes axis by axis
    for all i (the body for index i reads only its own values).  An element is
    the pair (old_offset, old_offset_next) at the current axis. *)
Definition first_offsets (new2old : list Z) : list (Z * Z) :=
  map (fun j => (if j =? -1 then 0 else j, j + 1)) new2old.
Definition next_offsets (rs : list Z) (cur : list (Z * Z)) : option (list (Z * Z)) :=
  mapM (fun p => lo <- rd rs (fst p);; hi <- rd rs (snd p);; Some (lo, hi)) cur.
(** ragged_ops.cu:417-421 offset_diff, then ExclusiveSum (423). *)
Definition new_offsets (cur : list (Z * Z)) : list Z :=
  exsum (map (fun p => snd p - fst p) cur).

(** ragged_ops.cu:493-541 lambda_set_row_splits_and_ids, row-splits part, for
    one axis with [axis + 1 < num_axes]; [rs] = old_row_splits_acc(axis).
    [comp] are the composed row ids (lines 463-469). *)
Definition index_splits (n0 : Z) (old new : list Z) (old_next new_next : list Z)
           (comp rs : list Z) : option (list Z) :=
  tot <- rd new n0;;
  mapM (fun i =>
    idx0 <- (if i =? tot then Some n0 else rd comp i);;
    job_begin <- rd new idx0;;
    check (0 <=? i - job_begin);;
    nn <- rd new_next idx0;;
    if i <? tot then
      old_offset <- rd old idx0;;
      old_next_offset <- rd old_next idx0;;
      v <- rd rs (old_offset + (i - job_begin));;
      Some (nn - old_next_offset + v)
    else Some nn) (zrange (tot + 1)).

(** the row-ids part (lines 513-525, axis != 1). *)
Definition index_ids (n0 : Z) (old_prev new_prev old new comp ids : list Z)
  : option (list Z) :=
  tot <- rd new n0;;
  mapM (fun i =>
    idx0 <- rd comp i;;
    job_begin <- rd new idx0;;
    np <- rd new_prev idx0;;
    op <- rd old_prev idx0;;
    oo <- rd old idx0;;
    old_row_id <- rd ids (oo + (i - job_begin));;
    Some (old_row_id + np - op)) (zrange tot).

(** the elem_indexes part (lines 527-528, last axis). *)
Definition index_elems (n0 : Z) (old new comp : list Z) : option (list Z) :=
  tot <- rd new n0;;
  mapM (fun i =>
    idx0 <- rd comp i;;
    job_begin <- rd new idx0;;
    oo <- rd old idx0;;
    Some (oo + (i - job_begin))) (zrange tot).

(** The axes 1 .. num_axes-1.  [prev]/[cur] are the offset pairs of the
    previous and of this axis, [nprev]/[new] their new offsets, [nrs] the new
    row_splits of the layer between them, [ids] the old row_ids of that layer
    (used for axis != 1), [layers] the remaining (deeper) old layers. *)
Fixpoint index_axes (n0 : Z) (first : bool) (prev : list (Z * Z)) (nprev : list Z)
         (cur : list (Z * Z)) (new : list Z) (nrs : list Z) (ids : list Z)
         (layers : list layer) : option (list layer * list Z) :=
  tot <- rd new n0;;
  comp <- row_splits_to_row_ids new tot;;
  nids <- (if first then Some comp
           else index_ids n0 (map fst prev) nprev (map fst cur) new comp ids);;
  match layers with
  | [] =>
      el <- index_elems n0 (map fst cur) new comp;;
      Some ([mk_layer nrs nids], el)
  | l :: t =>
      nxt <- next_offsets (l_rs l) cur;;
      nrs' <- index_splits n0 (map fst cur) new (map fst nxt) (new_offsets nxt) comp (l_rs l);;
      r <- index_axes n0 false cur new nxt (new_offsets nxt) nrs' (l_ids l) t;;
      Some (mk_layer nrs nids :: fst r, snd r)
  end.

(** ragged_ops.cu:430-565 IndexAxis0.  Lines 438-441: empty index list.
    [new_offsets] of axis 0 is 0..ans_dim0 (offset_diff = 1). *)
Definition index_axis0 (layers : list layer) (new2old : list Z)
  : option (list layer * list Z) :=
  match layers with
  | [] => None                                    (* K2_CHECK_GT(NumAxes(), 1) *)
  | l :: t =>
      let n0 := zlen new2old in
      if n0 =? 0 then Some (map (fun _ => mk_layer [0] []) layers, [])
      else
        let cur0 := first_offsets new2old in
        cur1 <- next_offsets (l_rs l) cur0;;
        index_axes n0 true cur0 (zrange (n0 + 1)) cur1 (new_offsets cur1)
                   (new_offsets cur1) (l_ids l) t
  end.

(** ragged_ops_inl.h Index(Ragged<T>, axis = 0, indexes, value_indexes):
    values are gathered through elem_indexes. *)
Definition ragged_index {A} (layers : list layer) (values : list A) (indexes : list Z)
  : option (list layer * list A * list Z) :=
  r <- index_axis0 layers indexes;;
  vs <- mapM (rd values) (snd r);;
  Some (fst r, vs, snd r).

(** ragged_ops.cu:887-913 RemoveAxis (0 < axis < NumAxes()-1 composes two
    layers; axis 0 and the last axis drop one). *)
Definition compose_layers (a b : layer) : option layer :=
  ids <- mapM (rd (l_ids a)) (l_ids b);;
  rs <- mapM (rd (l_rs b)) (l_rs a);;
  Some (mk_layer rs ids).
Definition remove_axis (layers : list layer) (axis : nat) : option (list layer) :=
  check (1 <? zlen layers);;
  check (Z.of_nat axis <=? zlen layers);;
  match axis with
  | O => Some (tl layers)
  | S k =>
      match nth_error layers k, nth_error layers (S k) with
      | Some a, Some b =>
          ab <- compose_layers a b;;
          Some (firstn k layers ++ ab :: skipn (S (S k)) layers)
      | _, _ => Some (firstn k layers)                 (* last axis *)
      end
  end.

(** ragged_ops_inl.h:535-541 Index by a ragged index: Index on axis 0 with the
    values of [indexes], ComposeRaggedShapes (ragged_ops.cu:144-160; it checks
    a.NumElements() == b.Dim0()), then optionally RemoveAxis(NumAxes()-2). *)
Definition ragged_index_ragged {A} (layers : list layer) (values : list A)
           (ilayers : list layer) (ivalues : list Z) (rm_axis : bool)
  : option (list layer * list A) :=
  r <- ragged_index layers values ivalues;;
  let s := ilayers ++ fst (fst r) in
  if rm_axis then
    s' <- remove_axis s (length s - 1)%nat;; Some (s', snd (fst r))
  else Some (s, snd (fst r)).

(** fsa_utils.cu:2161-2166 ComposeArcMaps: both arguments have two axes. *)
Definition compose_arc_maps_ragged (s1 : layer) (v1 : list Z) (s2 : layer) (v2 : list Z)
  : option (layer * list Z) :=
  r <- ragged_index_ragged [s1] v1 [s2] v2 true;;
  match r with
  | ([l], v) => Some (l, v)
  | _ => None
  end.

(** ragged_ops.cu:608-635 GetOffsets: one row per output axis, column i is the
    sum of the sizes of sources 0..i-1; row 0 counts sources. *)
Definition tot_size {A} (layers : list layer) (values : list A) : Z :=
  match layers with
  | [] => zlen values
  | l :: _ => zlen (l_rs l) - 1
  end.

(** ragged_ops.cu:689-842 StackAxis0 for two or more sources.  The layers of
    the sources are consumed level by level ([srcs] = the remaining layers of
    each source); [off] = offsets row of this axis, [offn] of the next. *)
Definition stack_splits (n : Z) (off offn : list Z) (comp : list Z) (rss : list (list Z))
  : option (list Z) :=
  tot <- rd off n;;
  mapM (fun i =>
    idx0 <- (if i =? tot then Some n else rd comp i);;
    job_begin <- rd off idx0;;
    check (0 <=? i - job_begin);;
    nn <- rd offn idx0;;
    if i <? tot then
      rs <- rd rss idx0;;
      v <- rd rs (i - job_begin);;
      Some (nn + v)
    else Some nn) (zrange (tot + 1)).
Definition stack_ids (n : Z) (off_prev off : list Z) (comp : list Z) (idss : list (list Z))
  : option (list Z) :=
  tot <- rd off n;;
  mapM (fun i =>
    idx0 <- rd comp i;;
    job_begin <- rd off idx0;;
    np <- rd off_prev idx0;;
    ids <- rd idss idx0;;
    v <- rd ids (i - job_begin);;
    Some (v + np)) (zrange tot).
Definition stack_merge_map (n : Z) (off comp : list Z) : option (list Z) :=
  tot <- rd off n;;
  mapM (fun i =>
    idx0 <- rd comp i;;
    job_begin <- rd off idx0;;
    Some (idx0 + n * (i - job_begin))) (zrange tot).

(** array_ops_inl.h:1009-1034 MergeWithMap. *)
Definition merge_with_map {A} (map_ : list Z) (n : Z) (srcs : list (list A)) : option (list A) :=
  check (zsum (map zlen srcs) =? zlen map_);;
  mapM (fun m => s <- rd srcs (m mod n);; rd s (m / n)) map_.

(** sizes on the axis whose first remaining layer is [hd]: TotSize(axis). *)
Definition heads (srcs : list (list layer)) : option (list layer) := mapM (fun l => hd_error l) srcs.

(** [off]: offsets row of the current axis (output axis k), [idss]: the row
    ids of the source layers just above (None on output axis 1), [srcs]: the
    remaining source layers, [vsz]: numbers of values of the sources. *)
Fixpoint stack_axes (fuel : nat) (n : Z) (off_prev off nrs : list Z)
         (idss : option (list (list Z))) (srcs : list (list layer)) (vsz : list Z)
  : option (list layer * list Z) :=
  tot <- rd off n;;
  comp <- row_splits_to_row_ids off tot;;
  nids <- (match idss with None => Some comp | Some ii => stack_ids n off_prev off comp ii end);;
  match fuel with
  | O =>
      mm <- stack_merge_map n off comp;;
      Some ([mk_layer nrs nids], mm)
  | S fuel =>
      ls <- heads srcs;;
      let rest := map (@tl layer) srcs in
      let sizes := match fuel with
                   | O => Some vsz
                   | S _ => hs <- heads rest;; Some (map (fun l => zlen (l_rs l) - 1) hs)
                   end in
      sz <- sizes;;
      let offn := exsum sz in
      nrs' <- stack_splits n off offn comp (map l_rs ls);;
      r <- stack_axes fuel n off offn nrs' (Some (map l_ids ls)) rest vsz;;
      Some (mk_layer nrs nids :: fst r, snd r)
  end.

(** ragged_ops.cu:689-700: one source: TrivialShape composed with it
    (row_splits [0; Dim0], merge map = 0..n-1). *)
Definition stack_axis0 (srcs : list (list layer * Z)) : option (list layer * list Z) :=
  match srcs with
  | [] => None                                       (* K2_CHECK_GT(num_srcs, 1) *)
  | [(ls, nv)] =>
      l <- hd_error ls;;
      let d0 := zlen (l_rs l) - 1 in
      Some (mk_layer [0; d0] (repeat 0 (Z.to_nat d0)) :: ls, zrange nv)
  | (ls0, _) :: _ =>
      check (forallb (fun s => zlen (fst s) =? zlen ls0) srcs);;
      hs <- heads (map fst srcs);;
      let n := zlen srcs in
      let off1 := exsum (map (fun l => zlen (l_rs l) - 1) hs) in
      stack_axes (length ls0) n (zrange (n + 1)) off1 off1 None (map fst srcs) (map snd srcs)
  end.

(** ragged_ops.cu:844-852 Cat, axis 0: StackAxis0 without its first layer;
    ragged_ops_inl.h:256-273: values merged by the merge map. *)
Definition ragged_cat0 {A} (srcs : list (list layer * list A)) : option (list layer * list A) :=
  r <- stack_axis0 (map (fun s => (fst s, zlen (snd s))) srcs);;
  vs <- merge_with_map (snd r) (zlen srcs) (map snd srcs);;
  Some (tl (fst r), vs).

(** ragged_utils.cu:83-187 IntersperseRaggedLayer, CPU branch (123-133):
    the row splits are running sums of the row lengths in the order
    (row 0 of source 0), (row 0 of source 1), ...; merge map 167-183.  The
    one-source shortcut (91-98) is modelled too. *)
Definition row_len (rs : list Z) (i : Z) : option Z :=
  a <- rd rs i;; b <- rd rs (i + 1);; Some (b - a).
Definition intersperse (rss : list (list Z)) (num_rows : Z) : option (list Z * list Z * list Z) :=
  let n := zlen rss in
  check (0 <? n);;
  check (forallb (fun rs => zlen rs =? num_rows + 1) rss);;
  if n =? 1 then
    rs <- hd_error rss;;
    tot <- rd rs num_rows;;
    ids <- row_splits_to_row_ids rs tot;;
    Some (rs, ids, zrange tot)
  else
    lens <- mapM (fun i => mapM (fun rs => row_len rs i) rss) (zrange num_rows);;
    let row_splits := exsum (concat lens) in
    tot <- rd row_splits (num_rows * n);;
    row_ids <- row_splits_to_row_ids row_splits tot;;
    mm <- mapM (fun idx01 =>
            idx0 <- rd row_ids idx01;;
            idx0x <- rd row_splits idx0;;
            rs <- rd rss (idx0 mod n);;
            src_idx0x <- rd rs (idx0 / n);;
            Some (idx0 mod n + n * (src_idx0x + (idx01 - idx0x)))) (zrange tot);;
    Some (row_splits, row_ids, mm).

(** ragged_utils.cu:256-280 SubsampleRaggedLayer, CPU branch. *)
Definition subsample (rs ids : list Z) (f : Z) : option layer :=
  let num_rows := zlen rs - 1 in
  check (num_rows mod f =? 0);;
  nrs <- mapM (fun i => rd rs (i * f)) (zrange (num_rows / f + 1));;
  Some (mk_layer nrs (map (fun r => r / f) ids)).

(** ragged_ops.cu:853-885 Cat on axis 1 of two-axis tensors (no layers above or
    below); values as in ragged_ops_inl.h:270-271. *)
Definition ragged_cat1 {A} (srcs : list (layer * list A)) : option (layer * list A) :=
  s0 <- hd_error srcs;;
  r <- intersperse (map (fun s => l_rs (fst s)) srcs) (zlen (l_rs (fst s0)) - 1);;
  l <- subsample (fst (fst r)) (snd (fst r)) (zlen srcs);;
  vs <- merge_with_map (snd r) (zlen srcs) (map snd srcs);;
  Some (l, vs).

(** ragged_ops_inl.h:779-795 CreateRagged2: the loop appends each vector to
    [values] and pushes the new size. *)
Definition create_ragged2 {A} (vecs : list (list A)) : list Z * list A :=
  fold_left (fun st vec => let values := snd st ++ vec in (fst st ++ [zlen values], values))
            vecs ([0], []).

(** ragged_any.cu:644-668 ToList for two axes / ragged.h:514-530 ToVecVec:
    row i is values[row_splits[i] .. row_splits[i+1]). *)
Definition slice {A} (l : list A) (b e : Z) : option (list A) :=
  mapM (fun i => rd l (b + i)) (zrange (e - b)).
Definition to_vec_vec {A} (rs : list Z) (values : list A) : option (list (list A)) :=
  mapM (fun i => a <- rd rs i;; b <- rd rs (i + 1);; check (a <=? b);; slice values a b)
       (zrange (zlen rs - 1)).

(** ragged_ops_inl.h:797-866 PadRagged.  [maxsz] = shape.MaxSize(1).
    [is_constant]: mode "constant" / "replicate". *)
Definition max_size (rs : list Z) : option Z :=
  lens <- mapM (row_len rs) (zrange (zlen rs - 1));;
  Some (fold_left Z.max lens 0).
Definition pad_cell {A} (rs : list Z) (values : list A) (is_constant pad_left : bool)
           (padding : A) (col_num i j : Z) : option A :=
  idx0x <- rd rs i;;
  nxt <- rd rs (i + 1);;
  let len := nxt - idx0x in
  let extra := col_num - len in
  if is_constant then
    if pad_left then
      if j <? extra then Some padding else rd values (idx0x + j - extra)
    else if j >=? len then Some padding else rd values (idx0x + j)
  else if len =? 0 then Some padding
  else if pad_left then
    if j <? extra then rd values idx0x else rd values (idx0x + j - extra)
  else if j >=? len then rd values (nxt - 1) else rd values (idx0x + j).
Definition pad_ragged {A} (rs : list Z) (values : list A) (is_constant pad_left : bool)
           (padding : A) : option (list (list A)) :=
  col_num <- max_size rs;;
  mapM (fun i => mapM (pad_cell rs values is_constant pad_left padding col_num i) (zrange col_num))
       (zrange (zlen rs - 1)).

(** std::stable_sort (used at ragged_ops_inl.h:402, 404): the result of a
    stable sort is unique, so it is modelled by insertion sort; an element is
    put in front of the first element of the (later) sorted tail that is not
    smaller. *)
Fixpoint ins {A} (lt : A -> A -> bool) (x : A) (l : list A) : list A :=
  match l with
  | [] => [x]
  | y :: t => if lt y x then y :: ins lt x t else x :: y :: t
  end.
Fixpoint stable_sort {A} (lt : A -> A -> bool) (l : list A) : list A :=
  match l with [] => [] | x :: t => ins lt x (stable_sort lt t) end.

(** ragged_ops_inl.h:386-407 SortSublistsCpu: for each row, first [order]'s
    segment is sorted by comparing the (still unsorted) values, then the
    values' segment.  The segments are consecutive, so the loop over rows
    produces the concatenation of the sorted segments. *)
Definition sort_sublists {A} (lt : A -> A -> bool) (rs : list Z) (values : list A)
  : option (list A * list Z) :=
  rows <- mapM (fun i =>
    cur <- rd rs i;; nxt <- rd rs (i + 1);; check (cur <=? nxt);;
    seg <- slice values cur nxt;;
    Some (stable_sort lt seg,
          stable_sort (fun p q => match rd values p, rd values q with
                                  | Some a, Some b => lt a b | _, _ => false end)
                      (map (fun k => cur + k) (zrange (nxt - cur)))))
    (zrange (zlen rs - 1));;
  Some (concat (map fst rows), concat (map snd rows)).
