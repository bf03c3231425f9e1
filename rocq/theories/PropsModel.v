(** * Model: property bits and arc sorting.

    k2/csrc/fsa.cu:54-217 GetFsaVecBasicProperties, 226-235
    GetFsaBasicProperties; k2/csrc/fsa.h:54-62 Arc::operator<, 73-100
    FsaBasicProperties; k2/csrc/fsa_algo.cu:852-867 ArcSort;
    k2/python/k2/fsa_algo.py:532-595 arc_sort; k2/python/k2/fsa.py:437-466. *)
From Coq Require Import ZArith List Lia Bool.
From Verif Require Import Base RaggedModel FsaSpec FsaOpsModel RaggedOpsModel OpsModel.
Import ListNotations.
Open Scope Z_scope.

(** fsa.h:73-100 FsaBasicProperties *)
Definition kValid := 0x01.
Definition kNonempty := 0x02.
Definition kTopSorted := 0x04.
Definition kTopSortedAndAcyclic := 0x08.
Definition kArcSorted := 0x10.
Definition kArcSortedAndDeterministic := 0x20.
Definition kEpsilonFree := 0x40.
Definition kMaybeAccessible := 0x80.
Definition kMaybeCoaccessible := 0x100.
Definition kAll := 0x1FF.

(** static_cast<uint32_t> *)
Definition u32 (l : Z) : Z := l mod 2 ^ 32.

(** fsa.h:54-62 Arc::operator< *)
Definition arc_lt (a b : arc) : bool :=
  if negb (lab a =? lab b) then u32 (lab a) <? u32 (lab b) else dst a <? dst b.

(** "if (b) neg_property |= mask" *)
Definition orif (b : bool) (mask neg : Z) : Z := if b then Z.lor neg mask else neg.

(** fsa.cu:99-160 lambda_get_properties: what index idx012 stores in
    properties[idx012] and the positions of reachable_mem it sets to 1.
    [prev_arc] is Arc{} (all zero) for idx012 = 0. *)
Definition props_body (v : fsavec) (rids1 rids2 : list Z) (idx012 : Z) : option (Z * list Z) :=
  arc <- rd (v_arcs v) idx012;;
  prev_arc <- (if 0 <? idx012 then rd (v_arcs v) (idx012 - 1) else Some (mkArc 0 0 0 0));;
  idx01 <- rd rids2 idx012;;
  idx01x <- rd (v_rs2 v) idx01;;
  idx0 <- rd rids1 idx01;;
  idx0x <- rd (v_rs1 v) idx0;;
  idx0x_next <- rd (v_rs1 v) (idx0 + 1);;
  idx0xx <- rd (v_rs2 v) idx0x;;
  let num_states := zlen (v_rs2 v) - 1 in
  let idx2 := idx012 - idx01x in
  let idx1 := idx01 - idx0x in
  let n := idx0x_next - idx0x in
  let neg := 0 in
  let neg := orif (negb (src arc =? idx1)) kValid neg in
  let neg := orif (dst arc <=? src arc) kTopSortedAndAcyclic neg in
  let neg := orif ((dst arc <=? src arc) && (dst arc <? src arc)) kTopSorted neg in
  let neg := orif (lab arc =? 0) kEpsilonFree neg in
  let neg := orif ((lab arc <? 0) && negb (lab arc =? -1)) kValid neg in
  let neg := orif ((lab arc <? 0) && (lab arc =? -1) && negb (dst arc =? n - 1)) kValid neg in
  let neg := orif (negb (lab arc =? -1) && (dst arc =? n - 1)) kValid neg in
  let neg := orif ((dst arc <? 0) || (n <=? dst arc)) kValid neg in
  let neg := orif (negb (idx2 =? 0) && (u32 (lab arc) <=? u32 (lab prev_arc))) kArcSortedAndDeterministic neg in
  let neg := orif (negb (idx2 =? 0) && (u32 (lab arc) <? u32 (lab prev_arc))) kArcSorted neg in
  let neg := orif (negb (idx2 =? 0) && ((lab arc =? lab prev_arc) && (dst arc <? dst prev_arc))) kArcSorted neg in
  let marks1 := if negb ((dst arc <? 0) || (n <=? dst arc)) && negb (dst arc =? src arc)
                then [idx0x + dst arc] else [] in
  let marks2 := if idx0xx =? idx012 then [idx0x; num_states + idx0x_next - 1] else [] in
  let marks3 := if negb (dst arc =? src arc) then [num_states + idx01] else [] in
  Some (Z.lnot neg, marks1 ++ marks2 ++ marks3).

(** The stores to reachable_mem, in the order [sched] in which the threads run. *)
Definition props_marks (sched : list Z) (body : Z -> option (Z * list Z)) (mem : list Z) : option (list Z) :=
  foldM (fun m i => r <- body i;; foldM (fun m p => wr m p 1) (snd r) m) sched mem.

(** ragged_ops.h:AndPerSublist (ragged_ops_inl.h:SegmentedReduce with BitAndOp) *)
Definition and_per_sublist (rs values : list Z) (init : Z) : option (list Z) :=
  mapM (fun i => a <- rd rs i;; b <- rd rs (i + 1);; seg <- slice values a b;;
                 Some (fold_left Z.land seg init)) (zrange (zlen rs - 1)).

(** fsa.cu:194-209 lambda_finalize_properties *)
Definition finalize_body (v : fsavec) (props reach co_reach : list Z) (i : Z) : option Z :=
  p <- rd props i;; r <- rd reach i;; c <- rd co_reach i;;
  b <- rd (v_rs1 v) i;; e <- rd (v_rs1 v) (i + 1);;
  b2 <- rd (v_rs2 v) b;; e2 <- rd (v_rs2 v) e;;
  let neg := Z.lnot p in
  let neg := orif (r =? 0) kMaybeAccessible neg in
  let neg := orif (c =? 0) kMaybeCoaccessible neg in
  let neg := orif (b2 =? e2) kNonempty neg in
  Some (Z.lnot neg).

(** fsa.cu:54-217 GetFsaVecBasicProperties; result: properties per FSA and
    their conjunction. *)
Definition vec_props (sched : list Z) (v : fsavec) : option (list Z * Z) :=
  let num_arcs := zlen (v_arcs v) in
  let num_states := zlen (v_rs2 v) - 1 in
  let num_fsas := zlen (v_rs1 v) - 1 in
  rids1 <- row_splits_to_row_ids (v_rs1 v) num_states;;
  rids2 <- row_splits_to_row_ids (v_rs2 v) num_arcs;;
  rs <- mapM (props_body v rids1 rids2) (zrange num_arcs);;
  mem <- props_marks sched (props_body v rids1 rids2) (repeat 0 (Z.to_nat (num_states * 2)));;
  reachable <- slice mem 0 num_states;;
  co_reachable <- slice mem num_states (num_states * 2);;
  fsa_to_arcs <- mapM (rd (v_rs2 v)) (v_rs1 v);;       (* RemoveAxis(shape, 1) *)
  props <- and_per_sublist fsa_to_arcs (map fst rs) kAll;;
  reach <- and_per_sublist (v_rs1 v) reachable 1;;
  co_reach <- and_per_sublist (v_rs1 v) co_reachable 1;;
  per_fsa <- mapM (finalize_body v props reach co_reach) (zrange num_fsas);;
  Some (per_fsa, fold_left Z.land per_fsa kAll).

(** fsa.cu:219-235 GetFsaBasicProperties / FsaToFsaVec (Unsqueeze) *)
Definition fsa_to_vec (f : fsa) : fsavec :=
  mkVec [0; num_states f] (row_splits f) (arcs f).
Definition fsa_props (sched : list Z) (f : fsa) : option Z :=
  r <- vec_props sched (fsa_to_vec f);; Some (snd r).

(** fsa.py:437-466 Fsa.properties (first access): raises if not VALID *)
Definition py_properties (sched : list Z) (v : fsavec) : option Z :=
  r <- vec_props sched v;;
  check (Z.land (snd r) kValid =? 1);; Some (snd r).

(** fsa_algo.cu:857-867 ArcSort: SortSublists on the last axis; the arc map is
    its order map. *)
Definition arc_sort (v : fsavec) : option (fsavec * list Z) :=
  r <- sort_sublists arc_lt (v_rs2 v) (v_arcs v);;
  Some (mkVec (v_rs1 v) (v_rs2 v) (fst r), snd r).

(** fsa_algo.py:575-595 arc_sort (arcs and arc map; the propagation of the
    attributes is modelled in AttrModel.v) *)
Definition arc_sort_py (sched : list Z) (v : fsavec) : option (fsavec * list Z) :=
  p <- py_properties sched v;;
  if negb (Z.land p kArcSorted =? 0) then Some (v, zrange (zlen (v_arcs v)))
  else arc_sort v.
