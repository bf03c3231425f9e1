(** * Model of pruned_ranges_to_lattice

    /repo/k2/python/csrc/torch/pruned_ranges_to_lattice.cu:60-265.  Tensors of
    indices are lists; the scores are integers in some unit.  Left out: the
    device and dtype checks and int32 overflow. *)
From Coq Require Import ZArith List Bool.
From Verif Require Import Base RnntModel FsaSpec GraphModel.
Import ListNotations.
Open Scope Z_scope.

(** A tensor of four axes: its sizes, its strides and the memory it is a view of *)
Record tensor4 := mkT4 { t4_size : Z * Z * Z * Z; t4_stride : Z * Z * Z * Z; t4_mem : list Z }.

(** The place of an element in memory: pruned_ranges_to_lattice.cu:223-225, the
    arithmetic also done by the accessor *)
Definition t4_index (x : tensor4) (b t k c : Z) : Z :=
  let '(s0, s1, s2, s3) := t4_stride x in b * s0 + t * s1 + k * s2 + c * s3.
(** logits_a[b][t][k][c] (222, 238, 257).  The accessor does not check its
    indexes: [None] stands for the undefined result of a bad one. *)
Definition t4_at (x : tensor4) (b t k c : Z) : option Z :=
  let '(n0, n1, n2, n3) := t4_size x in
  let inr i n := (0 <=? i) && (i <? n) in
  if inr b n0 && inr t n1 && inr k n2 && inr c n3 then rd (t4_mem x) (t4_index x b t k c) else None.

(** lambda_set_num_arcs (122-153): the number of arcs leaving state [s01] *)
Definition pl_num_arcs (ranges : list (list (list Z))) (frames : list Z) (s_range : Z) (rs1 ids1 : list Z) (s01 : Z) : option Z :=
  f0 <- rd ids1 s01;;
  s0x <- rd rs1 f0;;
  let s1 := s01 - s0x in
  let t := s1 / s_range in
  let k := s1 mod s_range in
  n <- rd frames f0;;
  check (t <=? n);;
  if s1 =? n * s_range then Some 0
  else
    hor <- (if t <? n - 1 then
              x <- rd3 ranges f0 t k;;
              y <- rd3 ranges f0 (t + 1) 0;;
              Some (y <=? x)
            else Some false);;
    Some (if negb (k =? s_range - 1) && hor then 2 else 1).

(** lambda_set_arcs (187-262): the arc and its entry of arc_map.  A second index
    other than 0 and 1 leaves the arc uninitialised: [None]. *)
Definition pl_arc (ranges : list (list (list Z))) (frames : list Z) (symbols : list (list Z)) (logits : tensor4) (s_range : Z)
    (rs1 ids1 rs2 ids2 : list Z) (i : Z) : option (arc * Z) :=
  s01 <- rd ids2 i;;
  f0 <- rd ids1 s01;;
  s0x <- rd rs1 f0;;
  a01x <- rd rs2 s01;;
  let s1 := s01 - s0x in
  let a2 := i - a01x in
  let t := s1 / s_range in
  let k := s1 mod s_range in
  n <- rd frames f0;;
  if s1 =? n * s_range - 1 then Some (mkArc s1 (s1 + 1) (-1) 0, -1)
  else if k <? s_range - 1 then
    pos <- rd3 ranges f0 t k;;
    l <- rd2 symbols f0 pos;;
    if a2 =? 0 then
      x <- t4_at logits f0 t k l;;
      Some (mkArc s1 (s1 + 1) l x, t4_index logits f0 t k l)
    else if a2 =? 1 then
      nx <- rd3 ranges f0 (t + 1) 0;;
      let d := pos - nx in
      check (0 <=? d);;
      x <- t4_at logits f0 t k 0;;
      Some (mkArc s1 (d + (t + 1) * s_range) 0 x, t4_index logits f0 t k 0)
    else None
  else
    check (a2 =? 0);;
    pos <- rd3 ranges f0 t k;;
    nx <- rd3 ranges f0 (t + 1) 0;;
    let d := pos - nx in
    x <- t4_at logits f0 t k 0;;
    Some (mkArc s1 (d + (t + 1) * s_range) 0 x, t4_index logits f0 t k 0).

(** PrunedRangesToLattice (60-265); T and s_range are ranges.size(1) and
    ranges.size(2).  The states (102-110): s_range per frame and a super-final one. *)
Definition pruned_ranges_to_lattice (ranges : list (list (list Z))) (T s_range : Z) (frames : list Z) (symbols : list (list Z))
    (logits : tensor4) : option (fsavec * list Z) :=
  ns <- mapM (fun b => n <- rd frames b;; check (n <=? T);; Some (n * s_range + 1)) (zrange (zlen ranges));;
  let rs1 := exsum ns in
  build_vec rs1 (fun ids1 => pl_num_arcs ranges frames s_range rs1 ids1)
            (fun ids1 rs2 ids2 => pl_arc ranges frames symbols logits s_range rs1 ids1 rs2 ids2).
