(** * Model of k2.compose (k2/python/k2/fsa_algo.py:416-499) on FSTs whose
      aux_labels are tensors, with inner_labels=None.

    Only labels, aux_labels (and left_labels) are followed among the attributes;
    the inputs have no other attribute called left_labels and no fillers. *)
From Coq Require Import ZArith List Lia Bool.
From Verif Require Import Base RaggedModel FsaSpec RaggedOpsModel OpsModel PropsModel FsaObjModel IntersectModel.
Import ListNotations.
Open Scope Z_scope.

(** fsa_utils.cu:2733-2761 FixFinalLabels (three axes) applied to [labels]; the
    check on a final arc is K2_CHECK_EQ(cur_aux_label, 0) *)
Definition fix_label (final : bool) (l : Z) : option Z :=
  if final then
    if negb (l =? -1) then check (l =? 0);; Some (-1) else Some l
  else if l =? -1 then Some 0 else Some l.
Definition fix_vec (v : fsavec) (labels : list Z) : option (list Z) :=
  rids1 <- row_splits_to_row_ids (v_rs1 v) (zlen (v_rs2 v) - 1);;
  rids2 <- row_splits_to_row_ids (v_rs2 v) (zlen (v_arcs v));;
  mapM (fun i =>
    a <- rd (v_arcs v) i;; s01 <- rd rids2 i;; f0 <- rd rids1 s01;;
    s0x <- rd (v_rs1 v) f0;; nx <- rd (v_rs1 v) (f0 + 1);;
    l <- rd labels i;;
    fix_label (dst a + s0x + 1 =? nx) l) (zrange (zlen (v_arcs v))).

(** fsa.py:395-409: fsa.labels = labels: the length is checked, the labels of the
    arcs are overwritten, FixFinalLabels, then the properties (VALID is required) *)
Definition relabel (v : fsavec) (labels : list Z) : fsavec :=
  mkVec (v_rs1 v) (v_rs2 v) (map (fun p => mkArc (src (fst p)) (dst (fst p)) (snd p) (sc (fst p))) (combine (v_arcs v) labels)).
Definition set_labels (sched : list Z) (v : fsavec) (labels : list Z) : option fsavec :=
  check (zlen labels =? zlen (v_arcs v));;
  l <- fix_vec v labels;;
  let v' := relabel v l in
  _ <- py_properties sched v';;
  Some v'.

(** fsa_algo.py:470-499.  [aux_b = None]: b has no aux_labels.  Invert
    (fsa.py:924-955: the labels become the aux_labels, here called left_labels as
    after line 481; FixFinalLabels is applied to the new labels, a second time
    without effect), arc_sort with its attributes, intersect with its attributes,
    and the final renaming.  Result: the FsaVec and its aux_labels. *)
Definition compose (s1 s2 s3 s4 : list Z) (eps : bool) (va : fsavec) (aux_a : list Z) (vb : fsavec) (aux_b : option (list Z))
  : option (fsavec * list Z) :=
  vi <- set_labels s1 va aux_a;;
  let left_labels := map lab (v_arcs va) in
  r <- arc_sort_py s1 vi;;
  let '(vs, m) := r in
  left_labels <- index_select1 left_labels m 0;;
  check (zlen left_labels =? zlen (v_arcs vs));;
  r <- intersect s2 s3 eps vs vb;;
  let '(vc, ma, mb) := r in
  ll <- index_select1 left_labels ma 0;;
  check (zlen ll =? zlen (v_arcs vc));;
  aux <- match aux_b with
         | Some x => index_select1 x mb 0
         | None => Some (map lab (v_arcs vc))
         end;;
  check (zlen aux =? zlen (v_arcs vc));;
  out <- set_labels s4 vc ll;;
  Some (out, aux).
