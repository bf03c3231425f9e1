(** * Model: TopSort (k2/csrc/top_sort.cu) and RenumberFsaVec
      (k2/csrc/fsa_utils.cu:2787-2870). *)
From Coq Require Import ZArith List Lia Bool.
From Verif Require Import Base RaggedModel RaggedOpsModel FsaSpec FsaOpsModel OpsModel PropsModel ReverseModel ConnectModel.
Import ListNotations.
Open Scope Z_scope.

(** A batch: a ragged array [fsa][state] of state indexes. *)
Notation batch := (layer * list Z)%type.

Definition is_some {A} (o : option A) : bool := match o with Some _ => true | None => false end.
Definition add_to (d : Z) (c : list Z) (x : Z) : option (list Z) := y <- rd c x;; wr c x (y + d).

(** array_ops.cu:296-311 GetCounts (the CPU loop) *)
Definition get_counts (src : list Z) (n : Z) : option (list Z) :=
  foldM (add_to 1) src (repeat 0 (Z.to_nat n)).

(** top_sort.cu:241-281 InitDestStatesAndInDegree *)
Definition ts_in_degree (ord : order) (v : fsavec) (rids2 dests : list Z) : option (list Z) :=
  let num_states := zlen (v_rs2 v) - 1 in
  let num_fsas := zlen (v_rs1 v) - 1 in
  let num_arcs := zlen (v_arcs v) in
  keep <- mapM (fun i => d <- rd dests i;; s <- rd rids2 i;; Some (negb (d =? s))) (zrange num_arcs);;
  n2o <- new2old (ord (num_arcs + 1)) keep;;
  vals <- mapM (rd dests) n2o;;
  deg <- get_counts vals num_states;;
  foldM (fun deg i => this <- rd (v_rs1 v) i;; next <- rd (v_rs1 v) (i + 1);;
           if this <? next then add_to 1 deg (next - 1) else Some deg) (ord num_fsas) deg.

(** top_sort.cu:55-86 GetInitialBatch *)
Definition ts_initial (ord : order) (rids1 : list Z) (num_fsas : Z) (deg : list Z) : option batch :=
  values <- new2old (ord (zlen deg + 1)) (map (fun d => d =? 0) deg);;
  ids <- mapM (rd rids1) values;;
  rs <- row_ids_to_row_splits ids num_fsas;;
  Some (mk_layer rs ids, values).

(** top_sort.cu:297-327: every non-empty FSA has its start state first in the
    first batch.  (When the row of an FSA is empty the code looks at the state
    after it; when there is none it reads past the end: None.) *)
Definition ts_check_start (rs1 : list Z) (b : batch) : option bool :=
  flags <- mapM (fun i => s <- rd rs1 i;; e <- rd rs1 (i + 1);;
                  if s <? e then p <- rd (l_rs (fst b)) i;; first <- rd (snd b) p;; Some (first =? s) else Some true)
                (zrange (zlen rs1 - 1));;
  Some (forallb (fun x => x) flags).

(** top_sort.cu:99-112 and the shape [fsas][states][arcs]: for every arc of the
    batch its FSA, its state and its position. *)
Definition ts_arcs (rs2 : list Z) (b : batch) : option (list (Z * Z * Z)) :=
  rows <- mapM (fun i => s <- rd (snd b) i;; f <- rd (l_ids (fst b)) i;;
                         x <- rd rs2 s;; y <- rd rs2 (s + 1);;
                         Some (map (fun j => (f, s, x + j)) (zrange (y - x)))) (zrange (zlen (snd b)));;
  Some (concat rows).

(** top_sort.cu:140-165 lambda_set_arc_renumbering for one arc: the in-degrees
    and, for each arc, the state (and FSA) it released.  AtomicDecAndCompareZero
    is one step. *)
Definition ts_arc (dests : list Z) (arcs : list (Z * Z * Z)) (st : list Z * list (option (Z * Z))) (i : Z)
  : option (list Z * list (option (Z * Z))) :=
  x <- rd arcs i;; let '(f, s, p) := x in
  d <- rd dests p;;
  if d =? s then kp <- wr (snd st) i None;; Some (fst st, kp)
  else y <- rd (fst st) d;; deg <- wr (fst st) d (y - 1);;
       kp <- wr (snd st) i (if y - 1 =? 0 then Some (d, f) else None);; Some (deg, kp).

(** top_sort.cu:93-200 GetNextBatch.  Result: the in-degrees and the new batch
    (None: nullptr). *)
Definition ts_next (ord : order) (v : fsavec) (dests deg : list Z) (b : batch) : option (list Z * option batch) :=
  arcs <- ts_arcs (v_rs2 v) b;;
  st <- foldM (ts_arc dests arcs) (ord (zlen arcs)) (deg, repeat None (length arcs));;
  n2o <- new2old (ord (zlen arcs + 1)) (map is_some (snd st));;
  if zlen n2o =? 0 then Some (fst st, None)
  else
    new <- mapM (fun i => x <- rd (snd st) i;; x) n2o;;
    rs <- row_ids_to_row_splits (map snd new) (zlen (v_rs1 v) - 1);;
    r <- sort_sublists Z.ltb rs (map fst new);;
    Some (fst st, Some (mk_layer rs (map snd new), fst r)).

(** top_sort.cu:329-330: the loop, one order per iteration; None when it has
    not ended after as many iterations as there are orders. *)
Fixpoint ts_loop (ords : list order) (v : fsavec) (dests deg : list Z) (b : batch) : option (list batch) :=
  match ords with
  | [] => None
  | ord :: ords =>
      r <- ts_next ord v dests deg b;;
      match snd r with
      | None => Some [b]
      | Some b' => bs <- ts_loop ords v dests (fst r) b';; Some (b :: bs)
      end
  end.

(** top_sort.cu:209-239 GetFinalBatch *)
Definition ts_final (rs1 : list Z) : option batch :=
  let offs := exsum (fsa_nonempty rs1) in
  n <- rd offs (zlen rs1 - 1);;
  ids <- row_splits_to_row_ids offs n;;
  values <- mapM (fun i => e <- rd rs1 (i + 1);; Some (e - 1)) ids;;
  Some (mk_layer offs ids, values).

(** fsa_utils.cu:2787-2870 RenumberFsaVec.  [o2n] is filled from -1 when some
    states are dropped and from undefined memory (None) otherwise. *)
Definition renumber_o2n (ord : order) (num_states : Z) (ordering : list Z) : option (list (option Z)) :=
  foldM (fun m i => s <- rd ordering i;; wr m s (Some i)) (ord (zlen ordering))
        (repeat (if zlen ordering =? num_states then None else Some (-1)) (Z.to_nat num_states)).
Definition renumber_arc (v : fsavec) (ordering : list Z) (o2n : list (option Z)) (nrs1 nids1 nrs2 nids2 : list Z) (i : Z)
  : option (arc * Z) :=
  idx01 <- rd nids2 i;; idx01x <- rd nrs2 idx01;; idx0 <- rd nids1 idx01;; idx0x <- rd nrs1 idx0;;
  old01 <- rd ordering idx01;; old01x <- rd (v_rs2 v) old01;;
  let old012 := old01x + (i - idx01x) in
  a <- rd (v_arcs v) old012;; old0x <- rd (v_rs1 v) idx0;;
  src01 <- rd o2n (old0x + src a);; src01 <- src01;;
  check (src01 =? idx01);;
  dst01 <- rd o2n (old0x + dst a);; dst01 <- dst01;;
  check (negb (dst01 =? -1));;
  Some (mkArc (idx01 - idx0x) (dst01 - idx0x) (lab a) (sc a), old012).
Definition renumber_fsa_vec (ord : order) (v : fsavec) (ordering : list Z) : option vec_out :=
  let num_states := zlen (v_rs2 v) - 1 in
  check (zlen ordering <=? num_states);;
  o2n <- renumber_o2n ord num_states ordering;;
  num_arcs <- mapM (fun s => x <- rd (v_rs2 v) s;; y <- rd (v_rs2 v) (s + 1);; Some (y - x)) ordering;;
  rids1 <- row_splits_to_row_ids (v_rs1 v) num_states;;
  nids1 <- (if zlen ordering =? num_states then Some rids1 else mapM (rd rids1) ordering);;
  nrs1 <- (if zlen ordering =? num_states then Some (v_rs1 v) else row_ids_to_row_splits nids1 (zlen (v_rs1 v) - 1));;
  let nrs2 := exsum num_arcs in
  n <- rd nrs2 (zlen ordering);;
  nids2 <- row_splits_to_row_ids nrs2 n;;
  out <- mapM (renumber_arc v ordering o2n nrs1 nids1 nrs2 nids2) (zrange n);;
  Some (mkVOut (mkVec nrs1 nrs2 (map fst out)) nids2 (map snd out)).

(** top_sort.cu:290-343 TopSorter::TopSort; [ords]: one order per iteration of
    the loop. *)
Definition top_sort (ord : order) (ords : list order) (v : fsavec) : option vec_out :=
  let num_states := zlen (v_rs2 v) - 1 in
  let num_fsas := zlen (v_rs1 v) - 1 in
  rids1 <- row_splits_to_row_ids (v_rs1 v) num_states;;
  rids2 <- row_splits_to_row_ids (v_rs2 v) (zlen (v_arcs v));;
  dests <- dest_states01 v rids2;;
  deg <- ts_in_degree ord v rids2 dests;;
  b0 <- ts_initial ord rids1 num_fsas deg;;
  ok <- ts_check_start (v_rs1 v) b0;; check ok;;
  bs <- ts_loop ords v dests deg b0;;
  fin <- ts_final (v_rs1 v);;
  all <- ragged_cat1 (bs ++ [fin]);;
  check (zlen (snd all) =? num_states);;
  renumber_fsa_vec ord v (snd all).

(** top_sort.cu:358-372 TopSort on a single Fsa *)
Definition top_sort_single (ord : order) (ords : list order) (f : fsa) : option (fsa * list Z) :=
  o <- top_sort ord ords (fsa_to_vec f);;
  g <- vec_element (vo_vec o) 0;;
  Some (g, vo_map o).
