(** * Model: Connect (k2/csrc/connect.cu). *)
From Coq Require Import ZArith List Lia Bool.
From Verif Require Import Base RaggedModel RaggedOpsModel FsaSpec FsaOpsModel OpsModel PropsModel ReverseModel.
Import ListNotations.
Open Scope Z_scope.

(** An execution order for kernels: [ord n] is the order in which the indexes
    0..n-1 of a kernel run. *)
Notation order := (Z -> list Z) (only parsing).

(** connect.cu:77-86 (and 160-171): the arcs of the states of a batch.  The
    ragged shape [fsa][state][arc] is represented by the list of its elements,
    each with its state and its position among all arcs (positions
    num_arcs_per_state are turned into rows by ComposeRaggedShapes). *)
Definition batch_arcs (rs2 states : list Z) : option (list (Z * Z)) :=
  rows <- mapM (fun s => b <- rd rs2 s;; e <- rd rs2 (s + 1);;
                         Some (map (fun j => (s, b + j)) (zrange (e - b)))) states;;
  Some (concat rows).

(** connect.cu:55-136 GetNextBatch and 145-235 GetNextBatchBackward.  The two
    differ in the row splits, in how the state at the other end of an arc is
    found ([other]) and in what is done for a state already marked ([skip]).
    The result is the new flags and the next batch (None: nullptr).  The row
    structure of the batch, which only says what FSA a state belongs to, is
    left out. *)
Definition next_batch (ord : order) (rs2 : list Z) (other : Z -> Z -> option Z)
    (skip : list bool -> Z -> option (list bool)) (marked : list bool) (states : list Z)
    : option (list bool * option (list Z)) :=
  marked' <- foldM (fun m i => s <- rd states i;; wr m s true) (ord (zlen states)) marked;;
  arcs <- batch_arcs rs2 states;;
  keep <- foldM (fun kp i => p <- rd arcs i;; t <- other (fst p) (snd p);; mt <- rd marked' t;;
                             if (t =? fst p) || mt then skip kp t else wr kp t true)
                (ord (zlen arcs)) (repeat false (length marked));;
  new <- new2old (ord (zlen keep + 1)) keep;;
  Some (marked', if zlen new =? 0 then None else Some new).

(** connect.cu:95-111: the destination of an arc; nothing is written when it is
    already accessible. *)
Definition fwd_other (dests : list Z) (s i : Z) : option Z := rd dests i.
Definition fwd_skip (kp : list bool) (t : Z) : option (list bool) := Some kp.

(** connect.cu:182-209: the source of the i'th incoming arc. *)
Definition bwd_other (v : fsavec) (rids1 inc : list Z) (s i : Z) : option Z :=
  idx0 <- rd rids1 s;; arc_idx <- rd inc i;; a <- rd (v_arcs v) arc_idx;;
  idx0x <- rd (v_rs1 v) idx0;; Some (idx0x + src a).
Definition bwd_skip (kp : list bool) (t : Z) : option (list bool) := wr kp t false.

(** connect.cu:241-272 GetStartBatch, 279-311 GetFinalBatch (also
    top_sort.cu:207-239).  The K2_DCHECKs are off in release builds. *)
Definition end_batch (rs1 : list Z) (pick : Z -> option Z) : option (list Z) :=
  let offs := exsum (fsa_nonempty rs1) in
  n <- rd offs (zlen rs1 - 1);;
  ids <- row_splits_to_row_ids offs n;;
  mapM pick ids.
Definition start_batch (rs1 : list Z) : option (list Z) := end_batch rs1 (rd rs1).
Definition final_batch (rs1 : list Z) : option (list Z) :=
  end_batch rs1 (fun i => e <- rd rs1 (i + 1);; Some (e - 1)).

(** The two tasks of the thread pool (connect.cu:313-339, 352-357): their
    flags and current batches. *)
Record cst := mkC { c_acc : list bool; c_fw : option (list Z); c_co : list bool; c_bw : option (list Z) }.

(** One iteration of the loop of the task chosen ([true]: the forward pass),
    whose kernels run in the given order. *)
Definition conn_step (v : fsavec) (rids1 dests inc_rs2 inc : list Z) (st : cst) (ch : bool * order) : option cst :=
  if fst ch then
    match c_fw st with
    | None => Some st
    | Some b => r <- next_batch (snd ch) (v_rs2 v) (fwd_other dests) fwd_skip (c_acc st) b;;
                Some (mkC (fst r) (snd r) (c_co st) (c_bw st))
    end
  else
    match c_bw st with
    | None => Some st
    | Some b => r <- next_batch (snd ch) inc_rs2 (bwd_other v rids1 inc) bwd_skip (c_co st) b;;
                Some (mkC (c_acc st) (c_fw st) (fst r) (snd r))
    end.

(** connect.cu:359-362, 385-401: the keep flags *)
Definition conn_keep_arc (v : fsavec) (rids2 : list Z) (acc co : list bool) (i : Z) : option bool :=
  a <- rd (v_arcs v) i;; s01 <- rd rids2 i;;
  let d01 := dst a - src a + s01 in
  x1 <- rd acc s01;; x2 <- rd co s01;; x3 <- rd acc d01;; x4 <- rd co d01;;
  Some (x1 && x2 && x3 && x4).

(** connect.cu:432-473 lambda_set_arcs *)
Definition conn_arc (v : fsavec) (rids1 rids2 o2n nrs1 nids1 : list Z) (i : Z) : option arc :=
  idx01 <- rd rids2 i;; idx0 <- rd rids1 idx01;; idx0x <- rd (v_rs1 v) idx0;;
  a <- rd (v_arcs v) i;;
  ns01 <- rd o2n (idx0x + src a);; ns0 <- rd nids1 ns01;; ns0x <- rd nrs1 ns0;;
  nd01 <- rd o2n (idx0x + dst a);; nd0 <- rd nids1 nd01;; nd0x <- rd nrs1 nd0;;
  Some (mkArc (ns01 - ns0x) (nd01 - nd0x) (lab a) (sc a)).

Definition is_none {A} (o : option A) : bool := match o with None => true | _ => false end.

(** connect.cu:346-483 Connector::Connect.  [choices] is the interleaving of
    the two tasks; WaitAllTasksFinished returns when both loops have ended. *)
Definition connect (ord : order) (choices : list (bool * order)) (v : fsavec) : option vec_out :=
  let num_states := zlen (v_rs2 v) - 1 in
  let num_fsas := zlen (v_rs1 v) - 1 in
  let num_arcs := zlen (v_arcs v) in
  rids1 <- row_splits_to_row_ids (v_rs1 v) num_states;;
  rids2 <- row_splits_to_row_ids (v_rs2 v) num_arcs;;
  dests <- dest_states01 v rids2;;
  inc <- incoming_arcs num_states dests;;
  let '(inc_rs2, _, incs) := inc in
  start <- start_batch (v_rs1 v);;
  fin <- final_batch (v_rs1 v);;
  let none := repeat false (Z.to_nat num_states) in
  st <- foldM (conn_step v rids1 dests inc_rs2 incs) choices (mkC none (Some start) none (Some fin));;
  check (is_none (c_fw st) && is_none (c_bw st));;
  keep_states <- mapM (fun i => a <- rd (c_acc st) i;; c <- rd (c_co st) i;; Some (a && c)) (zrange num_states);;
  n2o <- new2old (ord (num_states + 1)) keep_states;;
  let o2n := firstn (Z.to_nat num_states) (old2new keep_states) in
  nids1 <- mapM (rd rids1) n2o;;
  nrs1 <- row_ids_to_row_splits nids1 num_fsas;;
  keep_arcs <- mapM (conn_keep_arc v rids2 (c_acc st) (c_co st)) (zrange num_arcs);;
  an2o <- new2old (ord (num_arcs + 1)) keep_arcs;;
  nids2 <- mapM (fun i => s <- rd rids2 i;; rd o2n s) an2o;;
  nrs2 <- row_ids_to_row_splits nids2 (zlen n2o);;
  arcs <- mapM (conn_arc v rids1 rids2 o2n nrs1 nids1) an2o;;
  Some (mkVOut (mkVec nrs1 nrs2 arcs) nids2 an2o).

(** connect.cu:504-518 Connect on a single Fsa *)
Definition connect_single (ord : order) (choices : list (bool * order)) (f : fsa) : option (fsa * list Z) :=
  o <- connect ord choices (fsa_to_vec f);;
  g <- vec_element (vo_vec o) 0;;
  Some (g, vo_map o).

(** fsa_algo.py:502-529 connect (arcs and arc map): an FSA whose properties say
    ACCESSIBLE and COACCESSIBLE is returned as it is. *)
Definition connect_py (sched : list Z) (ord : order) (choices : list (bool * order)) (v : fsavec) : option (fsavec * list Z) :=
  p <- py_properties sched v;;
  if negb (Z.land p 0x80 =? 0) && negb (Z.land p 0x100 =? 0) then Some (v, zrange (zlen (v_arcs v)))
  else o <- connect ord choices v;; Some (vo_vec o, vo_map o).
