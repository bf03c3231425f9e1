(** * Model: ShortestPath (k2/csrc/fsa_algo.cu:869-1144), FsaVecFromArcIndexes
      (k2/csrc/fsa_utils.cu:2079-2160), k2.shortest_path
      (k2/python/k2/fsa_algo.py:598-620) and the tropical backward of the total score
      (k2/python/csrc/torch/fsa.cu:494-541, k2/python/k2/autograd.py:93-106). *)
From Coq Require Import ZArith List Lia Bool Reals.
From Verif Require Import Base RaggedModel FsaSpec RaggedOpsModel LogReal ScoreModel.
Import ListNotations.
Open Scope Z_scope.

(** fsa_algo.cu:946-963 lambda_set_entering_arcs_powers: from the arcs of n-step
    tracebacks to those of 2n-step ones.  -1: none. *)
Definition sp_square (v : fsavec) (rids1 src_row : list Z) : option (list Z) :=
  mapM (fun s => k <- rd rids1 s;; b <- rd (v_rs1 v) k;; q <- rd src_row s;;
                 if q =? -1 then Some (-1) else a <- rd (v_arcs v) q;; rd src_row (src a + b))
       (zrange (zlen (v_rs2 v) - 1)).
Fixpoint sp_powers (v : fsavec) (rids1 : list Z) (n : nat) (row : list Z) : option (list (list Z)) :=
  match n with
  | O => Some [row]
  | S n' => sq <- sp_square v rids1 row;; r <- sp_powers v rids1 n' sq;; Some (row :: r)
  end.

(** fsa_algo.cu:1020-1033: go [task] steps back; the inner None is [return]. *)
Fixpoint sp_advance (arcs : list arc) (powers : list (list Z)) (task b : Z) (m : Z) (n : nat) (i cur : Z) : option (option (Z * Z)) :=
  match n with
  | O => Some (Some (i, cur))
  | S n' =>
      if Z.testbit task m then
        p <- rd powers m;; q <- rd p cur;;
        if q =? -1 then Some None
        else a <- rd arcs q;; sp_advance arcs powers task b (m + 1) n' (i + 2 ^ m) (src a + b)
      else sp_advance arcs powers task b (m + 1) n' i cur
  end.
(** fsa_algo.cu:1072-1106: the loop of a task.  Result: the arcs it writes (with
    their distance to the end of the path) and the number of arcs it writes, if
    any.  The loop ends because paths do; [fuel] is the number of states. *)
Fixpoint sp_loop (arcs : list arc) (p0 pl : list Z) (b jobs : Z) (fuel : nat) (cur next idx prev : Z) : option (list (Z * Z) * option Z) :=
  if idx =? -1 then
    q <- rd p0 prev;;
    Some ([], if q =? -1 then Some (if prev =? b then cur + 1 else 0) else None)
  else match fuel with
  | O => None
  | S fuel' =>
      a <- rd arcs idx;;
      idx' <- rd pl (src a + b);;
      r <- sp_loop arcs p0 pl b jobs fuel' next (next + jobs) idx' (src a + b);;
      Some ((next, idx) :: fst r, snd r)
  end.
(** fsa_algo.cu:979-1107 lambda_set_numbert_best_arcs2 for one (fsas_idx0, task_idx).
    The memory holds state_best_arc_index_array and after it num_best_arcs_per_fsa. *)
Definition sp_job (v : fsavec) (powers : list (list Z)) (log_power : nat) (k task : Z) : option (list (Z * Z)) :=
  let num_states := zlen (v_rs2 v) - 1 in
  b <- rd (v_rs1 v) k;; e <- rd (v_rs1 v) (k + 1);;
  ba <- rd (v_rs2 v) b;; ea <- rd (v_rs2 v) e;;
  if (ea - ba =? 0) || (e - b =? 0) then Some [(num_states + k, 0)]
  else if (ea - ba <? task + 1) || (e - b <=? task + 1) then Some []
  else
    r <- sp_advance (v_arcs v) powers task b 0 log_power 0 (e - 1);;
    match r with
    | None => Some []
    | Some (i, cur) =>
        p0 <- rd powers 0;; q <- rd p0 cur;;
        if q =? -1 then Some []
        else
          a <- rd (v_arcs v) q;;
          check (i =? task);;
          pl <- rd powers (Z.of_nat log_power);;
          l <- sp_loop (v_arcs v) p0 pl b (2 ^ Z.of_nat log_power) (Z.to_nat (e - b)) i i q (src a + b);;
          Some (map (fun w => (e - 1 - fst w, snd w)) (fst l) ++ match snd l with Some n => [(num_states + k, n)] | None => [] end)
    end.

(** ShortestPath: row splits and arc indexes.  [log_power]: 0 on CPU, at most 4 on
    GPU.  jobs_multiple only drops threads.  [sched]: the order of the tasks. *)
Definition shortest_path_indexes (log_power : nat) (sched : list Z) (v : fsavec) (entering : list Z) : option (list Z * list Z) :=
  let num_states := zlen (v_rs2 v) - 1 in
  let num_fsas := zlen (v_rs1 v) - 1 in
  let jobs := 2 ^ Z.of_nat log_power in
  rids1 <- row_splits_to_row_ids (v_rs1 v) num_states;;
  powers <- sp_powers v rids1 log_power entering;;
  mem <- k2_eval sched (fun p => sp_job v powers log_power (p / jobs) (p mod jobs))
           (repeat (Some (-1)) (Z.to_nat num_states) ++ repeat (Some 0) (Z.to_nat num_fsas));;
  nb <- mapM (fun k => x <- rd mem (num_states + k);; x) (zrange num_fsas);;
  let rs := exsum nb in
  n <- rd rs num_fsas;;
  ids <- row_splits_to_row_ids rs n;;
  vals <- mapM (fun i => k <- rd ids i;; o <- rd rs k;; o' <- rd rs (k + 1);; e <- rd (v_rs1 v) (k + 1);;
                         x <- rd mem (e - 1 - (o' - o) + 1 + (i - o));; x) (zrange n);;
  Some (rs, vals).

(** ragged_ops.cu:1753-1789 ChangeSublistSizePinned, two axes: row splits *)
Definition change_sublist_size_pinned (rs : list Z) (delta : Z) : option (list Z) :=
  sz <- mapM (fun i => x <- rd rs i;; y <- rd rs (i + 1);;
                Some (if (y - x =? 0) || (y - x + delta <=? 0) then 0 else y - x + delta)) (zrange (zlen rs - 1));;
  Some (exsum sz).

(** FsaVecFromArcIndexes.  [sched]: the order in which the threads write
    row_splits2. *)
Definition fsavec_from_arc_indexes (sched : list Z) (v : fsavec) (rs idx : list Z) : option fsavec :=
  srs <- change_sublist_size_pinned rs 1;;
  let num_fsas := zlen (v_rs1 v) - 1 in
  check (num_fsas =? zlen rs - 1);;
  num_states <- rd srs num_fsas;;
  let num_arcs := zlen idx in
  if num_arcs =? 0 then Some (mkVec (map (fun _ => 0) (zrange (num_fsas + 1))) [0] [])
  else
    ids <- row_splits_to_row_ids rs num_arcs;;
    arcs <- mapM (fun i => k <- rd ids i;; o <- rd rs k;; q <- rd idx i;; a <- rd (v_arcs v) q;;
                           Some (mkArc (i - o) (i - o + 1) (lab a) (sc a))) (zrange num_arcs);;
    rs2 <- k2_fill (num_states + 1) sched (fun i =>
             k <- rd ids i;; o <- rd rs k;; o' <- rd rs (k + 1);; so <- rd srs k;;
             let s := so + (i - o) in
             Some ([(s + 1, i + 1)] ++ (if i =? 0 then [(0, 0)] else []) ++ (if i - o + 1 =? o' - o then [(s + 2, i + 1)] else [])));;
    Some (mkVec srs rs2 arcs).

(** fsa_algo.py:598-620 shortest_path (and python/csrc/torch/fsa_algo.cu:
    PybindShortestPath): the FSAs and arc_map. *)
Definition shortest_path (log_power : nat) (sched : list Z) (ord : Z -> list Z) (v : fsavec) (scores : list (option R))
    (log_power' : nat) (sched' : list Z) : option (fsavec * list Z) :=
  fw <- get_forward_scores false log_power sched ord v scores;;
  r <- shortest_path_indexes log_power' sched' v (snd fw);;
  o <- fsavec_from_arc_indexes (ord (zlen (snd r))) v (fst r) (snd r);;
  Some (o, snd r).

(** autograd.py:93-106 and torch/fsa.cu:494-541 GetTotScoresTropicalBackward *)
Definition tot_scores_backward_tropical (log_power : nat) (sched : list Z) (ord : Z -> list Z) (v : fsavec) (scores : list (option R))
    (log_power' : nat) (sched' : list Z) (tot_grad : list R) : option (list R) :=
  fw <- get_forward_scores false log_power sched ord v scores;;
  r <- shortest_path_indexes log_power' sched' v (snd fw);;
  check (zlen (fst r) =? zlen (v_rs1 v));; check (zlen tot_grad =? zlen (v_rs1 v) - 1);;
  rids1 <- row_splits_to_row_ids (v_rs1 v) (zlen (v_rs2 v) - 1);;
  rids2 <- row_splits_to_row_ids (v_rs2 v) (zlen (v_arcs v));;
  m <- k2_eval (ord (zlen (snd r))) (fun i => q <- rd (snd r) i;; s <- rd rids2 q;; k <- rd rids1 s;; g <- rd tot_grad k;; Some [(q, g)])
         (repeat (Some 0%R) (Z.to_nat (zlen (v_arcs v))));;
  freeze m.
