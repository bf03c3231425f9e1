(** * Model: MakeTransposable, Transpose (k2/csrc/ragged_ops.cu) and
      GetStateBatches, GetLeavingArcIndexBatches, GetEnteringArcIndexBatches
      (k2/csrc/fsa_utils.cu). *)
From Coq Require Import ZArith List Lia Bool.
From Verif Require Import Base RaggedModel RaggedOpsModel FsaSpec FsaOpsModel OpsModel PropsModel ReverseModel.
Import ListNotations.
Open Scope Z_scope.

(** ragged_ops.cu:915-1002 MakeTransposable, for three axes: rows of axis 0 are
    filled up with empty sublists.  Integer division is on nonnegative numbers. *)
Definition mt_split (rs1 rs2 : list Z) (m tot tot1 i : Z) : option Z :=
  if i =? tot then rd rs2 tot1
  else
    let idx0 := i / m in let idx1 := i mod m in
    x <- rd rs1 idx0;; nx <- rd rs1 (idx0 + 1);;
    if idx1 <? nx - x then rd rs2 (x + idx1) else rd rs2 nx.
Definition make_transposable (l1 l2 : layer) : option (layer * layer) :=
  let dim0 := zlen (l_rs l1) - 1 in
  let tot1 := zlen (l_rs l2) - 1 in
  if dim0 <=? 1 then Some (l1, l2)
  else
    m <- max_size (l_rs l1);;
    if m <=? 0 then Some (l1, l2)
    else
      let tot := m * dim0 in
      rs2 <- mapM (mt_split (l_rs l1) (l_rs l2) m tot tot1) (zrange (tot + 1));;
      ids2 <- mapM (fun i => s01 <- rd (l_ids l2) i;; s0 <- rd (l_ids l1) s01;; x <- rd (l_rs l1) s0;;
                             Some (s0 * m + (s01 - x))) (zrange (zlen (l_ids l2)));;
      Some (mk_layer (map (fun i => i * m) (zrange (dim0 + 1))) (map (fun i => i / m) (zrange tot)),
            mk_layer rs2 ids2).

(** ragged_ops.cu:1005-1063 Transpose of a shape with three axes, and
    ragged_ops.h:725-731 Transpose of a Ragged (the values). *)
Definition transpose3 {A} (l1 l2 : layer) (values : list A) : option (layer * layer * list A) :=
  let dim0 := zlen (l_rs l1) - 1 in
  let tot1 := zlen (l_rs l2) - 1 in
  if dim0 <=? 0 then Some (l1, l2, [])
  else
    let dim1 := tot1 / dim0 in
    check (tot1 mod dim0 =? 0);;
    let renumbering := map (fun i => (i mod dim0) * dim1 + i / dim0) (zrange tot1) in
    r <- ragged_index [l2] values renumbering;;
    match fst (fst r) with
    | [l] => Some (mk_layer (map (fun i => i * dim0) (zrange (dim1 + 1))) (map (fun i => i / dim0) (zrange tot1)), l, snd (fst r))
    | _ => None
    end.

(** std::numeric_limits<int32_t>::max() *)
Definition int_max : Z := 2147483647.

(** k2/csrc/array_ops_inl.h:743-750 MonotonicLowerBound *)
Fixpoint min_after (l : list Z) : list Z :=
  match l with
  | [] => []
  | x :: t => Z.min x (match min_after t with [] => int_max | y :: _ => y end) :: min_after t
  end.

(** fsa_utils.cu:713-740 lambda_set_dest_states *)
Definition sb_dest (rs2 dests : list Z) (num_arcs s : Z) : option Z :=
  x <- rd rs2 s;;
  d <- (if x <? num_arcs then rd dests x else Some int_max);;
  check (s <? d);; Some d.

(** fsa_utils.cu:779-790 lambda_square_array *)
Definition sb_square (num_states : Z) (src : list Z) : option (list Z) :=
  mapM (fun s => d <- rd src s;; if d <? num_states then rd src d else Some int_max) (zrange num_states).
Fixpoint sb_powers (num_states : Z) (n : nat) (src : list Z) : option (list (list Z)) :=
  match n with
  | O => Some [src]
  | S n' => sq <- sb_square num_states src;; r <- sb_powers num_states n' sq;; Some (src :: r)
  end.

(** fsa_utils.cu:831-840: advance by [task] steps; the inner None is [return]. *)
Fixpoint sb_advance (powers : list (list Z)) (task fend : Z) (m : Z) (n : nat) (i cur : Z) : option (option (Z * Z)) :=
  match n with
  | O => Some (Some (i, cur))
  | S n' =>
      if Z.testbit task m then
        p <- rd powers m;; next <- rd p cur;;
        if fend <=? next then Some None
        else sb_advance powers task fend (m + 1) n' (i + 2 ^ m) next
      else sb_advance powers task fend (m + 1) n' i cur
  end.
(** fsa_utils.cu:843-862: the loop of a task.  Result: the batch starts and the
    number of batches it writes (addresses relative to the FSA).  The loop ends
    because [i] grows; [fuel] is the number of states. *)
Fixpoint sb_loop (p0 pl : list Z) (n fend jobs : Z) (fuel : nat) (i cur : Z) : option (list (Z * Z) * option Z) :=
  if n <=? i then Some ([], None)
  else match fuel with
  | O => None
  | S fuel' =>
      next <- rd pl cur;;
      if fend <=? next then
        d <- rd p0 cur;;
        Some ([(i, cur)], if fend <=? d then Some (i + 1) else None)
      else
        r <- sb_loop p0 pl n fend jobs fuel' (i + jobs) next;;
        Some ((i, cur) :: fst r, snd r)
  end.

(** fsa_utils.cu:801-863 lambda_set_batch_info for one (fsa_idx, task_idx).
    The memory holds batch_starts (num_states + 1 cells) and after it
    num_batches_per_fsa. *)
Definition sb_job (rs1 : list Z) (num_states : Z) (powers : list (list Z)) (log_power : nat) (fsa_idx task : Z)
  : option (list (Z * Z)) :=
  b <- rd rs1 fsa_idx;; e <- rd rs1 (fsa_idx + 1);;
  if e - b <=? task then Some []
  else
    a <- sb_advance powers task e 0 log_power 0 b;;
    match a with
    | None => Some []
    | Some (i, cur) =>
        check (i =? task);;
        p0 <- rd powers 0;; pl <- rd powers (Z.of_nat log_power);;
        r <- sb_loop p0 pl (e - b) e (2 ^ Z.of_nat log_power) (Z.to_nat (e - b)) i cur;;
        Some (map (fun w => (b + fst w, snd w)) (fst r) ++
              match snd r with Some nb => [(num_states + 1 + fsa_idx, nb)] | None => [] end)
    end.

(** fsa_utils.cu:679-900 GetStateBatches, without the transposition.
    [log_power]: 0 on CPU, at most 4 on GPU (lines 693-699).  jobs_multiple only
    drops threads.  [sched]: the order of the tasks (fsa_idx, task_idx), numbered
    fsa_idx * jobs + task_idx. *)
Definition state_batches0 (log_power : nat) (sched : list Z) (v : fsavec) : option (layer * layer * list Z) :=
  let num_states := zlen (v_rs2 v) - 1 in
  let num_fsas := zlen (v_rs1 v) - 1 in
  let num_arcs := zlen (v_arcs v) in
  let jobs := 2 ^ Z.of_nat log_power in
  rids2 <- row_splits_to_row_ids (v_rs2 v) num_arcs;;
  dests <- dest_states01 v rids2;;
  dest <- mapM (sb_dest (v_rs2 v) (min_after dests) num_arcs) (zrange num_states);;
  powers <- sb_powers num_states log_power dest;;
  mem <- k2_eval sched (fun p => sb_job (v_rs1 v) num_states powers log_power (p / jobs) (p mod jobs))
           (repeat None (Z.to_nat (num_states + 1)) ++ repeat (Some 0) (Z.to_nat num_fsas));;
  nb <- mapM (fun k => x <- rd mem (num_states + 1 + k);; x) (zrange num_fsas);;
  let rs1 := exsum nb in
  num_batches <- rd rs1 num_fsas;;
  ids1 <- row_splits_to_row_ids rs1 num_batches;;
  starts <- mapM (fun idx01 => idx0 <- rd ids1 idx01;; idx0x <- rd rs1 idx0;; f <- rd (v_rs1 v) idx0;;
                               x <- rd mem (f + (idx01 - idx0x));; x) (zrange num_batches);;
  let rs2 := starts ++ [num_states] in
  ids2 <- row_splits_to_row_ids rs2 num_states;;
  Some (mk_layer rs1 ids1, mk_layer rs2 ids2, zrange num_states).

(** fsa_utils.cu:889-899: [transpose = true] *)
Definition get_state_batches (log_power : nat) (sched : list Z) (v : fsavec) : option (layer * layer * list Z) :=
  r <- state_batches0 log_power sched v;;
  let '(l1, l2, vals) := r in
  t <- make_transposable l1 l2;;
  transpose3 (fst t) (snd t) vals.

(** fsa_utils.cu:930-978 GetLeavingArcIndexBatches: layer 3 and the values *)
Definition leaving_arc_batches (v : fsavec) (states : list Z) : option (list Z * list Z) :=
  cnt <- mapM (fun i => s <- rd states i;; x <- rd (v_rs2 v) s;; y <- rd (v_rs2 v) (s + 1);; Some (y - x))
              (zrange (zlen (v_rs2 v) - 1));;
  let rs3 := exsum cnt in
  let num_arcs := zlen (v_arcs v) in
  ids3 <- row_splits_to_row_ids rs3 num_arcs;;
  vals <- mapM (fun i => p <- rd ids3 i;; s <- rd states p;; x <- rd (v_rs2 v) s;; o <- rd rs3 p;; Some (x + (i - o)))
               (zrange num_arcs);;
  Some (rs3, vals).

(** fsa_utils.cu:980-1038 GetEnteringArcIndexBatches *)
Definition entering_arc_batches (v : fsavec) (inc_rs2 inc states : list Z) : option (list Z * list Z) :=
  cnt <- mapM (fun i => s <- rd states i;; x <- rd inc_rs2 s;; y <- rd inc_rs2 (s + 1);; Some (y - x))
              (zrange (zlen (v_rs2 v) - 1));;
  let rs3 := exsum cnt in
  let num_arcs := zlen (v_arcs v) in
  ids3 <- row_splits_to_row_ids rs3 num_arcs;;
  vals <- mapM (fun i => p <- rd ids3 i;; s <- rd states p;; x <- rd inc_rs2 s;; o <- rd rs3 p;; rd inc (x + (i - o)))
               (zrange num_arcs);;
  Some (rs3, vals).
