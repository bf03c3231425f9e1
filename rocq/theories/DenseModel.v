(** * Model: DenseFsaVec (k2/python/k2/dense_fsa_vec.py) and its conversion to an
    FsaVec (k2/csrc/fsa_utils.cu ConvertDenseToFsaVec). *)
From Coq Require Import ZArith List Lia Bool.
From Verif Require Import Base RaggedModel FsaSpec OpsModel GraphModel.
Import ListNotations.
Open Scope Z_scope.

(** scores (rows of C + 1 values), row splits and [_duration].  Values are
    opaque: [Z] stands for float32, 0 for 0.0 and the argument [ninf] for -inf. *)
Record dense := mkDense { d_scores : list (list Z); d_rs : list Z; d_dur : list Z }.

(** dense_fsa_vec.py:97-119: the loop over the segments.  Results: [indexes]
    (concatenated), [last_frame_indexes] and [cur]. *)
Fixpoint seg_loop (N T trunc : Z) (segs : list (list Z)) (cur : Z) : option (list Z * list Z * Z) :=
  match segs with
  | [] => Some ([], [], cur)
  | [q; s; d] :: rest =>
      check ((0 <=? q) && (q <? N));;
      check ((0 <=? s) && (s <? T));;
      check (0 <=? d);;
      check (s + d <=? T + trunc);;
      let off := q * T in
      let e := Z.min (s + d) T in
      let d' := e - s in
      r <- seg_loop N T trunc rest (cur + d' + 1);;
      let '(idx, last, c) := r in
      Some (map (fun t => s + t + off) (zrange (e - s)) ++ 0 :: idx, cur + d' :: last, c)
  | _ => None                            (* unpacking needs three columns *)
  end.

(** dense_fsa_vec.py:120-144.  log_probs has shape (N, T, C).  Cells of
    torch.empty are [None].  int32 overflow of the row splits is not modelled. *)
Definition dense_fsa_vec (ninf : Z) (N T C : Z) (log_probs : list (list (list Z))) (segs : list (list Z)) (trunc : Z) : option dense :=
  check (0 <=? trunc);;
  r <- seg_loop N T trunc segs 0;;
  let '(idx, last, cur) := r in
  check (0 <? zlen segs);;               (* torch.cat of an empty list raises *)
  check (0 <? C);;                       (* reshape(-1, 0) raises *)
  rows <- mapM (rd (concat log_probs)) idx;;
  check (zlen rows =? cur);;
  let scores := map (fun row => None :: map Some row) rows in
  let scores := map (fun row => Some ninf :: tl row) scores in
  scores <- foldM (fun sc j => wr sc j (map Some (0 :: repeat ninf (Z.to_nat C)))) last scores;;
  scores <- mapM freeze scores;;
  let rs := 0 :: map (fun x => x + 1) last in
  dur <- mapM (fun i => a <- rd rs (i + 1);; b <- rd rs i;; Some (a - b - 1)) (zrange (zlen segs));;
  (* _k2.DenseFsaVec(scores, row_splits): fsa.h:170-175 *)
  back <- rd rs (zlen rs - 1);;
  check (back =? zlen scores);;
  Some (mkDense scores rs dur).

(** fsa_utils.cu:1078-1117 lambda_set_arcs_etc: what (i, s) writes to arcs,
    row_ids2 and row_splits2 *)
Definition dense_body (scores : list (list Z)) (rs1 ids1 ans_ids1 : list Z) (ns num_states num_arcs i s : Z)
  : option (list (Z * arc) * list (Z * Z) * list (Z * Z)) :=
  f0 <- rd ids1 i;;
  s0x <- rd rs1 f0;;
  nx <- rd rs1 (f0 + 1);;
  let idx1 := i - s0x in
  let n1 := nx - s0x in
  let ans01 := i + f0 in
  let a0xx := s0x * ns - f0 * (ns - 1) in
  let a012 := a0xx + idx1 * ns + s in
  let last := idx1 + 1 =? n1 in
  if last && (0 <? s) then Some ([], [], [])
  else
    let so := if last then -1 else 0 in
    row <- rd scores i;;
    x <- rd row (s + so + 1);;
    _ <- (if s =? 0 then k <- rd ans_ids1 ans01;; check (k =? f0);; Some tt else Some tt);;
    Some ([(a012, mkArc idx1 (idx1 + 1) (s + so) x)],
          [(a012, ans01)],
          (if last then [(ans01 + 1, a012 + 1)] else []) ++
          (if s =? 0 then (ans01, a012) :: (if i =? 0 then [(num_states, num_arcs)] else []) else [])).

(** fsa_utils.cu:1040-1122 ConvertDenseToFsaVec *)
Definition convert_dense_to_fsa_vec (ord : Z -> list Z) (d : dense) (num_cols : Z) : option (fsavec * list Z) :=
  let num_fsas := zlen (d_rs d) - 1 in
  let ns := num_cols - 1 in
  let n := zlen (d_scores d) in
  ids1 <- row_splits_to_row_ids (d_rs d) n;;
  let rs1 := change_sublist_size (d_rs d) 1 in
  let num_states := n + num_fsas in
  ans_ids1 <- row_splits_to_row_ids rs1 num_states;;
  let num_arcs := n * ns - (ns - 1) * num_fsas in
  let body p := dense_body (d_scores d) (d_rs d) ids1 ans_ids1 ns num_states num_arcs (p / ns) (p mod ns) in
  let sched := ord (n * ns) in
  arcs <- k2_fill num_arcs sched (fun p => w <- body p;; Some (fst (fst w)));;
  ids2 <- k2_fill num_arcs sched (fun p => w <- body p;; Some (snd (fst w)));;
  rs2 <- k2_fill (num_states + 1) sched (fun p => w <- body p;; Some (snd w));;
  Some (mkVec rs1 rs2 arcs, ids2).
