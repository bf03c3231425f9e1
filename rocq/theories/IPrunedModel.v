(** * Model of IntersectDensePruned (k2/csrc/intersect_dense_pruned.cu), the function
    behind k2.intersect_dense_pruned; IOnlineModel.v is the online intersecter.

    Scores are exact ([Z], [None] is -inf) and the dynamic beams are exact rationals:
    the rounding of floats is not modelled.  FloatToOrderedInt keeps the order, so it
    is left out.  [ord n] is the order of the threads of a kernel over [n] elements;
    kernels in which index [i] writes cell [i] only are [mapM].  The hash table is
    the association list of C47 and IDevModel.v. *)
From Coq Require Import ZArith List Bool QArith.
From Verif Require Import Base RaggedModel RaggedOpsModel FsaSpec OpsModel ReverseModel IDenseModel.
From Verif Require IDevModel.
Import ListNotations.
Open Scope Z_scope.

Notation hmap := IDevModel.hmap.
Notation hfind := IDevModel.hfind.
Notation hset := IDevModel.hset.
(** hash.h Delete *)
Definition hdel (h : hmap) (key : Z) : hmap := filter (fun p => negb (fst p =? key)) h.

(** intersect_dense_pruned.h:31-53 StateInfo *)
Record sinfo := mkS { s_a : Z; s_f : option Z; s_b : option Z }.
(** 55-78 ArcInfo; [i_dst] is the union *)
Record ainfo := mkA { i_arc : Z; i_ll : option Z; i_dst : Z; i_end : option Z }.
(** 97-118 FrameInfo: the first axis is shared by states and arcs *)
Record fr := mkFr { f_rs1 : list Z; f_ids1 : list Z; f_states : list sinfo;
                    f_rs2 : list Z; f_ids2 : list Z; f_arcs : list ainfo }.

(** the members set by the constructor (80-140): a_fsas_, its row ids, b_fsas_,
    num_seqs_, the beams and limits, allow_partial_, a_fsas_stride_,
    state_map_fsa_stride_, the number of key bits and online_decoding_ *)
Record cfg := mkCfg { c_v : fsavec; c_ids1 : list Z; c_b : dmat; c_n : Z; c_sbeam : Z; c_obeam : Z;
  c_min : Z; c_max : Z; c_partial : bool; c_astride : Z; c_kstride : Z; c_bits : Z; c_online : bool }.
Definition p_make (online : bool) (v : fsavec) (b : dmat) (n : Z) (sbeam obeam mina maxa : Z) (partial : bool) : option cfg :=
  let dim0 := zlen (v_rs1 v) - 1 in
  let tot1 := zlen (v_rs2 v) - 1 in
  check (0 <? sbeam);; check (0 <? obeam);; check (0 <=? mina);; check (mina <? maxa);;
  check ((dim0 =? n) || (dim0 =? 1));; check (1 <=? n);;
  ids1 <- row_splits_to_row_ids (v_rs1 v) tot1;;
  let shared := dim0 =? 1 in
  let num_keys := (if shared then n else 1) * tot1 + 1 in
  check (num_keys <? 2 ^ 40);;
  let bits := if num_keys <? 2 ^ 32 then 32 else if num_keys <? 2 ^ 36 then 36 else 40 in
  Some (mkCfg v ids1 b n sbeam obeam mina maxa partial (if shared then 0 else 1) (if shared then tot1 else 0) bits online).
(** 1662-1668: num_seqs is the number of sequences of [b] *)
Definition p_construct (v : fsavec) (b : dmat) (sbeam obeam mina maxa : Z) (partial : bool) : option cfg :=
  p_make false v b (zlen (b_rs b) - 1) sbeam obeam mina maxa partial.

(** final_t of a sequence: b_fsas_row_splits1[i+1] - b_fsas_row_splits1[i] *)
Definition final_t (c : cfg) (k : Z) : option Z :=
  x <- rd (b_rs (c_b c)) k;; y <- rd (b_rs (c_b c)) (k + 1);; Some (y - x).

(** 435-471 InitialFrameInfo, with fsa_utils.cu:2045-2077 GetStartStates; the arcs of
    the frame are not set *)
Definition initial_frame (c : cfg) : option fr :=
  let rs1v := v_rs1 (c_v c) in
  if zlen rs1v - 1 =? 1 then
    let per := if 0 <? zlen (v_rs2 (c_v c)) - 1 then 1 else 0 in
    Some (mkFr (map (fun i => i * per) (zrange (c_n c + 1))) (map (fun i => i / per) (zrange (c_n c * per)))
               (map (fun _ => mkS 0 (Some 0) None) (zrange (c_n c * per))) [] [] [])
  else
    nums <- mapM (fun k => x <- rd rs1v k;; y <- rd rs1v (k + 1);; Some (b2z (x <? y))) (zrange (zlen rs1v - 1));;
    let rs := exsum nums in
    dim <- rd rs (zlen rs1v - 1);;
    ids <- row_splits_to_row_ids rs dim;;
    st <- mapM (fun k => x <- rd rs1v k;; Some (mkS x (Some 0) None)) ids;;
    Some (mkFr rs ids st [] [] []).

(** 790-904 GetArcs.  The column check is a debug check and is left out: a label
    without a column reads other memory. *)
Definition get_arcs (c : cfg) (t : Z) (f : fr) : option fr :=
  let v := c_v c in
  nums <- mapM (fun s => x <- rd (v_rs2 v) (s_a s);; y <- rd (v_rs2 v) (s_a s + 1);; Some (y - x)) (f_states f);;
  let rs2 := exsum nums in
  tot <- rd rs2 (zlen (f_states f));;
  ids2 <- row_splits_to_row_ids rs2 tot;;
  (* has_valid_final_arc: several threads may write true *)
  finals <- mapM (fun i =>
      st <- rd ids2 i;; k <- rd (f_ids1 f) st;; x <- rd rs2 st;; s <- rd (f_states f) st;;
      a0 <- rd (v_rs2 v) (s_a s);; a <- rd (v_arcs v) (a0 + (i - x));;
      ft <- final_t c k;;
      Some (k, (ft - 1 =? t) && (lab a =? -1))) (zrange tot);;
  let has_valid k := existsb (fun p => (fst p =? k) && snd p) finals in
  ai <- mapM (fun i =>
      st <- rd ids2 i;; k <- rd (f_ids1 f) st;; x <- rd rs2 st;; s <- rd (f_states f) st;;
      a0 <- rd (v_rs2 v) (s_a s);;
      let j := a0 + (i - x) in
      a <- rd (v_arcs v) j;;
      r0 <- rd (b_rs (c_b c)) k;;
      y <- rd (b_data (c_b c)) ((r0 + t) * b_stride (c_b c) + (lab a + 1));;
      ft <- final_t c k;;
      d <- (if (ft - 1 =? t) && (c_partial c && negb (has_valid k)) then
              g <- rd (c_ids1 c) (s_a s);; g1 <- rd (v_rs1 v) (g + 1);; g0 <- rd (v_rs1 v) g;;
              Some (g1 - 1 - g0, Some 0)
            else Some (dst a, y));;
      let ll := oadd (snd d) (Some (sc a)) in
      Some (mkA j ll (s_a s + fst d - src a) (oadd (s_f s) ll))) (zrange tot);;
  Some (mkFr (f_rs1 f) (f_ids1 f) (f_states f) rs2 ids2 ai).

(** 741-781: the update of a dynamic beam *)
Definition new_beam (c : cfg) (t ft active : Z) (beam : Q) : Q :=
  let default := inject_Z (c_sbeam c) in
  let last := negb (c_online c) && (ft <=? t + 5) in
  let enough := (c_min c <=? active) && (negb last || (c_max c <=? 2 * active)) in
  let b :=
    if active <=? c_max c then
      if enough || (active =? 0) then ((4 # 5) * beam + (1 # 5) * default)%Q
      else ((if Qle_bool default beam then beam else default) * (5 # 4))%Q
    else if c_online c || (t + 5 <? ft) then ((if Qle_bool beam default then beam else default) * (4 # 5))%Q
    else beam in
  if negb (c_online c) && (t =? ft - 1) then inject_Z (10 ^ 10) else b.
(** 686-784 GetPruningCutoffs: for every sequence the best score and the beam; the
    cutoff is their difference *)
Definition get_cutoffs (c : cfg) (t : Z) (f : fr) (beams : list Q) : option (list (option Z * Q)) :=
  mapM (fun k =>
      b <- rd (f_rs1 f) k;; e <- rd (f_rs1 f) (k + 1);;
      ab <- rd (f_rs2 f) b;; ae <- rd (f_rs2 f) e;;
      l <- mapM (fun i => a <- rd (f_arcs f) (ab + i);; Some (i_end a)) (zrange (ae - ab));;
      beam <- rd beams k;; ft <- final_t c k;;
      Some (kmax l, new_beam c t ft (e - b) beam)) (zrange (c_n c)).
(** end_loglike > cutoff *)
Definition above (x : option Z) (cut : option Z * Q) : bool :=
  match x with
  | None => false
  | Some x => match fst cut with
              | None => true
              | Some m => negb (Qle_bool (inject_Z x) (inject_Z m - snd cut))
              end
  end.

(** 1084-1127 lambda_set_arcs_and_states for arc [i], the part that writes states *)
Definition set_state (arcs : list ainfo) (dests : list (Z * Z)) (i : Z) (sts : list sinfo) : option (list sinfo) :=
  a <- rd arcs i;; d <- rd dests i;;
  if snd d <? 0 then Some sts
  else s <- rd sts (fst d);; wr sts (fst d) (mkS (i_dst a) (omax (s_f s) (i_end a)) (s_b s)).

(** 920-1146 PropagateForward: the frame with its arcs, the next frame (states only),
    the beams and the hash *)
Definition propagate_forward (ord : Z -> list Z) (c : cfg) (t : Z) (cur : fr) (beams : list Q) (h : hmap)
  : option (fr * fr * list Q * hmap) :=
  f <- get_arcs c t cur;;
  let n := zlen (f_arcs f) in
  check ((c_bits c <=? 32) || (n <? 2 ^ (64 - c_bits c)));;
  cuts <- get_cutoffs c t f beams;;
  ks <- mapM (fun i => st <- rd (f_ids2 f) i;; rd (f_ids1 f) st) (zrange n);;
  keys <- mapM (fun i => k <- rd ks i;; a <- rd (f_arcs f) i;; Some (i_dst a + k * c_kstride c)) (zrange n);;
  cand <- mapM (fun i => k <- rd ks i;; a <- rd (f_arcs f) i;; cut <- rd cuts k;; key <- rd keys i;;
                         Some (if above (i_end a) cut then Some (0, 0, key) else None)) (zrange n);;
  r <- IDevModel.insert_all cand (ord n) h [];;
  let '(h1, won) := r in
  let keep := map (fun i => existsb (Z.eqb i) won) (zrange n) in
  let o2n := old2new keep in
  num_states <- rd o2n n;;
  ids1' <- k2_fill num_states (ord n) (fun i =>
      k <- rd ks i;; x <- rd o2n i;; y <- rd o2n (i + 1);; Some (if x <? y then [(x, k)] else []));;
  rs1' <- row_ids_to_row_splits ids1' (c_n c);;
  (* lambda_modify_state_map *)
  h2 <- foldM (fun h i =>
      key <- rd keys i;; x <- rd o2n i;; y <- rd o2n (i + 1);;
      if x <? y then check (match hfind h key with Some _ => true | None => false end);; Some (hset h key x)
      else Some h) (ord n) h1;;
  (* lambda_set_arcs_and_states: state_idx01 and state_idx1 of every arc *)
  dests <- mapM (fun i =>
      k <- rd ks i;; key <- rd keys i;;
      match hfind h2 key with
      | None => Some (-1, -1)
      | Some j => x <- rd rs1' k;; Some (j, j - x)
      end) (zrange n);;
  sts <- foldM (fun s i => set_state (f_arcs f) dests i s) (ord n) (repeat (mkS (-1) None None) (Z.to_nat num_states));;
  arcs <- mapM (fun i => a <- rd (f_arcs f) i;; d <- rd dests i;; Some (mkA (i_arc a) (i_ll a) (snd d) (i_end a))) (zrange n);;
  (* lambda_reset_state_map *)
  h3 <- foldM (fun h j => s <- rd sts j;; k <- rd ids1' j;; Some (hdel h (s_a s + k * c_kstride c))) (ord num_states) h2;;
  Some (mkFr (f_rs1 f) (f_ids1 f) (f_states f) (f_rs2 f) (f_ids2 f) arcs,
        mkFr rs1' ids1' sts [] [] [], map snd cuts, h3).

(** 1181-1219 SetBackwardProbsFinal *)
Definition oneg (x : option Z) : option Z := match x with Some y => Some (- y) | None => None end.
Definition set_final_probs (f : fr) : fr :=
  mkFr (f_rs1 f) (f_ids1 f) (map (fun s => mkS (s_a s) (s_f s) (oneg (s_f s))) (f_states f)) (f_rs2 f) (f_ids2 f) (f_arcs f).

(** 1252-1352 PropagateBackward: the frame with its backward scores, the states and the
    arcs to keep *)
Definition is_finite (x : option Z) : bool := match x with Some _ => true | None => false end.
Definition propagate_backward (c : cfg) (cur next : fr) : option (fr * list bool * list bool) :=
  arcs <- mapM (fun i =>
      a <- rd (f_arcs cur) i;; st <- rd (f_ids2 cur) i;; k <- rd (f_ids1 cur) st;;
      x <- rd (f_rs1 next) k;;
      if i_dst a =? -1 then Some (None, false)
      else
        d <- rd (f_states next) (x + i_dst a);;
        s <- rd (f_states cur) st;;
        let bl := oadd (i_ll a) (s_b d) in
        (* K2_CHECK_LE(backward_loglike, -src_state_forward_loglike + 2.0) *)
        check (match oadd bl (s_f s) with Some y => y <=? 2 | None => true end);;
        match oadd bl (s_f s) with
        | Some y => if - c_obeam c <=? y then Some (bl, true) else Some (None, false)
        | None => Some (None, false)
        end) (zrange (zlen (f_arcs cur)));;
  sts <- mapM (fun i =>
      s <- rd (f_states cur) i;;
      b <- rd (f_rs2 cur) i;; e <- rd (f_rs2 cur) (i + 1);;
      l <- mapM (fun j => x <- rd arcs (b + j);; Some (fst x)) (zrange (e - b));;
      g <- rd (c_ids1 c) (s_a s);; nx <- rd (v_rs1 (c_v c)) (g + 1);;
      Some (mkS (s_a s) (s_f s) (if nx <=? s_a s + 1 then oneg (s_f s) else kmax l))) (zrange (zlen (f_states cur)));;
  Some (mkFr (f_rs1 cur) (f_ids1 cur) sts (f_rs2 cur) (f_ids2 cur) (f_arcs cur),
        map (fun s => is_finite (s_b s)) sts, map snd arcs).

(** 1424-1463: the loop of PruneTimeRange from the last frame to the first; the frames
    of the range, and their states and arcs to keep *)
Fixpoint backward_all (c : cfg) (fs : list fr) (last : fr) : option (list (fr * list bool * list bool)) :=
  match fs with
  | [] => Some []
  | f :: rest =>
      r <- backward_all c rest last;;
      let next := match r with [] => last | x :: _ => fst (fst x) end in
      x <- propagate_backward c f next;;
      Some (x :: r)
  end.

(** 1378-1600 PruneTimeRange on the frames [fs] (begin_t .. end_t-1), [last] being
    frame end_t.  renumber_states and renumber_arcs number the states and arcs of all
    frames together; the arrays they are copied to are cut into frames again, which is
    done here frame by frame ([i] is t_offset). *)
Definition prune_frames (ord : Z -> list Z) (c : cfg) (fs : list fr) (last : fr) : option (list fr) :=
  rs <- backward_all c fs (set_final_probs last);;
  let old := map (fun x => fst (fst x)) rs in
  let keepS := match map (fun x => snd (fst x)) rs with [] => [] | x :: r => map (fun _ => true) x :: r end in
  let keepA := map snd rs in
  let num_t := zlen fs in
  let offS := exsum (map (fun f => zlen (f_states f)) old) in
  let offA := exsum (map (fun f => zlen (f_arcs f)) old) in
  let o2nS := old2new (concat keepS) in
  let o2nA := old2new (concat keepA) in
  n2oS <- new2old (ord (zlen (concat keepS) + 1)) (concat keepS);;
  n2oA <- new2old (ord (zlen (concat keepA) + 1)) (concat keepA);;
  nS <- mapM (rd o2nS) offS;;
  nA <- mapM (rd o2nA) offA;;
  mapM (fun i =>
      f <- rd old i;;
      oS <- rd offS i;; oA <- rd offA i;;
      nS0 <- rd nS i;; nS1 <- rd nS (i + 1);; nA0 <- rd nA i;; nA1 <- rd nA (i + 1);;
      (* lambda_set_new_row_splits1 *)
      rs1 <- mapM (fun k =>
          x <- rd (f_rs1 f) k;; p0 <- rd o2nS oS;; p <- rd o2nS (oS + x);; Some (p - p0)) (zrange (c_n c + 1));;
      (* lambda_per_state *)
      per <- mapM (fun j =>
          o <- rd n2oS (nS0 + j);;
          k <- rd (f_ids1 f) (o - oS);;
          e <- rd (f_rs2 f) (o - oS + 1);; p <- rd o2nA (e + oA);;
          s <- rd (f_states f) (o - oS);;
          Some (k, p - nA0, s)) (zrange (nS1 - nS0));;
      (* lambda_set_arcs *)
      arcs <- mapM (fun j =>
          o <- rd n2oA (nA0 + j);;
          st <- rd (f_ids2 f) (o - oA);; k <- rd (f_ids1 f) st;;
          p <- rd o2nS (st + oS);;
          a <- rd (f_arcs f) (o - oA);;
          d <- (if i + 1 =? num_t then Some (i_dst a)
                else
                  nf <- rd old (i + 1);; oS' <- rd offS (i + 1);;
                  x <- rd (f_rs1 nf) k;;
                  q0 <- rd o2nS (oS' + x);; q1 <- rd o2nS (oS' + (x + i_dst a));;
                  Some (q1 - q0));;
          Some (p - nS0, mkA (i_arc a) (i_ll a) d (i_end a))) (zrange (nA1 - nA0));;
      Some (mkFr rs1 (map (fun x => fst (fst x)) per) (map snd per)
                 (0 :: map (fun x => snd (fst x)) per) (map fst arcs) (map snd arcs))) (zrange num_t).

(** the members frames_ (the states of the last one set, not its arcs),
    dynamic_beams_, state_map_; the next [t] of the loop in Intersect; the number of
    passes of BackwardPass that are done; the two semaphores; whether the forward
    thread waits for forward_semaphore_ *)
Record run := mkRun { r_frames : list fr; r_beams : list Q; r_hash : hmap; r_t : Z; r_done : Z;
                      r_bsem : Z; r_fsem : Z; r_wait : bool }.

(** 163-190: prune_t_begin_end_; do_pruning_after_[t] holds for the ends minus one *)
Fixpoint windows (fuel : nat) (T begin_t : Z) : list (Z * Z) :=
  match fuel with
  | O => []
  | S n => if T <=? begin_t + 30 then [(Z.max 0 begin_t, T)] else (Z.max 0 begin_t, begin_t + 30) :: windows n T (begin_t + 20)
  end.
Definition prune_windows (T : Z) : list (Z * Z) := windows (Z.to_nat T + 1) T (-10).

(** The two threads of Intersect (140-232) and BackwardPass (404-425).  A forward step
    and a pruning pass are atomic: PruneTimeRange(b, e) writes the frames before [e]
    and the backward scores of frame [e], and PropagateForward, which is then at [e]
    or later, reads neither. *)
Inductive event := Forward | Acquire | Prune.
Definition enabled (T : Z) (e : event) (r : run) : bool :=
  match e with
  | Forward => (r_t r <=? T) && negb (r_wait r)
  | Acquire => r_wait r && (0 <? r_fsem r)
  | Prune => 0 <? r_bsem r
  end.
Definition do_event (ord : Z -> list Z) (c : cfg) (T : Z) (e : event) (r : run) : option run :=
  match e with
  | Forward =>
      cur <- rd (r_frames r) (r_t r);;
      x <- propagate_forward ord c (r_t r) cur (r_beams r) (r_hash r);;
      let '(f, nf, beams, h) := x in
      fs <- wr (r_frames r) (r_t r) f;;
      let signal := existsb (fun w => snd w - 1 =? r_t r) (prune_windows T) in
      Some (mkRun (fs ++ [nf]) beams h (r_t r + 1) (r_done r) (r_bsem r + b2z signal) (r_fsem r) signal)
  | Acquire => Some (mkRun (r_frames r) (r_beams r) (r_hash r) (r_t r) (r_done r) (r_bsem r) (r_fsem r - 1) false)
  | Prune =>
      w <- rd (prune_windows T) (r_done r);;
      let b := Z.to_nat (fst w) in let e := Z.to_nat (snd w) in
      last <- rd (r_frames r) (snd w);;
      fs <- prune_frames ord c (skipn b (firstn e (r_frames r))) last;;
      Some (mkRun (firstn b (r_frames r) ++ fs ++ set_final_probs last :: skipn (S e) (r_frames r))
                  (r_beams r) (r_hash r) (r_t r) (r_done r + 1) (r_bsem r - 1) (r_fsem r + 1) (r_wait r))
  end.
Definition start_run (c : cfg) : option run :=
  f <- initial_frame c;;
  Some (mkRun [f] (map (fun _ => inject_Z (c_sbeam c)) (zrange (c_n c))) [] 0 0 0 1 false).
(** WaitAllTasksFinished: both loops have ended *)
Definition finished (T : Z) (r : run) : bool := (T <? r_t r) && negb (r_wait r) && (r_done r =? zlen (prune_windows T)).
(** MaxSize(1) *)
Definition max_T (c : cfg) : option Z :=
  l <- mapM (final_t c) (zrange (c_n c));; Some (fold_right Z.max 0 l).
(** An execution: the events in the order in which they happen.  [None] also when an
    event is not enabled. *)
Fixpoint execute (ord : Z -> list Z) (c : cfg) (T : Z) (es : list event) (r : run) : option run :=
  match es with
  | [] => Some r
  | e :: es' => check (enabled T e r);; r' <- do_event ord c T e r;; execute ord c T es' r'
  end.

(** 473-655 FormatOutput.  Stack(1, ...) of the shapes of the frames, with the extra
    frame of missing final states, is written out: the states are listed by sequence,
    then frame, and numbered in this order.  The result: row splits, arcs (scores may
    be -inf), arc maps.  [hist] is 0 offline; online it is history_t (305-313), the
    number of frames before those of [c_b], and the second arc map is not made. *)
Definition missing_final (c : cfg) (hist : Z) (frames : list fr) (k : Z) : option Z :=
  ft <- final_t c k;;
  f <- rd frames (hist + ft);;
  b <- rd (f_rs1 f) k;; e <- rd (f_rs1 f) (k + 1);;
  check (e - b <=? 1);;
  x <- rd (v_rs1 (c_v c)) (k * c_astride c);; y <- rd (v_rs1 (c_v c)) (k * c_astride c + 1);;
  Some (b2z (x <? y) * (1 - (e - b))).
Definition p_format_output (c : cfg) (hist T : Z) (frames : list fr)
  : option (list Z * list Z * list (Z * Z * Z * option Z) * list Z * list Z) :=
  extra <- mapM (missing_final c hist frames) (zrange (c_n c));;
  (* the number of states of every sequence and frame 0 .. T+1 *)
  sizes <- mapM (fun k =>
      l <- mapM (fun t => f <- rd frames t;; b <- rd (f_rs1 f) k;; e <- rd (f_rs1 f) (k + 1);; Some (e - b)) (zrange (T + 1));;
      x <- rd extra k;; Some (l ++ [x])) (zrange (c_n c));;
  let rs2 := exsum (concat sizes) in
  out <- mapM (fun k =>
      first <- rd rs2 (k * (T + 2));;
      mapM (fun t =>
          f <- rd frames t;; b <- rd (f_rs1 f) k;; e <- rd (f_rs1 f) (k + 1);;
          this <- rd rs2 (k * (T + 2) + t);; next <- rd rs2 (k * (T + 2) + t + 1);;
          ft <- final_t c k;; r0 <- rd (b_rs (c_b c)) k;;
          mapM (fun j =>
              x <- rd (f_rs2 f) (b + j);; y <- rd (f_rs2 f) (b + j + 1);;
              mapM (fun i =>
                  a <- rd (f_arcs f) (x + i);;
                  ga <- rd (v_arcs (c_v c)) (i_arc a);;
                  let part := (t =? hist + ft - 1) && negb (lab ga =? -1) in
                  check (negb part || c_partial c);;
                  Some ((this + j - first, next + i_dst a - first, if part then -1 else lab ga, i_ll a),
                        (if part then -1 else i_arc a, (r0 + t) * b_cols (c_b c) + (lab ga + 1)))) (zrange (y - x))) (zrange (e - b)))
        (zrange (T + 1))) (zrange (c_n c));;
  (* RemoveAxis(oshape, 1) *)
  let rows := map (fun p => concat (fst p) ++ repeat [] (Z.to_nat (snd p))) (combine out extra) in
  let arcs := concat (concat rows) in
  Some (exsum (map zlen rows), exsum (map zlen (concat rows)), map fst arcs,
        map (fun x => fst (snd x)) arcs, map (fun x => snd (snd x)) arcs).

(** 1654-1674 IntersectDensePruned, for the execution [es] of the two threads *)
Definition intersect_dense_pruned (ord : Z -> list Z) (es : list event) (v : fsavec) (b : dmat) (sbeam obeam mina maxa : Z) (partial : bool)
  : option (list Z * list Z * list (Z * Z * Z * option Z) * list Z * list Z) :=
  c <- p_construct v b sbeam obeam mina maxa partial;;
  T <- max_T c;;
  check (0 <? T);;                         (* K2_CHECK_LT(prune_begin, prune_end) *)
  r <- start_run c;;
  r <- execute ord c T es r;;
  check (finished T r);;
  p_format_output c 0 T (removelast (r_frames r)).
