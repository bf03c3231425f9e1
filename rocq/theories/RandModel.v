(** * Model: GetArcCdf and RandomPaths (k2/csrc/fsa_utils.cu:2192-2310, 2337-2665)
      and k2.random_paths (k2/python/k2/fsa_algo.py:924-974).

    Scores, posteriors and probabilities are exact (reals, with -infinity for
    scores). *)
From Coq Require Import ZArith List Lia Bool Reals.
From Verif Require Import Base RaggedModel FsaSpec RaggedOpsModel LogReal BatchModel ScoreModel.
Import ListNotations.
Open Scope Z_scope.

Definition rlt (x y : R) : bool := if Rlt_dec x y then true else false.
Definition req (x y : R) : bool := if Req_EM_T x y then true else false.
Definition rle (x y : R) : bool := if Rle_dec x y then true else false.

(** fsa_utils.cu:2203-2209 LogSumPerSublist with the initial value lowest(),
    which stands for -infinity *)
Definition state_post (rs2 : list Z) (post : list (option R)) : option (list (option R)) :=
  mapM (fun s => b <- rd rs2 s;; e <- rd rs2 (s + 1);;
                 xs <- mapM (fun t => rd post (b + t)) (zrange (e - b));;
                 Some (fold_left (logadd None) xs None)) (zrange (zlen rs2 - 1)).
(** 2220-2227 lambda_set_arc_probs *)
Definition arc_pdf (rids2 : list Z) (spost post : list (option R)) : option (list R) :=
  mapM (fun i => x <- rd post i;; s <- rd rids2 i;; y <- rd spost s;; Some (expo (ladd x (lneg y)))) (zrange (zlen post)).
(** ragged_ops_inl.h:715-790 SegmentedExclusiveSum (as on CPU) *)
Definition seg_exsum (rs2 rids2 : list Z) (pdf : list R) : option (list R) :=
  mapM (fun i => s <- rd rids2 i;; b <- rd rs2 s;;
                 xs <- mapM (fun t => rd pdf (b + t)) (zrange (i - b));;
                 Some (fold_left Rplus xs 0%R)) (zrange (zlen pdf)).
(** 2254-2270 lambda_set_inv_tots *)
Definition inv_tots (rs2 : list Z) (cdf pdf : list R) : option (list R) :=
  mapM (fun s => b <- rd rs2 s;; e <- rd rs2 (s + 1);;
                 if b <? e then
                   c <- rd cdf (e - 1);; p <- rd pdf (e - 1);;
                   Some (if rlt 0 (c + p) then (1 / (c + p))%R else 1%R)
                 else Some 1%R) (zrange (zlen rs2 - 1)).
(** 2274-2279 lambda_modify_cdf *)
Definition modify_cdf (rids2 : list Z) (cdf inv : list R) : option (list R) :=
  mapM (fun i => s <- rd rids2 i;; c <- rd cdf i;; t <- rd inv s;; Some (c * t)%R) (zrange (zlen cdf)).
(** 2286-2308 lambda_fix_cdf for one arc.  The kernel reads the array it
    writes: the threads run one after another in some order. *)
Fixpoint fix_scan (cdf : list R) (cutoff : R) (n : nat) (next : Z) (small : R) : option R :=
  match n with
  | O => Some small
  | S n' =>
      v <- rd cdf next;;
      let small' := if rlt v small then v else small in
      if rlt cutoff v then Some small' else fix_scan cdf cutoff n' (next + 1) small'
  end.
Definition fix_step (rs2 rids2 : list Z) (cdf : list R) (i : Z) : option (list R) :=
  s <- rd rids2 i;; e <- rd rs2 (s + 1);; cur <- rd cdf i;;
  small <- fix_scan cdf (cur + 1 / 10000)%R (Z.to_nat (e - (i + 1))) (i + 1) cur;;
  let small' := if rlt 1 small then 1%R else small in
  if req small' cur then Some cdf else wr cdf i small'.
(** GetArcCdf *)
Definition get_arc_cdf (ord : Z -> list Z) (v : fsavec) (post : list (option R)) : option (list R) :=
  rids2 <- row_splits_to_row_ids (v_rs2 v) (zlen (v_arcs v));;
  check (zlen post =? zlen (v_arcs v));;
  sp <- state_post (v_rs2 v) post;;
  pdf <- arc_pdf rids2 sp post;;
  cdf <- seg_exsum (v_rs2 v) rids2 pdf;;
  inv <- inv_tots (v_rs2 v) cdf pdf;;
  cdf' <- modify_cdf rids2 cdf inv;;
  foldB (fix_step (v_rs2 v) rids2) (ord (zlen (v_arcs v))) cdf'.

(** fsa_utils.cu:2359-2380 lambda_set_num_state_batches, for (i, b) *)
Definition nsb_thread (rs1 rs2 : list Z) (max_batches : Z) (i b : Z) : option (list (Z * Z)) :=
  x <- rd rs1 b;; y0 <- rd rs2 (x + i);; y1 <- rd rs2 (x + i + 1);;
  if y1 - y0 =? 0 then
    if b =? 0 then Some [(i, 0)]
    else
      z <- rd rs1 (b - 1);; z0 <- rd rs2 (z + i);; z1 <- rd rs2 (z + i + 1);;
      Some (if negb (z1 - z0 =? 0) then [(i, b)] else [])
  else Some (if b + 1 =? max_batches then [(i, max_batches)] else []).
Definition num_state_batches (ord : Z -> list Z) (num_fsas : Z) (rs1 rs2 : list Z) : option (list Z) :=
  let mb := zlen rs1 - 1 in
  m <- k2_eval (ord (num_fsas * mb)) (fun p => nsb_thread rs1 rs2 mb (p / mb) (p mod mb))
         (repeat (Some (if 0 <? mb then -1 else 0)) (Z.to_nat num_fsas));;
  freeze m.

(** The arc chosen at a state with arcs [b, e) for the position p.
    CPU, 2568-2580: std::upper_bound on cdf[b+1 .. e), the number of leading
    entries <= p in this sorted range. *)
Fixpoint ubound (cdf : list R) (p : R) (n : nat) (i : Z) : option Z :=
  match n with
  | O => Some i
  | S n' => c <- rd cdf (i + 1);; if rlt p c then Some i else ubound cdf p n' (i + 1)
  end.
Definition arc_interval (cdf : list R) (e q : Z) : option (R * R) :=
  s <- rd cdf q;; t <- (if q + 1 =? e then Some 1%R else rd cdf (q + 1));; Some (s, t).
(** GPU, 2491-2516: the threads of a group look at all the arcs; those
    meeting the condition write the shared state.  More than one would be a race:
    None. *)
Definition gpu_hit (cdf : list R) (p : R) (e q : Z) : option bool :=
  st <- arc_interval cdf e q;;
  Some (rle (fst st) p && rle p (snd st) && rlt (fst st) (snd st) &&
        (negb (req p (snd st)) || req p 1)).
Definition gpu_choose (cdf : list R) (p : R) (b e : Z) : option Z :=
  hits <- mapM (fun t => gpu_hit cdf p e (b + t)) (zrange (e - b));;
  match filter (fun t => match rd hits t with Some h => h | None => false end) (zrange (e - b)) with
  | [t] => Some (b + t)
  | _ => None
  end.

(** 2556-2590 (CPU) and 2436-2532 (GPU): the arcs of one path.  [fuel]: on CPU the
    limit of path_pos, FATAL beyond it; on GPU a limit that debug builds check. *)
Fixpoint rp_walk (gpu : bool) (v : fsavec) (cdf : list R) (idx0x final : Z) (fuel : nat) (cur : Z) (p : R) : option (list Z) :=
  match fuel with
  | O => None
  | S fuel' =>
      if negb gpu && (cur =? final) then Some []
      else
        b <- rd (v_rs2 v) cur;; e <- rd (v_rs2 v) (cur + 1);;
        if gpu && (e - b =? 0) then fb <- rd (v_rs2 v) final;; check (fb =? b);; Some []
        else
          check (b <? e);;
          q <- (if gpu then gpu_choose cdf p b e else ubound cdf p (Z.to_nat (e - b - 1)) b);;
          st <- arc_interval cdf e q;;
          a <- rd (v_arcs v) q;;
          r <- rp_walk gpu v cdf idx0x final fuel' (dst a + idx0x) ((p - fst st) / (snd st - fst st))%R;;
          Some (q :: r)
  end.

(** RandomPaths, 2337-2640: row splits and values of [fsa][path][arc] *)
Definition random_paths_of (gpu : bool) (ord : Z -> list Z) (v : fsavec) (cdf : list R) (num_paths : list Z) (srs1 srs2 : list Z)
  : option (list Z * list Z * list Z) :=
  let num_fsas := zlen (v_rs1 v) - 1 in
  check (zlen (v_arcs v) =? zlen cdf);; check (num_fsas =? zlen num_paths);;
  nb <- num_state_batches ord num_fsas srs1 srs2;;
  sizes <- mapM (fun k => n <- rd num_paths k;; b <- rd nb k;; check (negb (b =? -1));; Some (n * b)) (zrange num_fsas);;
  let srs := exsum sizes in
  let psum := exsum num_paths in
  space <- rd srs num_fsas;; tot <- rd psum num_fsas;;
  pids <- row_splits_to_row_ids psum tot;;
  mem <- k2_eval (ord tot) (fun i =>
           k <- rd pids i;; pb <- rd psum k;; b <- rd nb k;; n <- rd num_paths k;; so <- rd srs k;;
           x0 <- rd (v_rs1 v) k;; x1 <- rd (v_rs1 v) (k + 1);;
           path <- rp_walk gpu v cdf x0 (x1 - 1) (Z.to_nat (b + 1)) x0 ((1 / 2 + IZR (i - pb)) / IZR n)%R;;
           let start := so + (i - pb) * b in
           Some ((start, zlen path) :: imap (fun t q => (start + 1 + t, q)) 0 path))
         (repeat None (Z.to_nat space));;
  lens <- mapM (fun i => k <- rd pids i;; pb <- rd psum k;; b <- rd nb k;; so <- rd srs k;;
                         x <- rd mem (so + (i - pb) * b);; len <- x;; check (0 <? len);; check (len <? b);; Some len) (zrange tot);;
  let rs2 := exsum lens in
  size <- rd rs2 tot;;
  ids2 <- row_splits_to_row_ids rs2 size;;
  vals <- mapM (fun t => i <- rd ids2 t;; o <- rd rs2 i;; k <- rd pids i;; pb <- rd psum k;; b <- rd nb k;; so <- rd srs k;;
                         x <- rd mem (so + (i - pb) * b + (1 + (t - o)));; x) (zrange size);;
  Some (psum, rs2, vals).

(** fsa_utils.cu:2656-2680: the number of paths of each FSA *)
Definition num_paths_of (n : Z) (tot : list (option R)) : list Z := map (fun t => if is_ninf t then 0 else n) tot.

(** fsa_algo.py:924-974 random_paths *)
Definition random_paths (gpu : bool) (log_power : nat) (sched : list Z) (ord : Z -> list Z) (v : fsavec) (scores : list (option R)) (n : Z)
  : option (list Z * list Z * list Z) :=
  check (0 <? n);;
  post <- get_arc_post true log_power sched ord v scores;;
  cdf <- get_arc_cdf ord v post;;
  tot <- get_tot_scores true log_power sched ord v scores;;
  sb <- get_state_batches log_power sched v;;
  let '(l1, l2, _) := sb in
  random_paths_of gpu ord v cdf (num_paths_of n tot) (l_rs l1) (l_rs l2).
