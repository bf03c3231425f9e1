(** * Model of the smoothed RNN-T loss: k2/python/k2/rnnt_loss.py:1471-1704
      get_rnnt_logprobs_smoothed and 1707-1829 rnnt_loss_smoothed.

    Scores are exact reals or -inf, as in RnntLossModel.  The smallest positive float
    that is added before two of the logarithms to avoid log(0) is left out. *)
From Coq Require Import ZArith List Bool Reals.
From Verif Require Import Base OpsModel RnntModel LogReal ScoreModel MutualInfoModel RnntLossModel.
Import ListNotations.
Open Scope Z_scope.

Definition rsum (l : list R) : R := sumf (fun x => x) l.
Definition dot (l a : list R) : R := sumf (fun xy => fst xy * snd xy)%R (combine l a).

(** x * scale; -inf times a number that is not positive is NaN or +inf, and the sum
    below then NaN: [None] *)
Definition lscale (scale : R) (x : option R) : option (option R) :=
  match x with Some a => Some (Some (a * scale)%R) | None => if Rlt_dec 0 scale then Some None else None end.
(** rnnt_loss.py:1687-1696: the interpolation, for one entry *)
Definition interp (combined_scale lm_only_scale am_only_scale : R) (x lmonly amonly : option R) : option (option R) :=
  a <- lscale combined_scale x;; b <- lscale lm_only_scale lmonly;; c <- lscale am_only_scale amonly;; Some (ladd (ladd a b) c).
(** rnnt_loss.py:1682-1685 *)
Definition nonzero_scale (scale : R) : R := if Req_EM_T scale 0 then (/ 100000000000000000000)%R else scale.

(** rnnt_loss.py:1603-1605 (am - am_max).exp() for one vector *)
Definition probs (l : list (option R)) : list R := map (fun x => expo (lsub x (vmax l))) l.

(** rnnt_loss.py:1614-1621 unigram_lm, of length C: the mean over all utterances and
    positions, of which [rows] are the vectors *)
Definition unigram (C : Z) (rows : list (list (option R))) : option (list R) :=
  tabM C (fun c =>
    vs <- mapM (fun l => let p := probs l in x <- rd p c;; Some (x / rsum p)%R) rows;;
    Some (rsum vs / IZR (zlen rows))%R).

(** rnnt_loss.py:1599-1704, one utterance: [lm] of shape (S + 1, C), [am] of shape
    (T, C), [unigram_lm] of length C.  The column T of px that the regular topology adds
    holds -inf, and its scaled version may be NaN.  When a boundary is given, this
    column is overwritten by fix_for_boundary or never read. *)
Definition logprobs_smoothed_row (k : rnnt_type) (S T : Z) (lm am : list (list (option R))) (unigram_lm : list R) (symbols : list Z)
    (term : Z) (lm_only_scale am_only_scale : R) (T_end : option Z) : option (list (list (option R)) * list (list (option R))) :=
  let am_max := map vmax am in
  let lm_max := map vmax lm in
  let am_probs := map probs am in
  let lm_probs := map probs lm in
  normalizers <- tabM2 (S + 1) T (fun s t =>
    l <- rd lm_probs s;; a <- rd am_probs t;; lx <- rd lm_max s;; ax <- rd am_max t;;
    Some (ladd (ladd (llog (dot l a)) lx) ax));;
  amonly_normalizers <- tabM T (fun t =>
    a <- rd am_probs t;; ax <- rd am_max t;; Some (ladd (llog (dot a unigram_lm)) ax));;
  let unigram_lm := map llog unigram_lm in
  lmonly_normalizers <- tabM (S + 1) (fun s =>
    l <- rd lm_probs s;; lx <- rd lm_max s;; Some (ladd (llog (rsum l)) lx));;
  px_am <- tabM2 S T (fun s t => c <- rd symbols s;; a <- rd am t;; rd a c);;
  px_lm <- tabM S (fun s => c <- rd symbols s;; l <- rd lm s;; rd l c);;
  px_lm_unigram <- tabM S (fun s => c <- rd symbols s;; rd unigram_lm c);;
  px <- tabM2 S T (fun s t => x <- rd2 px_am s t;; y <- rd px_lm s;; n <- rd2 normalizers s t;; Some (lsub (ladd x y) n));;
  px_amonly <- tabM2 S T (fun s t => x <- rd2 px_am s t;; y <- rd px_lm_unigram s;; n <- rd amonly_normalizers t;; Some (lsub (ladd x y) n));;
  px_lmonly <- tabM S (fun s => x <- rd px_lm s;; n <- rd lmonly_normalizers s;; Some (lsub x n));;
  py <- tabM2 (S + 1) T (fun s t =>
    a <- rd am t;; x <- rd a term;; l <- rd lm s;; y <- rd l term;; n <- rd2 normalizers s t;; Some (lsub (ladd x y) n));;
  py_amonly <- tabM T (fun t =>
    a <- rd am t;; x <- rd a term;; y <- rd unigram_lm term;; n <- rd amonly_normalizers t;; Some (lsub (ladd x y) n));;
  py_lmonly <- tabM (S + 1) (fun s => l <- rd lm s;; y <- rd l term;; n <- rd lmonly_normalizers s;; Some (lsub y n));;
  let combined_scale := (1 - lm_only_scale - am_only_scale)%R in
  let lm_only_scale := nonzero_scale lm_only_scale in
  let am_only_scale := nonzero_scale am_only_scale in
  px_interp <- tabM2 S (match k with Regular => T + 1 | _ => T end) (fun s t =>
    y <- rd px_lmonly s;;
    if t <? T then x <- rd2 px s t;; z <- rd2 px_amonly s t;; interp combined_scale lm_only_scale am_only_scale x y z
    else match T_end with
         | Some _ => Some lninf
         | None => interp combined_scale lm_only_scale am_only_scale lninf y lninf
         end);;
  py_interp <- tabM2 (S + 1) T (fun s t =>
    x <- rd2 py s t;; y <- rd py_lmonly s;; z <- rd py_amonly t;; interp combined_scale lm_only_scale am_only_scale x y z);;
  finish lninf ladd k T_end S T px_interp py_interp.

(** rnnt_loss.py:1581-1590 the checks, and the loop over the batch *)
Definition get_rnnt_logprobs_smoothed (k : rnnt_type) (B T S1 C : Z) (lm am : list (list (list (option R))))
    (symbols : list (list Z)) (term : Z) (lm_only_scale am_only_scale : R) (boundary : option (list (Z * Z * Z * Z)))
    : option (list (list (list (option R)) * list (list (option R)))) :=
  let S := S1 - 1 in
  check (shape3 B S1 C lm && shape3 B T C am && shape2 B S symbols);;
  _u <- validate_st_lengths S T (is_reg k) boundary;;
  unigram_lm <- unigram C (concat lm);;
  tabM B (fun b => l <- rd lm b;; a <- rd am b;; y <- rd symbols b;; te <- t_end boundary b;;
                   logprobs_smoothed_row k S T l a unigram_lm y term lm_only_scale am_only_scale te).

(** rnnt_loss.py:1707-1829 without return_grad *)
Definition rnnt_loss_smoothed (k : rnnt_type) (B T S1 C : Z) (lm am : list (list (list (option R)))) (symbols : list (list Z)) (term : Z)
    (lm_only_scale am_only_scale : R) (boundary : option (list (Z * Z * Z * Z))) (delay_penalty : R) (r : reduction) : option loss_out :=
  lp <- get_rnnt_logprobs_smoothed k B T S1 C lm am symbols term lm_only_scale am_only_scale boundary;;
  loss_of k B (S1 - 1) T delay_penalty boundary r lp.
