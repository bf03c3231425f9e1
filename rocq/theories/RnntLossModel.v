(** * Model of the RNN-T losses: k2/python/k2/rnnt_loss.py:65-225 get_rnnt_logprobs,
      228-338 rnnt_loss_simple, 450-540 rnnt_loss, 1351-1468 rnnt_loss_pruned.

    Scores are exact reals or -inf ([None]); NaN is not modelled.  Tensors are
    nested lists as in RnntModel. *)
From Coq Require Import ZArith List Bool Reals.
From Verif Require Import Base OpsModel RnntModel LogReal ScoreModel MutualInfoModel.
Import ListNotations.
Open Scope Z_scope.

(** Subtraction of a finite float ([x - (-inf)] is NaN or +inf, not modelled) *)
Definition lsub (x n : option R) : option R :=
  match x, n with Some a, Some b => Some (a - b)%R | _, _ => None end.
(** log() of a number that is not negative *)
Definition llog (x : R) : option R := if Rlt_dec 0 x then Some (ln x) else None.
(** torch.logsumexp of a vector *)
Definition lse (l : list (option R)) : option R := llog (sumf expo l).
(** torch.max of a vector *)
Definition vmax (l : list (option R)) : option R := fold_right lmax None l.

(** rnnt_loss.py:166-225, one utterance: [lm] of shape (S + 1, C), [am] of shape
    (T, C).  Simplified: the smallest positive float that is added before the
    logarithm to avoid log(0) is left out. *)
Definition logprobs_simple_row (k : rnnt_type) (S T : Z) (lm am : list (list (option R))) (symbols : list Z)
    (term : Z) (T_end : option Z) : option (list (list (option R)) * list (list (option R))) :=
  let am_max := map vmax am in
  let lm_max := map vmax lm in
  am_probs <- tabM T (fun t => a <- rd am t;; m <- rd am_max t;; Some (map (fun x => expo (lsub x m)) a));;
  lm_probs <- tabM (S + 1) (fun s => l <- rd lm s;; m <- rd lm_max s;; Some (map (fun x => expo (lsub x m)) l));;
  normalizers <- tabM2 (S + 1) T (fun s t =>
    l <- rd lm_probs s;; a <- rd am_probs t;; lx <- rd lm_max s;; ax <- rd am_max t;;
    Some (ladd (ladd (llog (sumf (fun xy => fst xy * snd xy)%R (combine l a))) lx) ax));;
  px_am <- tabM2 S T (fun s t => c <- rd symbols s;; a <- rd am t;; rd a c);;
  let px_am := match k with Regular => map (fun row => row ++ [lninf]) px_am | _ => px_am end in
  px_lm <- tabM S (fun s => c <- rd symbols s;; l <- rd lm s;; rd l c);;
  px <- tabM2 S (match k with Regular => T + 1 | _ => T end) (fun s t =>
    x <- rd2 px_am s t;; y <- rd px_lm s;;
    if t <? T then n <- rd2 normalizers s t;; Some (lsub (ladd x y) n) else Some (ladd x y));;
  py <- tabM2 (S + 1) T (fun s t =>
    a <- rd am t;; x <- rd a term;; l <- rd lm s;; y <- rd l term;; n <- rd2 normalizers s t;; Some (lsub (ladd x y) n));;
  finish lninf ladd k T_end S T px py.

(** rnnt_loss.py:156-164 the checks, and the loop over the batch *)
Definition get_rnnt_logprobs (k : rnnt_type) (B T S1 C : Z) (lm am : list (list (list (option R))))
    (symbols : list (list Z)) (term : Z) (boundary : option (list (Z * Z * Z * Z)))
    : option (list (list (list (option R)) * list (list (option R)))) :=
  let S := S1 - 1 in
  check (shape3 B S1 C lm && shape3 B T C am && shape2 B S symbols);;
  _u <- validate_st_lengths S T (is_reg k) boundary;;
  tabM B (fun b => l <- rd lm b;; a <- rd am b;; y <- rd symbols b;; te <- t_end boundary b;;
                   logprobs_simple_row k S T l a y term te).

(** rnnt_loss.py:305-322, 508-525, 1440-1457: px += penalty.  T0: the columns of px *)
Definition add_penalty (k : rnnt_type) (T0 : Z) (delay_penalty : R) (boundary : option (list (Z * Z * Z * Z)))
    (px : list (list (list (option R)))) : option (list (list (list (option R)))) :=
  if Rlt_dec 0 delay_penalty then
    let T := match k with Regular => T0 - 1 | _ => T0 end in
    tabM (zlen px) (fun b =>
      x <- rd px b;;
      offset <- match boundary with
                | None => Some (IZR (T - 1) / 2)%R
                | Some bs => bd <- rd bs b;; Some (IZR (b_T bd - 1) / 2)%R
                end;;
      Some (map (imap (fun t v => ladd v (Some ((offset - IZR t) * delay_penalty)%R)) 0) x))
  else Some px.

Inductive reduction := RNone | RMean | RSum | ROther.
(** A tensor of one loss per utterance, or a scalar.  The loss +inf is [None]. *)
Inductive loss_out := Each (l : list (option R)) | One (x : option R).
Definition lneg (x : option R) : option R := match x with Some a => Some (- a)%R | None => None end.
Definition lsum (l : list (option R)) : option R := fold_right ladd lzero l.

(** rnnt_loss.py:324-338, 527-540, 1459-1468.  The mean of an empty tensor is NaN,
    and another reduction raises ValueError: [None]. *)
Definition reduce (r : reduction) (negated_loss : list (option R)) : option loss_out :=
  match r with
  | RNone => Some (Each (map lneg negated_loss))
  | RMean => check (0 <? zlen negated_loss);;
             Some (One (match lsum negated_loss with Some x => Some (- (x / IZR (zlen negated_loss)))%R | None => None end))
  | RSum => Some (One (lneg (lsum negated_loss)))
  | ROther => None
  end.

(** What the three losses do with the log-probabilities *)
Definition loss_of (k : rnnt_type) (B S T : Z) (delay_penalty : R) (boundary : option (list (Z * Z * Z * Z))) (r : reduction)
    (lp : list (list (list (option R)) * list (list (option R)))) : option loss_out :=
  let T0 := match k with Regular => T + 1 | _ => T end in
  px <- add_penalty k T0 delay_penalty boundary (map fst lp);;
  res <- mutual_information_recursion lzero lninf ladd (logadd None) B S T0 T px (map snd lp) boundary;;
  reduce r (map fst res).

(** rnnt_loss.py:450-540; (B, T, S1, C) is the shape of [logits] *)
Definition rnnt_loss (k : rnnt_type) (B T S1 C : Z) (logits : list (list (list (list (option R))))) (symbols : list (list Z)) (term : Z)
    (boundary : option (list (Z * Z * Z * Z))) (delay_penalty : R) (r : reduction) : option loss_out :=
  lp <- get_rnnt_logprobs_joint lninf ladd lsub lse k B T S1 C logits symbols term boundary;;
  loss_of k B (S1 - 1) T delay_penalty boundary r lp.

(** rnnt_loss.py:228-338 without return_grad (see C46 for the gradients);
    (B, S1, C) and (B, T, C) are the shapes of [lm] and [am] *)
Definition rnnt_loss_simple (k : rnnt_type) (B T S1 C : Z) (lm am : list (list (list (option R)))) (symbols : list (list Z)) (term : Z)
    (boundary : option (list (Z * Z * Z * Z))) (delay_penalty : R) (r : reduction) : option loss_out :=
  lp <- get_rnnt_logprobs k B T S1 C lm am symbols term boundary;;
  loss_of k B (S1 - 1) T delay_penalty boundary r lp.

(** rnnt_loss.py:1351-1468 with use_hat_loss=False; (B, T, s_range, C) is the shape
    of [logits] and (B, S) that of [symbols] *)
Definition rnnt_loss_pruned (k : rnnt_type) (B T s_range C S : Z) (logits : list (list (list (list (option R))))) (symbols : list (list Z))
    (ranges : list (list (list Z))) (term : Z) (boundary : option (list (Z * Z * Z * Z))) (delay_penalty : R) (r : reduction) : option loss_out :=
  lp <- get_rnnt_logprobs_pruned lninf ladd lsub lse k B T s_range C S logits symbols ranges term boundary;;
  loss_of k B S T delay_penalty boundary r lp.
