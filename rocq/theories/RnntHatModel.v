(** * Model of the loss of the Hybrid Autoregressive Transducer (HAT):
      k2/python/k2/rnnt_loss.py:992-1177 get_hat_logprobs_pruned and
      1351-1468 rnnt_loss_pruned with use_hat_loss=True.

    Scores are exact reals or -inf, as in RnntLossModel. *)
From Coq Require Import ZArith List Bool Reals.
From Verif Require Import Base OpsModel RnntModel LogReal ScoreModel MutualInfoModel RnntLossModel.
Import ListNotations.
Open Scope Z_scope.

(** torch.nn.functional.logsigmoid: log (1 / (1 + exp(-x))) *)
Definition logsigmoid (x : option R) : option R := match x with Some a => Some (ln (/ (1 + exp (- a)))) | None => None end.

(** rnnt_loss.py:1086-1177, one utterance: [logits] of shape (T, s_range, C),
    [ranges] of shape (T, s_range).  [r]: s_range *)
Definition logprobs_hat_row (k : rnnt_type) (S T r : Z) (logits : list (list (list (option R)))) (symbols : list Z)
    (ranges : list (list Z)) (term : Z) (T_end : option Z) : option (list (list (option R)) * list (list (option R))) :=
  logp_b <- tabM2 T r (fun t j => l <- rd2 logits t j;; x <- rd l 0;; Some (logsigmoid x));;
  nb_normalizers <- tabM2 T r (fun t j => l <- rd2 logits t j;; Some (lse (tl l)));;
  nb_shift <- tabM2 T r (fun t j => b <- rd2 logp_b t j;; l <- rd2 logits t j;; x <- rd l 0;; Some (lsub b x));;
  let symbols_with_terminal := symbols ++ [term] in
  pruned_symbols <- tabM2 T r (fun t j => i <- rd2 ranges t j;; rd symbols_with_terminal i);;
  px <- tabM2 T r (fun t j => c <- rd2 pruned_symbols t j;; l <- rd2 logits t j;; x <- rd l c;;
                              n <- rd2 nb_normalizers t j;; sh <- rd2 nb_shift t j;; Some (ladd (lsub x n) sh));;
  shifts <- tabM T (fun t => rd2 ranges t 0);;
  check (0 <=? S + 1 - r);;
  let fill := repeat lninf (Z.to_nat (S + 1 - r)) in
  px <- roll_by_shifts (S + 1) (map (fun row => row ++ fill) px) shifts;;
  px <- tabM2 S T (fun s t => rd2 px t s);;                         (* [:, :, :S], permute *)
  let px := match k with Regular => map (fun row => row ++ [lninf]) px | _ => px end in
  py <- roll_by_shifts (S + 1) (map (fun row => row ++ fill) logp_b) shifts;;
  py <- tabM2 (S + 1) T (fun s t => rd2 py t s);;
  finish lninf ladd k T_end S T px py.

(** rnnt_loss.py:1071-1084 the checks, and the loop over the batch.  Only the
    modified topology compares the lengths, and that of the padded tensors. *)
Definition get_hat_logprobs_pruned (k : rnnt_type) (B T r C S : Z) (logits : list (list (list (list (option R)))))
    (symbols : list (list Z)) (ranges : list (list (list Z))) (term : Z)
    (boundary : option (list (Z * Z * Z * Z))) : option (list (list (list (option R)) * list (list (option R)))) :=
  check (shape4 B T r C logits && shape3 B T r ranges && shape2 B S symbols);;
  check (match k with Modified => S <=? T | _ => true end);;
  check (term =? 0);;
  tabM B (fun b => l <- rd logits b;; y <- rd symbols b;; rg <- rd ranges b;; te <- t_end boundary b;;
                   logprobs_hat_row k S T r l y rg term te).

(** rnnt_loss.py:1351-1468 with use_hat_loss=True *)
Definition rnnt_loss_hat (k : rnnt_type) (B T s_range C S : Z) (logits : list (list (list (list (option R))))) (symbols : list (list Z))
    (ranges : list (list (list Z))) (term : Z) (boundary : option (list (Z * Z * Z * Z))) (delay_penalty : R) (r : reduction) : option loss_out :=
  lp <- get_hat_logprobs_pruned k B T s_range C S logits symbols ranges term boundary;;
  loss_of k B S T delay_penalty boundary r lp.
