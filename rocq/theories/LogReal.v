(** * Log-probabilities as exact reals extended with minus infinity.

    A float score is modelled by [option R]: [None] is -infinity.  Rounding,
    +infinity and NaN are not modelled. *)
From Coq Require Import Reals Lra List.
Import ListNotations.
Open Scope R_scope.

Notation lw := (option R) (only parsing).
Definition lzero : lw := Some 0.
Definition lninf : lw := None.

(** float addition on log-probabilities *)
Definition ladd (x y : lw) : lw :=
  match x, y with Some a, Some b => Some (a + b) | _, _ => None end.

(** k2/csrc/utils.h:512-563 LogAdd.  [cutoff] is K2_MIN_LOG_DIFF_FLOAT /
    K2_MIN_LOG_DIFF_DOUBLE; [None] switches the cut-off off (the exact
    log-sum-exp).  When one argument is -inf the difference is -inf (or NaN), so
    the comparison with the cut-off fails and the larger one is returned. *)
Definition above (cutoff : option R) (diff : R) : bool :=
  match cutoff with None => true | Some c => if Rle_dec c diff then true else false end.
Definition logadd (cutoff : option R) (x y : lw) : lw :=
  match x, y with
  | None, _ => y
  | _, None => x
  | Some a, Some b =>
      let '(diff, m) := if Rlt_dec a b then (a - b, b) else (b - a, a) in
      if above cutoff diff then Some (m + ln (1 + exp diff)) else Some m
  end.

(** The probability denoted by a log-probability. *)
Definition expo (x : lw) : R := match x with Some a => exp a | None => 0 end.

(** Sum over a list *)
Definition sumf {A} (f : A -> R) (l : list A) : R := fold_right (fun a s => f a + s) 0 l.
