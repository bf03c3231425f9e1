(** * Specification of the HAT loss *)
From Coq Require Import ZArith List Reals.
From Verif Require Import Base RnntModel LogReal MutualInfoSpec RnntLossModel RnntLossSpec.
Import ListNotations.
Open Scope Z_scope.

(** The hybrid autoregressive transducer first decides by a coin whether to emit a
    blank (class 0); if not, the symbol is drawn with the softmax of the other
    classes. *)
Definition sigmoid (x : R) : R := (/ (1 + exp (- x)))%R.
Definition hat_prob (l : list (option R)) (c : Z) : R :=
  match l with
  | Some x :: l' => if c =? 0 then sigmoid x else ((1 - sigmoid x) * softmax l' (c - 1))%R
  | _ => 0%R
  end.
Definition hat_class_prob (logits : joiner) (s t c : Z) : R :=
  match rd2 logits t s with Some l => hat_prob l c | None => 0%R end.

(** The probability of an alignment from c, when a symbol is emitted at (s, t) with
    probability [emit s t] and a blank with probability [blank s t]: the product.  As
    in RnntLossSpec, a constrained symbol is followed by a blank on the same frame, and
    [pen] favours symbols on early frames. *)
Fixpoint align_prod (k : rnnt_type) (pen : R) (emit blank : Z -> Z -> R) (te : Z) (c : Z * Z) (l : list bool) : R :=
  match l with
  | [] => 1%R
  | x :: l' =>
      let '(s, t) := c in
      ((if x then emit s t * (match k with Constrained => blank (s + 1)%Z t | _ => 1 end) * exp (pen * (IZR (te - 1) / 2 - IZR t))
        else blank s t) * align_prod k pen emit blank te (move (negb (is_reg k)) c x) l')%R
  end.
Definition hat_emit (logits : joiner) (y : list Z) (s t : Z) : R :=
  match rd y s with Some c => hat_class_prob logits s t c | None => 0%R end.

(** The blank has a finite logit, and so has another class *)
Definition hat_finite (logits : list joiner) : Prop :=
  forall b lg t s l, rd logits b = Some lg -> rd2 lg t s = Some l -> exists x l' z, l = Some x :: l' /\ In (Some z) l'.
