(** * Specification of gradients of the total scores. *)
From Coq Require Import ZArith List Reals.
From Verif Require Import Base FsaSpec FsaLemmas LogReal ScoreModel ScoreSpec ShortestSpec.
Import ListNotations.
Open Scope Z_scope.

(** The scores with entry [q] replaced by [x] *)
Definition set_score (scores : list (option R)) (q : Z) (x : R) : list (option R) :=
  imap (fun i y => if i =? q then Some x else y) 0 scores.

(** A scalar loss: the sum of the total scores with coefficients [c] (the
    gradient of the loss w.r.t. the totals), over the FSAs whose total is finite *)
Definition loss (tot : option (list (option R))) (c : list R) : R :=
  match tot with
  | Some t => sumf (fun k => match rd c k, rd t k with Some g, Some (Some x) => (g * x)%R | _, _ => 0%R end) (zrange (zlen c))
  | None => 0%R
  end.

(** The best paths agree on the use of arc [j] (always so if there is only one) *)
Definition agree_on (f : nfsa) (w : Z -> option R) (j : Z) : Prop :=
  forall p p', best_path f w p -> best_path f w p' -> In j p -> In j p'.
