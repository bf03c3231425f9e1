(** * Specification of the smoothed RNN-T loss *)
From Coq Require Import ZArith List Reals.
From Verif Require Import Base RnntModel LogReal MutualInfoSpec RnntLossModel RnntLossSpec.
Import ListNotations.
Open Scope Z_scope.

(** The vector whose softmax combines two models: the sum of their logits *)
Definition add_logits (a l : list (option R)) : list (option R) := map (fun xy => ladd (fst xy) (snd xy)) (combine a l).

(** The unigram language model: the average, over all utterances of the batch and all
    positions, of the distribution that the LM logits alone give; as logits *)
Definition average_lm (C : Z) (lm : list (list (list (option R)))) : list (option R) :=
  map (fun c => Some (ln (sumf (fun l => softmax l c) (concat lm) / IZR (zlen (concat lm))))) (zrange C).

(** The weighted geometric mean of three distributions over the classes: the joint one
    on frame t after s symbols, that of the LM after s symbols, and that of the acoustic
    model on frame t with the unigram LM.  The joint distribution gets what the two
    scales leave of 1; a scale of 0 counts as 10^-20. *)
Definition effective (scale : R) : R := if Req_EM_T scale 0 then (/ 10 ^ 20)%R else scale.
Definition smoothed_prob (lm_scale am_scale : R) (lm am : list (list (option R))) (uni : list (option R)) (s t c : Z) : R :=
  match rd lm s, rd am t with
  | Some l, Some a => (Rpower (softmax (add_logits a l) c) (1 - lm_scale - am_scale) *
                       Rpower (softmax l c) (effective lm_scale) * Rpower (softmax (add_logits a uni) c) (effective am_scale))%R
  | _, _ => 0%R
  end.
Definition smoothed_emit (lm_scale am_scale : R) lm am uni (y : list Z) (s t : Z) : R :=
  match rd y s with Some c => smoothed_prob lm_scale am_scale lm am uni s t c | None => 0%R end.

(** All logits are finite *)
Definition all_finite (x : list (list (list (option R)))) : Prop := Forall (Forall (Forall (fun v => v <> None))) x.
