(** * Specification of the RNN-T loss *)
From Coq Require Import ZArith List Reals.
From Verif Require Import Base RnntModel LogReal MutualInfoSpec RnntLossModel.
Import ListNotations.
Open Scope Z_scope.

(** The softmax of a vector of logits: the probability of class [c] *)
Definition softmax (l : list (option R)) (c : Z) : R :=
  (match rd l c with Some x => expo x | None => 0 end / sumf expo l)%R.

(** The output of the joiner for one utterance: a vector of logits for every frame t
    and number of symbols s emitted before *)
Definition joiner := list (list (list (option R))).
Definition class_prob (logits : joiner) (s t c : Z) : R :=
  match rd2 logits t s with Some l => softmax l c | None => 0%R end.

(** An alignment is a list of decisions: [true] emits the next symbol, [false] a
    blank, which moves on to the next frame.  In the modified and constrained
    topologies a symbol moves on to the next frame, too.  It starts after [sb]
    symbols on frame [tb] and ends when [se] symbols are emitted and the frames
    before [te] are used up; every symbol is emitted on such a frame. *)
Definition alignment (k : rnnt_type) (sb tb se te : Z) (l : list bool) : Prop :=
  walk (negb (is_reg k)) (sb, tb) l = (se, te) /\
  forall l1 l2, l = l1 ++ true :: l2 -> snd (walk (negb (is_reg k)) (sb, tb) l1) < te.
Definition all_alignments (k : rnnt_type) (sb tb se te : Z) (L : list (list bool)) : Prop :=
  NoDup L /\ forall l, In l L <-> alignment k sb tb se te l.

(** The probability of a decision after s symbols on frame t.  In the constrained
    topology a symbol is followed by a blank on the same frame.  [pen]: a symbol on
    frame t is favoured by the factor exp(pen * (middle frame - t)). *)
Definition decision_prob (k : rnnt_type) (pen : R) (logits : joiner) (y : list Z) (term te : Z) (c : Z * Z) (x : bool) : R :=
  let '(s, t) := c in
  if x then
    (match rd y s with Some v => class_prob logits s t v | None => 0 end
     * (match k with Constrained => class_prob logits (s + 1) t term | _ => 1 end)
     * exp (pen * (IZR (te - 1) / 2 - IZR t)))%R
  else class_prob logits s t term.
(** That of an alignment: the product *)
Fixpoint align_prob (k : rnnt_type) (pen : R) (logits : joiner) (y : list Z) (term te : Z) (c : Z * Z) (l : list bool) : R :=
  match l with
  | [] => 1%R
  | x :: l' => (decision_prob k pen logits y term te c x * align_prob k pen logits y term te (move (negb (is_reg k)) c x) l')%R
  end.

(** The likelihood that a loss denotes: exp(-loss); +inf is [None] *)
Definition likelihood (loss : option R) : R := match loss with Some x => exp (- x) | None => 0%R end.

(** The joiner of rnnt_loss_simple: addition *)
Definition add_joiner (T S1 : Z) (lm am : list (list (option R))) (logits : joiner) : Prop :=
  zlen logits = T /\
  (forall t row, rd logits t = Some row -> zlen row = S1) /\
  forall t s a l, rd am t = Some a -> rd lm s = Some l -> rd2 logits t s = Some (map (fun xy => ladd (fst xy) (snd xy)) (combine a l)).

(** Every vector of logits has a finite entry *)
Definition finite_logits (logits : list joiner) : Prop :=
  forall b lg t s l, rd logits b = Some lg -> rd2 lg t s = Some l -> exists x, In (Some x) l.

(** What a loss gives for each reduction, from the losses of the utterances:
    their sum, their mean (of a batch that is not empty); another is refused. *)
Definition reduces (f : reduction -> option loss_out) : Prop := forall losses, f RNone = Some (Each losses) ->
  f RSum = Some (One (fold_right ladd (Some 0%R) losses)) /\
  (losses <> [] -> f RMean = Some (One (option_map (fun x => x / IZR (zlen losses))%R (fold_right ladd (Some 0%R) losses)))) /\
  f ROther = None.
