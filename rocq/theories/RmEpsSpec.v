(** * Specification of epsilon removal *)
From Coq Require Import ZArith List.
From Verif Require Import Base RaggedSpec FsaSpec ScoreSpec ShortestSpec RmEpsModel.
Import ListNotations.
Open Scope Z_scope.

(** [g] has no epsilon arcs and accepts the same strings as [f] with the same best
    scores (epsilons are not counted in strings).  [der] is the arc map: for each arc of
    [g] the arcs of [f] it stands for, in order. *)
Definition epsilon_removed (f g : nfsa) (der : list (list Z)) : Prop :=
  let back q := concat (map (fun j => match rd der j with Some d => d | None => [] end) q) in
  (forall a, In a (all_arcs g) -> lab a <> 0) /\
  zlen der = zlen (all_arcs g) /\
  (forall q, successful g q ->
     successful f (back q) /\ strip (labels (arcs_at f (back q))) = labels (arcs_at g q) /\
     score (arcs_at f (back q)) = score (arcs_at g q)) /\
  (forall p, successful f p -> exists q,
     successful g q /\ labels (arcs_at g q) = strip (labels (arcs_at f p)) /\ score (arcs_at f p) <= score (arcs_at g q)).

(** Every state can be reached from the start state *)
Definition accessible (f : nfsa) : Prop := forall s, 0 <= s < nstates f -> exists p, apath f 0 p s.

(** What an FSA with derivatives should be: [g] in CSR form with the derivatives of its
    arcs.  Arcs of states that cannot be reached from the start state may have score
    NaN. *)
Definition removed_into (f : nfsa) (r : list Z * list oarc) (g : nfsa) : Prop :=
  fst r = splits_of g /\ valid g /\ epsilon_removed f g (map o_der (snd r)) /\
  zlen (snd r) = zlen (all_arcs g) /\
  forall k o a, rd (snd r) k = Some o -> rd (all_arcs g) k = Some a ->
    o_src o = src a /\ o_dst o = dst a /\ o_lab o = lab a /\
    (o_sc o = Some (sc a) \/ o_sc o = None /\ ~ exists q, apath g 0 q (src a)) /\
    (accessible f -> o_sc o = Some (sc a)).
