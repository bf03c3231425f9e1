(** * Specification of RemoveEpsilon and RemoveEpsilonAndAddSelfLoops for batches *)
From Coq Require Import ZArith List.
From Verif Require Import Base RaggedModel RaggedSpec FsaSpec FsaLemmas FsaOpsModel OpsModel ScoreSpec ShortestSpec RmEpsSpec.
Import ListNotations.
Open Scope Z_scope.

(** [h] accepts the strings of [f] with the same best scores; its epsilon arcs are one
    self-loop of score zero on each state but the final one.  [der] is the arc map: for
    each arc of [h] the arcs of [f] it stands for, none for a self-loop. *)
Definition epsilon_loops_only (f h : nfsa) (der : list (list Z)) : Prop :=
  let back q := concat (map (fun j => match rd der j with Some d => d | None => [] end) q) in
  (forall s st, rd h s = Some st -> filter (fun a => lab a =? 0) st = if s =? final h then [] else [mkArc s s 0 0]) /\
  zlen der = zlen (all_arcs h) /\
  (forall j a, rd (all_arcs h) j = Some a -> lab a = 0 -> rd der j = Some []) /\
  (forall q, successful h q ->
     successful f (back q) /\ strip (labels (arcs_at f (back q))) = strip (labels (arcs_at h q)) /\
     score (arcs_at f (back q)) = score (arcs_at h q)) /\
  (forall p, successful f p -> exists q,
     successful h q /\ strip (labels (arcs_at h q)) = strip (labels (arcs_at f p)) /\ score (arcs_at f p) <= score (arcs_at h q)).

(** The result for a batch.  The arc map gives positions in the whole batch: the position
    in the FSA plus the number of arcs of the FSAs before it. *)
Definition batch_result (P : nfsa -> nfsa -> list (list Z) -> Prop) (fs : list nfsa) (r : fsavec * list (list Z)) : Prop :=
  exists gs ders, r = (flat_vec gs, concat ders) /\ zlen gs = zlen fs /\ zlen ders = zlen fs /\
  forall i f g d, rd fs i = Some f -> rd gs i = Some g -> rd ders i = Some d ->
    exists der, d = map (map (Z.add (off1 (map all_arcs fs) i))) der /\ P f g der /\ (valid g \/ g = []).
