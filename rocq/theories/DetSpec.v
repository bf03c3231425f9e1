(** * Specification of determinization *)
From Coq Require Import ZArith List.
From Verif Require Import Base FsaSpec ScoreSpec ShortestSpec.
Import ListNotations.
Open Scope Z_scope.

(** No state has two arcs with the same label *)
Definition deterministic (g : nfsa) : Prop :=
  forall i j a b, rd (all_arcs g) i = Some a -> rd (all_arcs g) j = Some b -> src a = src b -> lab a = lab b -> i = j.
(** The final state can be reached from every state *)
Definition coaccessible (f : nfsa) : Prop :=
  forall s, 0 <= s < nstates f -> exists p, apath f s p (final f).
(** No path leads from a state back to it *)
Definition acyclic (f : nfsa) : Prop := forall s p, apath f s p s -> p = [].

(** [g] is equivalent to [f]: the strings are the same, and so are their best scores.
    [der j] is the list of arcs of [f] that arc [j] of [g] stands for; put together
    along a path they are a best path of [f]. *)
Definition is_determinized (f g : nfsa) (der : list (list Z)) : Prop :=
  let back q := concat (map (fun j => match rd der j with Some d => d | None => [] end) q) in
  zlen der = zlen (all_arcs g) /\
  (forall q, successful g q ->
     successful f (back q) /\ labels (arcs_at f (back q)) = labels (arcs_at g q) /\
     score (arcs_at f (back q)) = score (arcs_at g q)) /\
  (forall p, successful f p -> exists q,
     successful g q /\ labels (arcs_at g q) = labels (arcs_at f p) /\ score (arcs_at f p) <= score (arcs_at g q)).

(** The 128-bit key of the state base and the label sequence [w] in the code, as pair
    of 64-bit numbers: the symbols are read from the last to the first. *)
Fixpoint key_loop (w : list Z) (a b : Z) : Z * Z :=
  match w with
  | [] => (a, b)
  | x :: w' => key_loop w' ((x + 102299 * a) mod 2 ^ 64) ((x + 102983 * b) mod 2 ^ 64)
  end.
Definition hash_key (base : Z) (w : list Z) : Z * Z :=
  let n := zlen w in
  let r := key_loop (rev w) ((17489 * n) mod 2 ^ 64) (n mod 2 ^ 64) in
  ((base + 14051 * fst r) mod 2 ^ 64, snd r).
(** No two pairs of a state and the labels of a path from it have the same key *)
Definition no_collision (f : nfsa) : Prop :=
  forall s p t s' p' t', 0 <= s < nstates f -> 0 <= s' < nstates f -> apath f s p t -> apath f s' p' t' ->
    hash_key s (labels (arcs_at f p)) = hash_key s' (labels (arcs_at f p')) -> s = s' /\ labels (arcs_at f p) = labels (arcs_at f p').
