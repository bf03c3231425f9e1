(** * Specification: renumbering and trimming automata, topological order. *)
From Coq Require Import ZArith List Lia Bool Sorted.
From Verif Require Import Base RaggedSpec FsaSpec.
Import ListNotations.
Open Scope Z_scope.

(** Arcs are stored with the state they leave and enter states that exist. *)
Definition well_formed (f : nfsa) : Prop :=
  src_ok f /\ forall a, In a (all_arcs f) -> 0 <= dst a < nstates f.

(** [g] is the part of [f] on the states listed in [o]: state i of [g] is state
    o[i] of [f], and the arcs of [g] are those of [f] between listed states.
    [gm] gives, for every arc of [g], the arc of [f] it came from, the arcs of
    [f] being numbered from [base]. *)
Definition extracts (base : Z) (f : nfsa) (o : list Z) (g : nfsa) (gm : list Z) : Prop :=
  NoDup o /\ (forall s, In s o -> 0 <= s < nstates f) /\
  nstates g = zlen o /\ well_formed g /\ zlen gm = zlen (all_arcs g) /\
  (forall q b i, rd (all_arcs g) q = Some b -> rd gm q = Some i ->
     exists j a, i = base + j /\ rd (all_arcs f) j = Some a /\
       rd o (src b) = Some (src a) /\ rd o (dst b) = Some (dst a) /\ lab b = lab a /\ sc b = sc a) /\
  (forall j a, rd (all_arcs f) j = Some a -> In (src a) o -> In (dst a) o -> In (base + j) gm) /\
  NoDup gm.

(** A state that lies on a path from the start state to the final state. *)
Definition useful (f : nfsa) (s : Z) : Prop :=
  0 <= s < nstates f /\
  (exists p, path (all_arcs f) 0 p s) /\ (exists q, path (all_arcs f) s q (final f)).

(** A cycle through at least two states. *)
Definition nontrivial_cycle (f : nfsa) : Prop :=
  exists s p a, path (all_arcs f) s p s /\ In a p /\ src a <> dst a.
