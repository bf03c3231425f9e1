(** * Specification of the device version of epsilon removal *)
From Coq Require Import ZArith List.
From Verif Require Import Base RaggedModel RaggedSpec FsaSpec FsaLemmas FsaOpsModel OpsModel PropsSpec ScoreSpec ShortestSpec RmEpsSpec.
Import ListNotations.
Open Scope Z_scope.

(** no cycle of epsilon arcs has a positive score *)
Definition no_positive_eps_cycle (f : nfsa) : Prop := forall s p, apath f s p s -> (forall a, In a (arcs_at f p) -> lab a = 0) -> score (arcs_at f p) <= 0.
(** no two epsilon arcs of a state enter the same state *)
Definition no_parallel_eps (f : nfsa) : Prop := forall st, In st f -> NoDup (map dst (filter (fun a => lab a =? 0) st)).

(** The result for a batch: for each FSA a sorted FSA without epsilons and with the same
    best scores (with no states, when the FSA had no arcs).  The arc map gives positions
    in the whole batch: the position in the FSA plus the number of arcs of the FSAs
    before it. *)
Definition removed_batch (fs : list nfsa) (r : fsavec * list (list Z)) : Prop :=
  exists gs ders, r = (flat_vec gs, concat ders) /\ zlen gs = zlen fs /\ zlen ders = zlen fs /\
  forall i f g d, rd fs i = Some f -> rd gs i = Some g -> rd ders i = Some d ->
    exists der, d = map (map (Z.add (off1 (map all_arcs fs) i))) der /\ epsilon_removed f g der /\ p_arcsorted g /\
      (all_arcs f = [] -> g = []) /\ (all_arcs f <> [] -> valid g).
