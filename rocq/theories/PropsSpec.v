(** * Specification of the property bits (k2/csrc/fsa.h:73-100 and
      k2/python/k2/fsa_properties.py), on an FSA given as the list, state by
      state, of the arcs leaving it. *)
From Coq Require Import ZArith List Bool Sorting.Sorted.
From Verif Require Import Base FsaSpec.
Import ListNotations.
Open Scope Z_scope.

(** Testing a bit the way users do: [properties & MASK != 0]. *)
Definition has (p mask : Z) : Prop := Z.land p mask <> 0.

(** Labels are 32-bit integers; they are ordered as unsigned numbers, so -1
    comes last. *)
Definition int32_labels (f : nfsa) : Prop := forall a, In a (all_arcs f) -> - 2 ^ 31 <= lab a < 2 ^ 31.
Definition label_key (a : arc) : Z := if lab a <? 0 then lab a + 2 ^ 32 else lab a.
Definition label_lt (a b : arc) : Prop := label_key a < label_key b.
(** "sorted by label first and then on dest_state" *)
Definition arc_le (a b : arc) : Prop :=
  label_lt a b \/ (lab a = lab b /\ dst a <= dst b).

Definition p_valid (f : nfsa) : Prop :=
  src_ok f /\
  forall a, In a (all_arcs f) ->
    0 <= dst a < nstates f /\ -1 <= lab a /\ (lab a = -1 <-> dst a = final f).
Definition p_nonempty (f : nfsa) : Prop := exists a, In a (all_arcs f).
Definition p_topsorted (f : nfsa) : Prop := forall a, In a (all_arcs f) -> src a <= dst a.
Definition p_topsorted_acyclic (f : nfsa) : Prop := forall a, In a (all_arcs f) -> src a < dst a.
Definition p_arcsorted (f : nfsa) : Prop := forall st, In st f -> StronglySorted arc_le st.
Definition p_deterministic (f : nfsa) : Prop := forall st, In st f -> StronglySorted label_lt st.
Definition p_epsfree (f : nfsa) : Prop := forall a, In a (all_arcs f) -> lab a <> 0.
(** No state, except the start state, without an arc from another state. *)
Definition p_accessible (f : nfsa) : Prop :=
  forall s, 0 < s < nstates f -> exists a, In a (all_arcs f) /\ dst a = s /\ src a <> s.
(** No state, except the final state, without an arc to another state. *)
Definition p_coaccessible (f : nfsa) : Prop :=
  forall s st, rd f s = Some st -> s < final f -> exists a, In a st /\ dst a <> src a.
