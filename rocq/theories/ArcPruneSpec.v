(** * Specification of pruning by arc posteriors *)
From Coq Require Import ZArith List Sorted Reals.
From Verif Require Import Base FsaSpec LogReal ScoreSpec.
Import ListNotations.
Open Scope Z_scope.

(** The probability of a successful path: its weight over that of all of them; [w]
    gives the scores of the arcs *)
Definition path_probability (f : nfsa) (w : Z -> option R) (p : list Z) (q : R) : Prop :=
  exists T, path_sum true w (successful f) (Some T) /\ q = (expo (pweight w p) / exp T)%R.
(** The probability that a path has one of the properties [P] *)
Definition probability (f : nfsa) (w : Z -> option R) (P : list Z -> Prop) (q : R) : Prop :=
  exists x T, path_sum true w (successful f) (Some T) /\ path_sum true w (fun p => successful f p /\ P p) x /\ q = (expo x / exp T)%R.

(** [g] has the states of [f] and of its arcs those at the positions [kept], in the
    same order *)
Definition pruned (f g : nfsa) (kept : list Z) : Prop :=
  zlen g = zlen f /\ StronglySorted Z.lt kept /\ mapM (rd (all_arcs f)) kept = Some (all_arcs g) /\
  Forall2 (fun st st' => incl st' st) f g.

(** The arcs kept are those that a path crosses with a probability of at least [thr] *)
Definition kept_above (f : nfsa) (w : Z -> option R) (thr : R) (kept : list Z) : Prop :=
  forall j q, 0 <= j < zlen (all_arcs f) -> probability f w (In j) q -> (In j kept <-> (thr <= q)%R).
