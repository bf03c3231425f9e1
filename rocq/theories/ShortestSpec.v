(** * Specification of best paths. *)
From Coq Require Import ZArith List Reals.
From Verif Require Import Base FsaSpec LogReal ScoreModel ScoreSpec.
Import ListNotations.
Open Scope Z_scope.

(** The linear FSA spelling a list of arcs: arc i goes from state i to i + 1 and
    keeps its label and score.  No arcs: no states. *)
Definition linear_of (p : list arc) : nfsa :=
  match p with [] => [] | _ => imap (fun i a => [mkArc i (i + 1) (lab a) (sc a)]) 0 p ++ [[]] end.
(** The arcs at the positions [p] of [f] *)
Definition arcs_at (f : nfsa) (p : list Z) : list arc :=
  flat_map (fun j => match rd (all_arcs f) j with Some a => [a] | None => [] end) p.

(** [p] is a best successful path: its score is finite and not below any other *)
Definition best_path (f : nfsa) (w : Z -> option R) (p : list Z) : Prop :=
  successful f p /\ exists x, pweight w p = Some x /\ forall p' x', successful f p' -> pweight w p' = Some x' -> (x' <= x)%R.
