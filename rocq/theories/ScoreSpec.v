(** * Specification of path sums. *)
From Coq Require Import ZArith List Reals.
From Verif Require Import Base FsaSpec FsaLemmas LogReal ScoreModel.
Import ListNotations.
Open Scope Z_scope.

(** A path of [f] from [s] to [t], as the list of the positions of its arcs:
    two equal arcs at different positions are different. *)
Inductive apath (f : nfsa) : Z -> list Z -> Z -> Prop :=
| ap_nil s : apath f s [] s
| ap_cons j a p t : rd (all_arcs f) j = Some a -> apath f (dst a) p t -> apath f (src a) (j :: p) t.

(** The sum of the semiring: log-sum-exp or max *)
Definition splus (log_semiring : bool) : option R -> option R -> option R := if log_semiring then logadd None else lmax.
Definition ssum (log_semiring : bool) (l : list (option R)) : option R := fold_right (splus log_semiring) None l.

(** The score of a path: the sum of the scores of its arcs *)
Definition pweight (w : Z -> option R) (p : list Z) : option R := fold_right (fun j x => ladd (w j) x) lzero p.

(** [x] is the sum of the scores of all the paths with property P *)
Definition path_sum (log_semiring : bool) (w : Z -> option R) (P : list Z -> Prop) (x : option R) : Prop :=
  exists L : list (list Z), NoDup L /\ (forall p, In p L <-> P p) /\ x = ssum log_semiring (map (pweight w) L).

(** The score of arc [j] of FSA [k] of a batch; [off1 (map all_arcs fs) k] is the
    number of arcs of the FSAs before it. *)
Definition arc_score (fs : list nfsa) (scores : list (option R)) (k j : Z) : option R :=
  match rd scores (off1 (map all_arcs fs) k + j) with Some x => x | None => None end.

(** successful paths: from the start state to the final state (the last one) *)
Definition successful (f : nfsa) (p : list Z) : Prop := 0 < nstates f /\ apath f 0 p (nstates f - 1).
