(** * Specification: several terms scored along the same lattice paths *)
From Coq Require Import ZArith List Reals.
From Verif Require Import Base RnntModel LogReal MutualInfoSpec.
Import ListNotations.
Open Scope Z_scope.

(** A term: its px and its py for one utterance *)
Notation term := (list (list (option R)) * list (list (option R)))%type (only parsing).

(** The probability of a path: the product over the terms *)
Definition joint_prob (modified : bool) (terms : list term) (c : Z * Z) (l : list bool) : R :=
  fold_right (fun xy r => expo (weight modified (fst xy) (snd xy) c l) * r)%R 1%R terms.
Definition joint_total (modified : bool) (terms : list term) (c : Z * Z) (L : list (list bool)) : R :=
  sumf (joint_prob modified terms c) L.

(** The log-score that one term gives to a path, entries below [lo] replaced by [lo] *)
Definition above_lo (lo : R) (v : option R) : R :=
  match v with Some r => if Rlt_dec r lo then lo else r | None => lo end.
Fixpoint score (modified : bool) (lo : R) (xy : term) (c : Z * Z) (l : list bool) : R :=
  match l with
  | [] => 0%R
  | a :: l' => (above_lo lo (edge (fst xy) (snd xy) c a) + score modified lo xy (move modified c a) l')%R
  end.
(** Its mean over the paths in L *)
Definition mean_score (modified : bool) (lo : R) (terms : list term) (xy : term) (c : Z * Z) (L : list (list bool)) : R :=
  (sumf (fun l => joint_prob modified terms c l * score modified lo xy c l)%R L / joint_total modified terms c L)%R.

(** The terms of utterance b *)
Definition slices (px py : list (list (list (list (option R))))) (b : Z) : option (list term) :=
  xs <- mapM (fun x => rd x b) px;; ys <- mapM (fun y => rd y b) py;; Some (combine xs ys).
