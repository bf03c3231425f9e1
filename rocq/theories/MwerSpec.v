(** * Specification of the minimum word error rate loss *)
From Coq Require Import ZArith List Reals.
From Verif Require Import Base FstSpec.
Import ListNotations.
Open Scope Z_scope.

Definition rsum (xs : list R) : R := fold_right Rplus 0%R xs.

(** The probability of a path among the paths of its utterance: the softmax of the
    path scores divided by the temperature *)
Definition path_prob {P} (score : P -> R) (temperature : R) (row : list P) (p : P) : R :=
  (exp (score p / temperature) / rsum (map (fun q => exp (score q / temperature)) row))%R.

(** For every path of every utterance, its probability times the number of word
    errors *)
Definition path_losses {P} (score : P -> R) (temperature : R) (word_seq : P -> list Z)
    (refs : list (list Z)) (K : list (list P)) : list (list R) :=
  map (fun x => map (fun p => (path_prob score temperature (snd x) p * IZR (levenshtein (fst x) (word_seq p)))%R) (snd x)) (combine refs K).

(** The number of cells of the Levenshtein tables of all the sampled paths *)
Definition mwer_size {P} (word_seq : P -> list Z) (refs : list (list Z)) (x : list (list P)) : Z :=
  zsum (map (fun y => zsum (map (fun p => (zlen (fst y) + 2) * (zlen (word_seq p) + 2)) (snd y))) (combine refs x)).
