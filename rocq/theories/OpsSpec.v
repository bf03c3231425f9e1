(** * Specification vocabulary for index_select / index_add / arc maps.
    Independent of the model in OpsModel.v. *)
From Coq Require Import ZArith List Bool.
From Verif Require Import Base.
Import ListNotations.
Open Scope Z_scope.

(** index vectors: every entry is -1 or a position of a vector of length n *)
Definition idx_ok (n : Z) (idx : list Z) : Prop := Forall (fun j => -1 <= j < n) idx.

(** element j of a vector, or [d] when there is none *)
Definition sel {A} (d : A) (x : list A) (j : Z) : A := match rd x j with Some v => v | None => d end.

(** inner products of vectors and of matrices given by their rows *)
Definition dot (x y : list Z) : Z := zsum (map (fun p => fst p * snd p) (combine x y)).
Definition dot2 (x y : list (list Z)) : Z := zsum (map (fun p => dot (fst p) (snd p)) (combine x y)).

(** the total of the values whose index is k *)
Definition total_at (index value : list Z) (k : Z) : Z :=
  zsum (map snd (filter (fun p => fst p =? k) (combine index value))).

(** arc maps as partial functions: -1 = undefined *)
Definition as_map (m : list Z) (i : Z) : option Z :=
  match rd m i with Some j => if j =? -1 then None else Some j | None => None end.
Definition comp (f g : Z -> option Z) (i : Z) : option Z :=
  match g i with Some j => f j | None => None end.
