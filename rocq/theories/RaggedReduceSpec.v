(** * Specification of the reductions of a ragged tensor *)
From Coq Require Import ZArith List Reals Permutation.
From Verif Require Import Base LogReal ScoreModel RaggedReduceModel.
Import ListNotations.
Open Scope Z_scope.

Definition rsum (l : list R) : R := fold_right Rplus 0%R l.

(** x <= y, with -inf as the least value *)
Definition lle (x y : option R) : Prop :=
  match x, y with None, _ => True | Some _, None => False | Some a, Some b => (a <= b)%R end.
(** the greatest and the least of some values *)
Definition greatest (l : list (option R)) (m : option R) : Prop := In m l /\ forall x, In x l -> lle x m.
Definition least (l : list (option R)) (m : option R) : Prop := In m l /\ forall x, In x l -> lle m x.

(** Index [idx] is the argmax of a row whose first element has index [off]: -1 if
    every element is less than the initial value, otherwise that of the last of
    its greatest elements. *)
Definition is_argmax (init : option R) (off : Z) (row : list (option R)) (idx : Z) : Prop :=
  idx = -1 /\ (forall x, In x row -> ~ lle init x) \/
  exists k m, idx = off + k /\ rd row k = Some m /\ lle init m /\ (forall x, In x row -> lle x m) /\
    forall k' x, k < k' -> rd row k' = Some x -> ~ lle m x.

(** the elements of a row, each with its index in the tensor *)
Fixpoint number (j : Z) (row : list (option R)) : list (option R * Z) := match row with [] => [] | x :: row' => (x, j) :: number (j + 1) row' end.

(** A parallel reduction of a row on the GPU: any order, any tree *)
Definition cuda_result {A} (op : A -> A -> A) (init : A) (row : list A) (out : A) : Prop :=
  exists t, Permutation (rleaves t) (init :: row) /\ out = reval op t.

(** Element k of row i changed by h *)
Definition bump1 (row : list R) (k : Z) (h : R) : list R :=
  map (fun p => if (fst p =? k) then (snd p + h)%R else snd p) (combine (zrange (zlen row)) row).
Definition bump (xs : list (list R)) (i k : Z) (h : R) : list (list R) :=
  map (fun p => if (fst p =? i) then bump1 (snd p) k h else snd p) (combine (zrange (zlen xs)) xs).

(** What a tensor of gradients holds *)
Definition logical (g : vec1) (n : Z) (l : list R) : Prop :=
  zlen l = n /\ forall i d, rd l i = Some d -> rd (g_mem g) (i * g_stride g) = Some d.

Definition dot (g l : list R) : R := rsum (map (fun p => fst p * snd p)%R (combine g l)).

(** [grad] is the gradient of the function sum_i g_i f_i(xs): every entry is the
    partial derivative with respect to that element. *)
Definition is_gradient (f : list (list R) -> list R) (g : list R) (xs grad : list (list R)) : Prop :=
  map zlen grad = map zlen xs /\
  forall i k d row, rd grad i = Some row -> rd row k = Some d ->
    derivable_pt_lim (fun h => dot g (f (bump xs i k h))) 0 d.

(** log-softmax of a row *)
Definition lnorm (row : list R) : list R := map (fun x => x - ln (rsum (map exp row)))%R row.
(** the index of the first element of row i among all elements *)
Definition first_index {A} (xs : list (list A)) (i : Z) : Z := zlen (concat (firstn (Z.to_nat i) xs)).
