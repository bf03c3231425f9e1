(** * Specification of N-axis ragged tensors: arbitrarily nested lists. *)
From Coq Require Import ZArith List Lia Bool.
From Verif Require Import Base RaggedSpec RaggedOpsModel.
Import ListNotations.
Open Scope Z_scope.

(** Lists nested [n] deep: [nest A 0 = A], [nest A 2 = list (list A)]. *)
Fixpoint nest (A : Type) (n : nat) : Type :=
  match n with O => A | S m => list (nest A m) end.

(** The flat form of a tensor with n+1 axes, given as [x : list (nest A n)]:
    one layer (row splits and row ids) per axis after the first, and the
    values. *)
Fixpoint layers_of {A} (n : nat) : list (nest A n) -> list layer :=
  match n return list (nest A n) -> list layer with
  | O => fun _ => []
  | S m => fun x => mk_layer (splits_of x) (ids_of x) :: layers_of m (concat x)
  end.
Fixpoint values_of {A} (n : nat) : list (nest A n) -> list A :=
  match n return list (nest A n) -> list A with
  | O => fun x => x
  | S m => fun x => values_of m (concat x)
  end.

(** The sublist that index j selects; -1 denotes an empty list. *)
Definition pick {A} (x : list (list A)) (j : Z) : list A :=
  match rd x j with Some l => l | None => [] end.

(** Legal indexes for IndexAxis0. *)
Definition index_ok {A} (x : list A) (idx : list Z) : Prop :=
  Forall (fun j => -1 <= j < zlen x) idx.

(** Flattening one nesting level: axis 0 concatenates the outermost lists,
    axis k+1 flattens axis k inside every sublist.  (Removing axis k of a
    tensor with n+2 axes, k <= n.) *)
Fixpoint flatten_axis {A} (k n : nat) : list (nest A (S n)) -> list (nest A n) :=
  match k, n return list (nest A (S n)) -> list (nest A n) with
  | O, n => fun x => concat x
  | S k', S n' => fun x => map (flatten_axis k' n') x
  | S _, O => fun x => concat x
  end.

(** Row-wise concatenation of several two-axis tensors with the same number
    of rows. *)
Definition cat_rows {A} (xs : list (list (list A))) (rows : Z) : list (list A) :=
  map (fun i => concat (map (fun x => pick x i) xs)) (zrange rows).
