(** * Specification vocabulary for ragged arrays (independent of the model). *)
From Coq Require Import ZArith List Lia Bool.
From Verif Require Import Base.
Import ListNotations.
Open Scope Z_scope.

(** [rs] is a legal row_splits vector for [n] elements: starts with 0, never
    decreases and ends with [n]. *)
Definition row_splits_ok (rs : list Z) (n : Z) : Prop :=
  1 <= zlen rs /\
  rd rs 0 = Some 0 /\
  rd rs (zlen rs - 1) = Some n /\
  (forall i a b, rd rs i = Some a -> rd rs (i + 1) = Some b -> a <= b).

(** [ids] is a legal row_ids vector for [rows] rows. *)
Definition row_ids_ok (ids : list Z) (rows : Z) : Prop :=
  (forall i r, rd ids i = Some r -> 0 <= r < rows) /\
  (forall i a b, rd ids i = Some a -> rd ids (i + 1) = Some b -> a <= b).

(** Element [i] belongs to row [r] according to [rs]. *)
Definition in_row (rs : list Z) (i r : Z) : Prop :=
  exists a b, rd rs r = Some a /\ rd rs (r + 1) = Some b /\ a <= i < b.

(** The flat form of a list of lists. *)
Definition splits_of {A} (ll : list (list A)) : list Z := exsum (map zlen ll).
Fixpoint ids_from {A} (r : Z) (ll : list (list A)) : list Z :=
  match ll with
  | [] => []
  | l :: t => repeat r (length l) ++ ids_from (r + 1) t
  end.
Definition ids_of {A} (ll : list (list A)) : list Z := ids_from 0 ll.
