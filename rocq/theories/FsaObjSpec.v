(** * Vocabulary for the properties of Fsa objects *)
From Coq Require Import ZArith List Bool String.
From Verif Require Import Base PyBase FsaSpec FsaObjModel.
Import ListNotations.
Open Scope Z_scope.

(** Operations excluded from the positive theorems. *)
Definition no_detach (x : op) : Prop := match x with ODetach _ => False | _ => True end.
Definition no_del_entering (x : op) : Prop := match x with ODel _ n => n <> s2z "entering_arcs" | _ => True end.

(** The dictionaries of an object have no duplicate names (always true of
    python dictionaries). *)
Definition nd (V : Type) (o : obj V) : Prop := NoDup (keys (o_tens V o)) /\ NoDup (keys (o_non V o)).

(** The part of a name after a prefix, and the name with its prefix "labels"
    and "aux_labels" exchanged. *)
Definition rest (p k : str) : str := skipn (List.length p) k.
Definition swap_name (k : str) : str :=
  if prefix_of (s2z "labels") k then s2z "aux_labels" ++ rest (s2z "labels") k
  else if prefix_of (s2z "aux_labels") k then s2z "labels" ++ rest (s2z "aux_labels") k
  else k.

(** The final-arc convention applied to a label: -1 exactly on the arcs into
    the final state ([nst - 1]); elsewhere a -1 becomes 0. *)
Definition fixed (nst : Z) (a : arc) (x : Z) : Z := if dst a + 1 =? nst then -1 else if x =? -1 then 0 else x.
(** The same arcs with the labels replaced by [aux] (normalised). *)
Definition inverted (f : fsa) (aux : list Z) : fsa :=
  mkFsa (row_splits f) (map (fun p => mkArc (src (fst p)) (dst (fst p)) (fixed (zlen (row_splits f) - 1) (fst p) (snd p)) (sc (fst p)))
                            (combine (arcs f) aux)).
