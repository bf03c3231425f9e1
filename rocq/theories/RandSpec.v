(** * Specification of the choice of paths by random_paths. *)
From Coq Require Import ZArith List.
From Verif Require Import Base.
Import ListNotations.
Open Scope Z_scope.

(** Lexicographic order on paths (lists of arc positions) *)
Fixpoint lex_lt (p p' : list Z) : Prop :=
  match p, p' with
  | [], _ :: _ => True
  | j :: q, j' :: q' => j < j' \/ j = j' /\ lex_lt q q'
  | _, [] => False
  end.
