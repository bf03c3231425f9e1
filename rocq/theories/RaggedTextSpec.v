(** * Specification of the text form of ragged tensors *)
From Coq Require Import ZArith List Lia Bool.
From Verif Require Import Base PyBase FsaTextModel FsaTextSpec FromListModel.
Import ListNotations.
Open Scope Z_scope.

(** white space and commas *)
Definition gap (w : str) : Prop := Forall (fun c => cws c = true \/ c = 44) w.
Definition blank (w : str) : Prop := Forall (fun c => cws c = true) w.
(** a number ends here *)
Definition stop (s : str) : Prop := match s with [] => True | c :: _ => digit c = false end.
(** what follows an item: after a number no digit *)
Definition ends (v : pyval Z) (s : str) : Prop := match v with PElem _ => stop s | PList _ => True end.

(** [spells v s]: the text s denotes the nested list v: numbers in decimal, lists in
    brackets; white space and commas separate the items, in any amount. *)
Inductive spells : pyval Z -> str -> Prop :=
| sp_int t v : int_tok t v -> spells (PElem v) t
| sp_list l s : spells_in l s -> spells (PList l) (91 :: s)
(** the rest of a list after some of its items, up to its closing bracket *)
with spells_in : list (pyval Z) -> str -> Prop :=
| in_end w : gap w -> spells_in [] (w ++ [93])
| in_item w v t l s : gap w -> spells v t -> spells_in l s -> ends v s -> spells_in (v :: l) (w ++ t ++ s).

Scheme spells_ind2 := Induction for spells Sort Prop
with spells_in_ind2 := Induction for spells_in Sort Prop.
Combined Scheme spells_mut from spells_ind2, spells_in_ind2.
