(** * Specification: the text of a ragged shape; every element is written x *)
From Coq Require Import ZArith List.
From Verif Require Import Base PyBase FsaTextModel FromListModel RaggedTextSpec.
Import ListNotations.
Open Scope Z_scope.

(** [shape_spells v s]: the text s denotes the nested list v, in which the elements are
    all 1; white space, in any amount, may stand between the items. *)
Inductive shape_spells : pyval Z -> str -> Prop :=
| sh_x : shape_spells (PElem 1) [120]
| sh_list l s : shape_in l s -> shape_spells (PList l) (91 :: s)
with shape_in : list (pyval Z) -> str -> Prop :=
| shi_end w : blank w -> shape_in [] (w ++ [93])
| shi_item w v t l s : blank w -> shape_spells v t -> shape_in l s -> shape_in (v :: l) (w ++ t ++ s).

Scheme shape_spells_ind2 := Induction for shape_spells Sort Prop
with shape_in_ind2 := Induction for shape_in Sort Prop.
Combined Scheme shape_spells_mut from shape_spells_ind2, shape_in_ind2.
