(** * Specification: transducers, CTC collapsing and edit distance.

    An FST is an FSA with one output label per arc (the attribute aux_labels of
    the python class, one entry per arc).  An arc with its output label is a
    pair. *)
From Coq Require Import ZArith List Lia Bool.
From Verif Require Import Base RaggedSpec FsaSpec.
Import ListNotations.
Open Scope Z_scope.

Notation tarc := (arc * Z)%type.
(** state by state *)
Notation nfst := (list (list tarc)).

(** Paths; an arc may carry any attribute. *)
Inductive tpath {B} (T : list (arc * B)) : Z -> list (arc * B) -> Z -> Prop :=
| tpath_nil s : tpath T s [] s
| tpath_cons a p t : In a T -> tpath T (dst (fst a)) p t -> tpath T (src (fst a)) (a :: p) t.

Definition ilabels {B} (p : list (arc * B)) : list Z := map (fun a => lab (fst a)) p.
Definition olabels (p : list tarc) : list Z := map snd p.
Definition tscore {B} (p : list (arc * B)) : Z := zsum (map (fun a => sc (fst a)) p).

(** The transducer maps the frame sequence [x] (label 0 kept: it is the blank)
    to [y] (0 removed: it is epsilon) with score [s]. *)
Definition relates (T : nfst) (x y : list Z) (s : Z) : Prop :=
  exists p, tpath (concat T) 0 p (zlen T - 1) /\
    ilabels p = x ++ [-1] /\ strip (olabels p) = y ++ [-1] /\ tscore p = s.

(** The FSA underlying an FST, and the flat output of the code: row splits,
    arcs and aux labels. *)
Definition fsa_of (T : nfst) : nfsa := map (map fst) T.
Definition aux_of (T : nfst) : list Z := map snd (concat T).

(** ** CTC *)

(** Merge runs of equal symbols. *)
Fixpoint merge_runs (x : list Z) : list Z :=
  match x with
  | [] => []
  | a :: t => match t with
              | b :: _ => if a =? b then merge_runs t else a :: merge_runs t
              | [] => [a]
              end
  end.
(** The CTC collapse: merge repeats, then delete blanks. *)
Definition collapse (x : list Z) : list Z := strip (merge_runs x).

(** The relation of the modified topology: cut [x] into blocks of one repeated
    symbol; two neighbouring blocks may have the same symbol. *)
Definition blocks (x y : list Z) : Prop :=
  exists bs : list (Z * nat),
    Forall (fun b => (1 <= snd b)%nat) bs /\
    x = concat (map (fun b => repeat (fst b) (snd b)) bs) /\
    y = strip (map fst bs).

(** ** Edit distance *)

(** A weighted Levenshtein recursion: substitutions cost [cs], insertions and
    deletions [ci]. *)
Fixpoint edit (cs ci : Z) (x : list Z) : list Z -> Z :=
  match x with
  | [] => fun y => ci * zlen y
  | a :: x' =>
      fix go (y : list Z) : Z :=
        match y with
        | [] => ci * zlen x
        | b :: y' =>
            Z.min (edit cs ci x' y' + if a =? b then 0 else cs)
                  (Z.min (edit cs ci x' y + ci) (go y' + ci))
        end
  end.
Definition levenshtein : list Z -> list Z -> Z := edit 1 1.

(** Alignments of [x] with [y] that use [ns] substitutions and [ni] insertions
    and deletions. *)
Inductive align : list Z -> list Z -> Z -> Z -> Prop :=
| al_nil : align [] [] 0 0
| al_match a x y ns ni : align x y ns ni -> align (a :: x) (a :: y) ns ni
| al_subst a b x y ns ni : align x y ns ni -> align (a :: x) (b :: y) (ns + 1) ni
| al_del a x y ns ni : align x y ns ni -> align (a :: x) y ns (ni + 1)
| al_ins b x y ns ni : align x y ns ni -> align x (b :: y) ns (ni + 1).

(** FSTs whose arcs carry a list of output labels; input epsilons are ignored. *)
Definition relates_l (T : list (list (arc * list Z))) (x y : list Z) (s : Z) : Prop :=
  exists p, tpath (concat T) 0 p (zlen T - 1) /\ strip (ilabels p) = x ++ [-1] /\
            concat (map snd p) = y /\ tscore p = s.

(** The linear FST that reads the given (label, output label, score) items, one
    arc per item. *)
Fixpoint lin_arcs (k : Z) (its : list (Z * Z * Z)) : list tarc :=
  match its with
  | [] => []
  | it :: t => (mkArc k (k + 1) (fst (fst it)) (snd it), snd (fst it)) :: lin_arcs (k + 1) t
  end.
Definition lin (its : list (Z * Z * Z)) : nfst := map (fun b => [b]) (lin_arcs 0 its) ++ [[]].
(** ... it ends with the only final arc. *)
Definition lin_ok (its : list (Z * Z * Z)) : Prop :=
  exists pre a s, its = pre ++ [(-1, a, s)] /\ Forall (fun it => 0 <= fst (fst it)) pre.

(** A pair of successful paths of two graphs with the same labels, label 0 being
    an ordinary label: a path of their intersection (intersect_device). *)
Definition joint {B C} (G : list (list (arc * B))) (H : list (list (arc * C))) p q : Prop :=
  tpath (concat G) 0 p (zlen G - 1) /\ tpath (concat H) 0 q (zlen H - 1) /\ ilabels p = ilabels q.
(** the two attributes of a Levenshtein graph: aux label and score offset *)
Definition aux1 (p : list (arc * (Z * Z))) : list Z := map (fun b => fst (snd b)) p.
Definition offs (p : list (arc * (Z * Z))) : Z := zsum (map (fun b => snd (snd b)) p).

(** Every arc goes to a later state; no state has two arcs. *)
Definition forward (f : nfsa) : Prop := forall a, In a (all_arcs f) -> src a < dst a.
Definition one_arc_per_state (f : nfsa) : Prop := Forall (fun st => zlen st <= 1) f.
(** The FsaVec underlying a list of FSTs, with any kind of arc attribute. *)
Definition vec_of {B} (ts : list (list (list (arc * B)))) : fsavec := flat_vec (map (map (map fst)) ts).

(** [T] transduces [x] to [y] with score [s]; 0 is epsilon on both sides. *)
Definition transduces (T : nfst) (x y : list Z) (s : Z) : Prop :=
  exists p, tpath (concat T) 0 p (zlen T - 1) /\
    strip (ilabels p) = x ++ [-1] /\ strip (olabels p) = y ++ [-1] /\ tscore p = s.
(** Kleene star of a weighted relation. *)
Definition tstar (R : list Z -> list Z -> Z -> Prop) (x y : list Z) (s : Z) : Prop :=
  exists ws : list (list Z * list Z * Z),
    Forall (fun w => R (fst (fst w)) (snd (fst w)) (snd w)) ws /\
    x = concat (map (fun w => fst (fst w)) ws) /\ y = concat (map (fun w => snd (fst w)) ws) /\
    s = zsum (map snd ws).
