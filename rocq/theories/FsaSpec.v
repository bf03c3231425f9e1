(** * Specification: automata, paths and languages.

    A k2 FSA has states 0..n-1; 0 is the start state and n-1 the final state;
    label -1 marks exactly the arcs entering the final state and label 0 is
    epsilon (k2/csrc/fsa.h:28-75).  An automaton is written here as the list,
    state by state, of the arcs leaving it. *)
From Coq Require Import ZArith List Lia Bool.
From Verif Require Import Base RaggedSpec.
Import ListNotations.
Open Scope Z_scope.

(** k2/csrc/fsa.h:30-52 struct Arc. The float score is an exact integer here. *)
Record arc := mkArc { src : Z; dst : Z; lab : Z; sc : Z }.

Notation nfsa := (list (list arc)).

Definition nstates (f : nfsa) : Z := zlen f.
Definition final (f : nfsa) : Z := zlen f - 1.
Definition all_arcs (f : nfsa) : list arc := concat f.

(** The flat representation used by the code (Ragged<Arc>, fsa.h:77-90). *)
Record fsa := mkFsa { row_splits : list Z; arcs : list arc }.
Definition flat (f : nfsa) : fsa := mkFsa (splits_of f) (concat f).

(** Arcs are stored with the state they leave. *)
Definition src_ok (f : nfsa) : Prop :=
  forall i st a, rd f i = Some st -> In a st -> src a = i.

(** A valid FSA, as documented in fsa.h:40-75 (including that the final state
    has no leaving arcs). *)
Definition valid (f : nfsa) : Prop :=
  src_ok f /\ 2 <= nstates f /\
  forall a, In a (all_arcs f) ->
    0 <= dst a < nstates f /\ -1 <= lab a /\
    (lab a = -1 <-> dst a = final f) /\ src a <> final f.

(** Paths: sequences of arcs, each leaving the state the previous one enters. *)
Inductive path (A : list arc) : Z -> list arc -> Z -> Prop :=
| path_nil s : path A s [] s
| path_cons a p t : In a A -> path A (dst a) p t -> path A (src a) (a :: p) t.

Definition labels (p : list arc) : list Z := map lab p.
Definition score (p : list arc) : Z := zsum (map sc p).

(** Remove epsilons. *)
Definition strip (w : list Z) : list Z := filter (fun l => negb (l =? 0)) w.

(** [f] accepts the label sequence [w] (epsilons kept) with score [s]. *)
Definition accepts (f : nfsa) (w : list Z) (s : Z) : Prop :=
  exists p, path (all_arcs f) 0 p (final f) /\ labels p = w ++ [-1] /\ score p = s.

(** [f] accepts the string [w] (ignoring epsilons) with score [s]. *)
Definition accepts_str (f : nfsa) (w : list Z) (s : Z) : Prop :=
  exists p, path (all_arcs f) 0 p (final f) /\ strip (labels p) = w ++ [-1] /\ score p = s.

(** Kleene star of a weighted language. *)
Definition star (L : list Z -> Z -> Prop) (w : list Z) (s : Z) : Prop :=
  exists ws : list (list Z * Z),
    Forall (fun x => L (fst x) (snd x)) ws /\
    w = concat (map fst ws) /\ s = zsum (map snd ws).

(** An FsaVec (3-axis Ragged<Arc>, fsa.h:80-96) and the flat form of a list of
    FSAs. *)
Record fsavec := mkVec { v_rs1 : list Z; v_rs2 : list Z; v_arcs : list arc }.
Definition flat_vec (fs : list nfsa) : fsavec :=
  mkVec (splits_of fs) (splits_of (concat fs)) (concat (concat fs)).
