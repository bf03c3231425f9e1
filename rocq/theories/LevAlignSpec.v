(** * Specification of levenshtein_alignment *)
From Coq Require Import ZArith List.
From Verif Require Import Base FsaSpec FstSpec.
Import ListNotations.
Open Scope Z_scope.

(** One arc of the alignment of two sequences: the symbol of the reference and of
    the hypothesis (0: none), the label and the score. *)
Record col := mkCol { c_ref : Z; c_hyp : Z; c_lab : Z; c_sc : Z }.

(** The linear FSA with these arcs *)
Definition alignment_fsa (cs : list col) : nfsa :=
  imap (fun t c => [mkArc t (t + 1) (c_lab c) (c_sc c)]) 0 cs ++ [[]].

(** Number of columns where the two sequences differ: substitutions, insertions and
    deletions *)
Definition errors (cs : list col) : Z := zlen (filter (fun c => negb (c_ref c =? c_hyp c)) cs).

(** [cs] aligns [ref] with [hyp]: reading off the symbols gives the two sequences;
    a column with equal symbols has that label and score 0, a column with different
    symbols has label 0 and score -[unit]; the number of the latter is the
    Levenshtein distance.  The last arc is the final arc. *)
Definition aligns_best (unit : Z) (ref hyp : list Z) (cs : list col) : Prop :=
  exists body, cs = body ++ [mkCol (-1) (-1) (-1) 0] /\
    strip (map c_ref body) = ref /\ strip (map c_hyp body) = hyp /\
    (forall c, In c body ->
       (c_ref c = c_hyp c -> c_ref c <> 0 /\ c_lab c = c_ref c /\ c_sc c = 0) /\
       (c_ref c <> c_hyp c -> c_lab c = 0 /\ c_sc c = - unit)) /\
    errors body = levenshtein ref hyp /\
    zsum (map c_sc cs) = - unit * levenshtein ref hyp.

(** The number of cells of the tables of all the pairs *)
Definition table_size (refs hyps : list (list Z)) (m : list Z) : Z :=
  zsum (map (fun x => (zlen (match rd refs (fst x) with Some r => r | None => [] end) + 2) * (zlen (snd x) + 2)) (combine m hyps)).
