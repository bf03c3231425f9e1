(** * Specification: monotone lattice paths and their weights. *)
From Coq Require Import ZArith List Reals.
From Verif Require Import Base RnntModel RnntSpec LogReal.
Import ListNotations.
Open Scope Z_scope.

(** A lattice path is a list of moves: [true] takes the next x (a symbol),
    [false] the next y (a frame).  In the modified topology an x move also
    advances to the next frame. *)
Definition move (modified : bool) (c : Z * Z) (x : bool) : Z * Z :=
  if x then (fst c + 1, if modified then snd c + 1 else snd c) else (fst c, snd c + 1).
Definition walk (modified : bool) (c : Z * Z) (l : list bool) : Z * Z := fold_left (move modified) l c.

(** The log-probability of a move: an entry of px or py. *)
Definition entry (m : list (list (option R))) (c : Z * Z) : option R :=
  match rd2 m (fst c) (snd c) with Some v => v | None => lninf end.
Definition edge (px py : list (list (option R))) (c : Z * Z) (x : bool) : option R :=
  if x then entry px c else entry py c.
(** The log-probability of a path: the sum of those of its moves. *)
Fixpoint weight (modified : bool) (px py : list (list (option R))) (c : Z * Z) (l : list bool) : option R :=
  match l with
  | [] => lzero
  | x :: l' => ladd (edge px py c x) (weight modified px py (move modified c x) l')
  end.

(** [L] lists every path from c to d exactly once. *)
Definition all_paths (modified : bool) (c d : Z * Z) (L : list (list bool)) : Prop :=
  NoDup L /\ forall l, In l L <-> walk modified c l = d.

(** The path makes move [x] at position [q]. *)
Fixpoint uses (modified : bool) (c : Z * Z) (l : list bool) (q : Z * Z) (x : bool) : bool :=
  match l with
  | [] => false
  | y :: l' => ((fst c =? fst q) && (snd c =? snd q) && Bool.eqb x y) || uses modified (move modified c y) l' q x
  end.

(** The total probability of the paths in L that satisfy P. *)
Definition mass (modified : bool) (px py : list (list (option R))) (c : Z * Z) (P : list bool -> bool)
    (L : list (list bool)) : R :=
  sumf (fun l => expo (weight modified px py c l)) (filter P L).

(** The total probability of the paths in L. *)
Definition total (modified : bool) (px py : list (list (option R))) (c : Z * Z) (L : list (list bool)) : R :=
  sumf (fun l => expo (weight modified px py c l)) L.

(** The boundary of utterance b: the given row, or the whole tensor. *)
Definition bounds (S T : Z) (boundary : option (list (Z * Z * Z * Z))) (b : Z) : option (Z * Z * Z * Z) :=
  match boundary with None => Some (0, 0, S, T) | Some bs => rd bs b end.
Definition bounds_ok (B S T : Z) (boundary : option (list (Z * Z * Z * Z))) : Prop :=
  match boundary with
  | None => True
  | Some bs => zlen bs = B /\ forall sb tb se te, In (sb, tb, se, te) bs -> 0 <= sb <= se /\ se <= S /\ 0 <= tb <= te /\ te <= T
  end.

(** The posterior probability that a path makes move [x] at position [q]. *)
Definition posterior (modified : bool) (px py : list (list (option R))) (c : Z * Z) (L : list (list bool)) (q : Z * Z) (x : bool) : R :=
  (mass modified px py c (fun l => uses modified c l q x) L / total modified px py c L)%R.

(** The alignment [l] from [c] uses log-probabilities at kept positions only
    (a constrained emission at (s, t) also uses position (s + 1, t)). *)
Definition keptb (ranges : list (list Z)) (s t : Z) : bool :=
  match rd ranges t with Some row => existsb (Z.eqb s) row | None => false end.
Fixpoint stays (k : rnnt_type) (ranges : list (list Z)) (c : Z * Z) (l : list bool) : bool :=
  match l with
  | [] => true
  | x :: l' =>
      keptb ranges (fst c) (snd c) &&
      match k with Constrained => if x then keptb ranges (fst c + 1) (snd c) else true | _ => true end &&
      stays k ranges (move (negb (is_reg k)) c x) l'
  end.
