(** * Specification: RNN-T alignments and pruning windows. *)
From Coq Require Import ZArith List.
From Verif Require Import Base RnntModel.
Import ListNotations.
Open Scope Z_scope.

(** [aligns k ok s t s' t']: an alignment leads from (s symbols emitted, frame
    t) to (s', t'), and every log-probability it uses is taken at a position
    (s, t) for which [ok s t].
    - a blank at (s, t) moves to the next frame;
    - regular: a symbol emitted at (s, t) stays on the frame;
    - modified: it moves to the next frame;
    - constrained: it moves to the next frame and also pays the blank of
      position s + 1 on the current frame. *)
Inductive aligns (k : rnnt_type) (ok : Z -> Z -> Prop) : Z -> Z -> Z -> Z -> Prop :=
| al_nil s t : aligns k ok s t s t
| al_blank s t s' t' : ok s t -> aligns k ok s (t + 1) s' t' -> aligns k ok s t s' t'
| al_emit s t s' t' : k = Regular -> ok s t -> aligns k ok (s + 1) t s' t' -> aligns k ok s t s' t'
| al_emit_mod s t s' t' : k = Modified -> ok s t -> aligns k ok (s + 1) (t + 1) s' t' -> aligns k ok s t s' t'
| al_emit_con s t s' t' : k = Constrained -> ok s t -> ok (s + 1) t ->
    aligns k ok (s + 1) (t + 1) s' t' -> aligns k ok s t s' t'.

(** Position s is kept on frame t: it is one of the entries of row t. *)
Definition kept (ranges : list (list Z)) (s t : Z) : Prop := exists row, rd ranges t = Some row /\ In s row.

(** [ranges] (one utterance, T rows) is a sequence of windows of [r]
    consecutive positions inside [0, S], the first one starting at 0, whose
    beginnings never decrease and advance by at most [step] per frame. *)
Definition windows (S T r step : Z) (ranges : list (list Z)) : Prop :=
  exists w : Z -> Z,
    zlen ranges = T /\
    (forall t, 0 <= t < T -> rd ranges t = Some (map (fun j => w t + j) (zrange r))) /\
    (forall t, 0 <= t < T -> 0 <= w t /\ w t + r - 1 <= S) /\
    w 0 = 0 /\
    (forall t, 0 <= t -> t + 1 < T -> w t <= w (t + 1) <= w t + step).

(** [masked k S T ranges (px, py) (pxf, pyf)]: (px, py) are the full
    log-probabilities (pxf, pyf) with -inf written at every position outside
    the windows.  A constrained emission at (s, t) also uses position (s+1, t). *)
Definition masked {V} (ninf : V) (k : rnnt_type) (S T : Z) (ranges : list (list Z))
    (p full : list (list V) * list (list V)) : Prop :=
  let T1 := match k with Regular => T + 1 | _ => T end in
  let ok s t := kept ranges s t /\ (k = Constrained -> kept ranges (s + 1) t) in
  shape2 S T1 (fst p) = true /\ shape2 (S + 1) T (snd p) = true /\
  (forall s t, 0 <= s < S -> 0 <= t < T1 ->
     exists v, rd2 (fst p) s t = Some v /\
               (ok s t -> rd2 (fst full) s t = Some v) /\ (~ ok s t -> v = ninf)) /\
  (forall s t, 0 <= s <= S -> 0 <= t < T ->
     exists v, rd2 (snd p) s t = Some v /\
               (kept ranges s t -> rd2 (snd full) s t = Some v) /\ (~ kept ranges s t -> v = ninf)).
