(** * Specification of the CTC loss. *)
From Coq Require Import ZArith List Bool Reals.
From Verif Require Import Base RaggedSpec FsaSpec FsaLemmas FstSpec LogReal ScoreSpec ShortestSpec IDenseSpec.
Import ListNotations.
Open Scope Z_scope.

(** - log of the sum of exp (w x) for x in L; [None] is +inf *)
Definition minus_log_sum {A} (w : A -> R) (L : list A) : option R :=
  match L with [] => None | _ => Some (- ln (sumf (fun x => exp (w x)) L))%R end.

(** ** Alignments *)
(** [a] gives one of the symbols 0 .. n-1 to every one of the [T] frames (0 is the
    blank), and becomes the transcript [y] when repeated symbols are merged and then
    blanks removed. *)
Definition alignment (n T : Z) (y a : list Z) : Prop :=
  zlen a = T /\ Forall (fun l => 0 <= l < n) a /\ collapse a = y.

(** A symbol of the transcript is emitted on frame [t]: the frame has a symbol, which
    is not the one of the frame before. *)
Definition emits (a : list Z) (t : Z) : bool :=
  negb (at0 a t =? 0) && ((t =? 0) || negb (at0 a (t - 1) =? at0 a t)).
(** The sum, over the symbols of the transcript, of the frame where it is emitted
    minus half of the number of frames *)
Definition delay (a : list Z) : Z :=
  zsum (map (fun t => if emits a t then t - zlen a / 2 else 0) (zrange (zlen a))).
(** The log-probability of an alignment, less the penalty; [u] is the unit of the
    scores *)
Definition alignment_weight (u delay_penalty : R) (logits : list (list Z)) (a : list Z) : R :=
  (u * IZR (acoustic logits a) - Rmax 0 delay_penalty * IZR (delay a))%R.

(** ** Any decoding graph *)
(** A path of the graph with one label per frame, and a last arc with label -1 *)
Definition fits (f : nfsa) (logits : list (list Z)) (p : list Z) : Prop := successful f p /\ zlen p = zlen logits + 1.
Definition path_score (f : nfsa) (logits : list (list Z)) (p : list Z) : Z :=
  score (arcs_at f p) + acoustic logits (labels (arcs_at f p)).
(** As [delay]; [aux] are the aux labels of the arcs, which are 0 on arcs that do not
    emit and -1 on the last one. *)
Definition path_delay (aux : list Z) (T : Z) (p : list Z) : Z :=
  zsum (map (fun t => let b := at0 aux (at0 p t) in if (b =? 0) || (b =? -1) then 0 else t - T / 2) (zrange (zlen p))).
Definition path_weight (u delay_penalty : R) (f : nfsa) (aux : list Z) (logits : list (list Z)) (p : list Z) : R :=
  (u * IZR (path_score f logits p) - Rmax 0 delay_penalty * IZR (path_delay aux (zlen logits) p))%R.

(** Inputs: valid graphs without labels outside the symbols 0 .. n-1, one sequence of
    frames per graph, from long to short, and sizes that fit in 16 bits and in the
    limits of the intersection *)
Definition loss_inputs (V : list nfsa) (logits : list (list (list Z))) (n : Z) : Prop :=
  0 < zlen V < 65536 /\ zlen logits = zlen V /\ 0 <= n < 65536 /\
  (forall f, In f V -> valid f /\ zlen f < 65536 /\ forall a, In a (all_arcs f) -> lab a < n) /\
  (forall lg, In lg logits -> zlen lg < 65535 /\ Forall (fun r => zlen r = n) lg /\
     (zlen lg + 2) * zlen (concat V) <= 15000000 /\ (zlen lg + 2) * zlen (concat (concat V)) <= 1073741824) /\
  (forall i j lg lg', i <= j -> rd logits i = Some lg -> rd logits j = Some lg' -> zlen lg' <= zlen lg).
(** The DenseFsaVec of the sequences *)
Definition dense_of (n : Z) (logits : list (list (list Z))) : IDenseModel.dmat :=
  flat_dense (n + 1) (n + 1) (map (segment_rows n) logits).

(** Transcripts with symbols 1 .. n-1, and their sequences of frames *)
Definition ctc_inputs (ys : list (list Z)) (logits : list (list (list Z))) (n : Z) : Prop :=
  0 < zlen ys < 65536 /\ zlen logits = zlen ys /\ 0 < n < 65536 /\
  (forall y, In y ys -> Forall (fun a => 1 <= a < n) y /\ zlen y < 32767) /\
  (forall lg, In lg logits -> zlen lg < 65535 /\ Forall (fun r => zlen r = n) lg /\
     (zlen lg + 2) * (2 * zlen (concat ys) + 2 * zlen ys) <= 15000000) /\
  (forall i j lg lg', i <= j -> rd logits i = Some lg -> rd logits j = Some lg' -> zlen lg' <= zlen lg).
