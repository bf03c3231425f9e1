(** * Specification of decoding chunk by chunk *)
From Coq Require Import ZArith List Bool.
From Verif Require Import Base RaggedSpec FsaSpec FsaLemmas ScoreSpec ShortestSpec IDenseModel IDenseSpec IPrunedSpec.
Import ListNotations.
Open Scope Z_scope.

(** A call decodes one chunk of each of the streams [fst call]; a chunk ends with the
    frame for the label -1, which is not a frame of the stream *)
Notation dcall := (list Z * list frames)%type.
(** the frames that the calls gave to stream [i] *)
Definition given (call : dcall) (i : Z) : frames :=
  concat (map (fun p => if fst p =? i then removelast (snd p) else []) (combine (fst call) (snd call))).
Definition heard (calls : list dcall) (i : Z) : frames := concat (map (fun call => given call i) calls).

(** No path of the graph that uses some of the frames gets stuck before the last: its
    state has an arc whose label has a score on the next frame *)
Definition keeps_going (f : nfsa) (rows : frames) : Prop :=
  forall l s x, apath f 0 l s -> zlen l < zlen rows - 1 -> dense_score f rows 0 l = Some x ->
    exists a y, In a (all_arcs f) /\ src a = s /\ frame rows (zlen l) (lab a) = Some y.

(** A batch always has [n] different streams out of [m] and their chunks have the same
    number of frames *)
Definition online_inputs (f : nfsa) (n m cols stride sbeam obeam mina maxa : Z) (calls : list dcall) : Prop :=
  valid f /\ (forall a, In a (all_arcs f) -> lab a < cols - 1) /\ cols <= stride /\
  0 < sbeam /\ 0 < obeam /\ 0 <= mina < maxa /\ 0 < n /\ n * zlen f + 1 < 2 ^ 32 /\
  forall before ids seqs after, calls = before ++ (ids, seqs) :: after ->
    zlen ids = n /\ zlen seqs = n /\ NoDup ids /\ (forall i, In i ids -> 0 <= i < m) /\
    (exists len, forall rows, In rows seqs -> zlen rows = len) /\
    forall k i rows, rd ids k = Some i -> rd seqs k = Some rows ->
      dense_rows rows /\ (forall r, In r rows -> zlen r = stride) /\ keeps_going f (heard before i ++ rows).

(** [gs] and [mapa] are the lattices of a call after the calls [before]: for every
    stream the pruned intersection of the graph with all its frames up to now *)
Definition online_batch (f : nfsa) (cols sbeam obeam maxa : Z) (partial : bool) (before : list dcall) (ids : list Z) (seqs : list frames)
    (gs : list nfsa) (mapa : list Z) : Prop :=
  zlen gs = zlen ids /\ zlen mapa = zlen (concat (concat gs)) /\
  forall k i rows, rd ids k = Some i -> rd seqs k = Some rows -> exists g bm, rd gs k = Some g /\
    is_pruned_intersection f (heard before i ++ rows) sbeam obeam maxa partial (fun t l => t * cols + (l + 1)) g
      (fun i => at0 mapa (arcs_before gs k + i)) bm.
