(** * Specification of the intersection of a decoding graph with frames of scores. *)
From Coq Require Import ZArith List Bool.
From Verif Require Import Base RaggedSpec FsaSpec FsaLemmas ScoreSpec ShortestSpec ConnectSpec PropsSpec IDenseModel.
Import ListNotations.
Open Scope Z_scope.

(** A sequence of frames: one row per frame, column [l + 1] for label [l] (column 0
    for the label -1 of final arcs); [None] is -inf. *)
Notation frames := (list (list (option Z))).
Definition frame (rows : frames) (t l : Z) : option Z :=
  match rd rows t with
  | Some r => match rd r (l + 1) with Some x => x | None => None end
  | None => None
  end.

(** The score of the path made of the arcs at positions [p], whose first arc is
    taken on frame [t]: the scores of its arcs plus those of their labels. *)
Fixpoint dense_score (f : nfsa) (rows : frames) (t : Z) (p : list Z) : option Z :=
  match p with
  | [] => Some 0
  | j :: p' => match rd (all_arcs f) j with
               | Some a => oadd (oadd (Some (sc a)) (frame rows t (lab a))) (dense_score f rows (t + 1) p')
               | None => None
               end
  end.

(** Successful paths with one arc per frame *)
Definition dense_path (f : nfsa) (rows : frames) (p : list Z) : Prop :=
  successful f p /\ zlen p = zlen rows.

(** [p] has a finite score, less than [beam] below that of any path *)
Definition within_beam (f : nfsa) (rows : frames) (beam : Z) (p : list Z) : Prop :=
  dense_path f rows p /\ exists x, dense_score f rows 0 p = Some x /\
  forall p' x', dense_path f rows p' -> dense_score f rows 0 p' = Some x' -> x' - beam < x.

(** The batch of sequences as it is stored: the rows one after the other *)
Definition flat_dense (cols stride : Z) (seqs : list frames) : dmat :=
  mkDmat (splits_of seqs) (concat (concat seqs)) stride cols.

(** [g] is the intersection of the graph [f] with the frames [rows], pruned with
    [beam]; [am] gives, for an arc of [g], the arc of [f] it comes from, and [bm] the
    place of its frame score in memory; [mem] is the memory and [loc t l] the place
    of the score of label [l] on frame [t]. *)
Definition is_dense_intersection (f : nfsa) (rows : frames) (beam : Z) (mem : list (option Z)) (loc : Z -> Z -> Z)
    (g : nfsa) (am bm : Z -> Z) : Prop :=
  (* its paths are paths of the graph with one arc per frame, and their scores
     are those of the graph plus those of the frames *)
  (forall q, successful g q ->
     dense_path f rows (map am q) /\
     labels (arcs_at g q) = labels (arcs_at f (map am q)) /\
     dense_score f rows 0 (map am q) = Some (score (arcs_at g q)) /\
     (forall t j a, rd q t = Some j -> rd (all_arcs g) j = Some a -> bm j = loc t (lab a))) /\
  (* every path within the beam is there, once *)
  (forall p, within_beam f rows beam p -> exists! q, successful g q /\ map am q = p) /\
  (* every arc is on a path within the beam *)
  (forall j, 0 <= j < zlen (all_arcs g) -> exists q, successful g q /\ In j q /\ within_beam f rows beam (map am q)) /\
  (* it has no states iff there is no path with a finite score *)
  (g = [] <-> forall p, dense_path f rows p -> dense_score f rows 0 p = None) /\
  (* the arc maps recover the two parts of every arc *)
  (forall j a, rd (all_arcs g) j = Some a -> exists b x,
     rd (all_arcs f) (am j) = Some b /\ rd mem (bm j) = Some (Some x) /\ lab a = lab b /\ sc a = sc b + x) /\
  (* no path of the graph is there twice, within the beam or not *)
  (forall q q', successful g q -> successful g q' -> map am q = map am q' -> q = q').

(** Number of rows before sequence [j], and a total reading of a list *)
Definition first_row (seqs : list frames) (j : Z) : Z := zlen (concat (firstn (Z.to_nat j) seqs)).
Definition at0 (l : list Z) (i : Z) : Z := match rd l i with Some x => x | None => 0 end.
(** Number of arcs of the FSAs before FSA [k] *)
Definition arcs_before (fs : list nfsa) (k : Z) : Z := zlen (concat (map all_arcs (firstn (Z.to_nat k) fs))).

(** Which sequence each graph goes with: [a_to_b_map] if it is given *)
Definition pairing (V : list nfsa) (seqs : list frames) (a2b : option (list Z)) (m : list Z) : Prop :=
  match a2b with
  | None => zlen V = zlen seqs /\ m = zrange (zlen V)
  | Some m' => m' = m /\ zlen m = zlen V /\ (forall j, In j m -> 0 <= j < zlen seqs) /\
               (forall i j x y, i <= j -> rd m i = Some x -> rd m j = Some y -> x <= y)
  end.

(** Inputs: graphs whose arcs agree with the shape and whose labels have a column,
    sequences sorted from long to short, and sizes that fit in 16 bits *)
Definition dense_inputs (V : list nfsa) (seqs : list frames) (a2b : option (list Z)) (m : list Z) (cols stride : Z) : Prop :=
  0 < zlen V < 65536 /\
  (forall f, In f V -> src_ok f /\ zlen f < 65536 /\
     forall a, In a (all_arcs f) -> 0 <= dst a < nstates f /\ -1 <= lab a < cols - 1) /\
  (forall s, In s seqs -> zlen s < 65536 /\ forall r, In r s -> zlen r = stride) /\
  (forall i j s s', i <= j -> rd seqs i = Some s -> rd seqs j = Some s' -> zlen s' <= zlen s) /\
  cols <= stride /\ cols <= 65536 /\
  pairing V seqs a2b m.

(** [gs] are the intersections of the graphs with their sequences, and the arc maps
    give positions in the arrays of arcs and of scores; they are topologically sorted
    and acyclic *)
Definition dense_batch (V : list nfsa) (seqs : list frames) (m : list Z) (stride beam : Z) (gs : list nfsa) (mapa mapb : list Z) : Prop :=
  zlen gs = zlen V /\ zlen mapa = zlen (concat (concat gs)) /\ zlen mapb = zlen (concat (concat gs)) /\
  forall k f, rd V k = Some f -> exists j rows g,
    rd m k = Some j /\ rd seqs j = Some rows /\ rd gs k = Some g /\
    is_dense_intersection f rows beam (concat (concat seqs)) (fun t l => (first_row seqs j + t) * stride + (l + 1)) g
      (fun i => at0 mapa (arcs_before gs k + i) - arcs_before V k)
      (fun i => at0 mapb (arcs_before gs k + i)) /\
    (valid f -> g = [] \/ valid g) /\ well_formed g /\ p_topsorted_acyclic g.

(** The rows of a DenseFsaVec for the log-probabilities [logits] of [n] symbols: no
    frame but the last, added one, has a score for the label -1, and the last has no
    other. *)
Definition segment_rows (n : Z) (logits : list (list Z)) : frames :=
  map (fun r => None :: map Some r) logits ++ [Some 0 :: repeat None (Z.to_nat n)].
(** The sum over the frames of the log-probability of the symbol read there *)
Fixpoint acoustic (logits : list (list Z)) (ls : list Z) : Z :=
  match logits, ls with
  | r :: logits', l :: ls' => at0 r l + acoustic logits' ls'
  | _, _ => 0
  end.
