(** * Specification of the pruned intersection of decoding graphs with frames of scores. *)
From Coq Require Import ZArith List Bool.
From Verif Require Import Base RaggedSpec FsaSpec FsaLemmas ScoreSpec ShortestSpec IDenseModel IDenseSpec.
Import ListNotations.
Open Scope Z_scope.

(** What a DenseFsaVec holds for one sequence: at least one frame; no frame but the
    last has a score for the label -1, and the last has no other *)
Definition dense_rows (rows : frames) : Prop :=
  0 < zlen rows /\ (forall t, 0 <= t < zlen rows - 1 -> frame rows t (-1) = None) /\
  (forall l, l <> -1 -> frame rows (zlen rows - 1) l = None).

(** One graph for every sequence, or one for all *)
Definition graph_index (V : list nfsa) (k : Z) : Z := if zlen V =? 1 then 0 else k.
Definition pruned_inputs (V : list nfsa) (seqs : list frames) (cols stride sbeam obeam mina maxa : Z) : Prop :=
  0 < zlen seqs /\ (zlen V = 1 \/ zlen V = zlen seqs) /\
  (forall f, In f V -> (f = [] \/ valid f) /\ forall a, In a (all_arcs f) -> lab a < cols - 1) /\
  (forall s, In s seqs -> dense_rows s /\ forall r, In r s -> zlen r = stride) /\
  cols <= stride /\ 0 < sbeam /\ 0 < obeam /\ 0 <= mina < maxa /\
  (if zlen V =? 1 then zlen seqs else 1) * zlen (concat V) + 1 < 2 ^ 32.

(** [p] is a path that pruning should not lose: its score is at most [obeam] below that
    of any path, and after any number of frames (but all of them) its score so far is
    less than [sbeam] below that of any other way to use these frames *)
Definition good_path (f : nfsa) (rows : frames) (sbeam obeam : Z) (p : list Z) : Prop :=
  dense_path f rows p /\ exists z, dense_score f rows 0 p = Some z /\
  (forall p' x, dense_path f rows p' -> dense_score f rows 0 p' = Some x -> x - obeam <= z) /\
  (forall t p' s x y, 0 < t < zlen rows -> apath f 0 p' s -> zlen p' = t -> dense_score f rows 0 p' = Some x ->
     dense_score f rows 0 (firstn (Z.to_nat t) p) = Some y -> x - sbeam < y).

(** [q], a path of [g], comes from the path [map am q] of [f], whose first arc leaves
    the start state and is taken on the first frame: same labels, the scores of the
    arcs plus those of the frames, and [bm] gives the places of these scores *)
Definition comes_from (f : nfsa) (rows : frames) (loc : Z -> Z -> Z) (g : nfsa) (am bm : Z -> Z) (q : list Z) : Prop :=
  labels (arcs_at g q) = labels (arcs_at f (map am q)) /\
  dense_score f rows 0 (map am q) = Some (score (arcs_at g q)) /\
  (forall t j a, rd q t = Some j -> rd (all_arcs g) j = Some a -> bm j = loc t (lab a)).

(** [q] is a path of [g] for a path of [f] that cannot reach the final state with the
    last frame: its last arc is an arc [b] of [f], without its frame score, made final *)
Definition cut_short (f : nfsa) (rows : frames) (loc : Z -> Z -> Z) (g : nfsa) (am bm : Z -> Z) (q : list Z) : Prop :=
  exists q' j a b, q = q' ++ [j] /\ zlen q = zlen rows /\
    apath f 0 (map am q') (src b) /\ comes_from f rows loc g am bm q' /\
    rd (all_arcs g) j = Some a /\ am j = -1 /\ lab a = -1 /\
    In b (all_arcs f) /\ lab b <> -1 /\ sc a = sc b /\ bm j = loc (zlen rows - 1) (lab b).

(** [g] is the intersection of the graph [f] with the frames [rows], pruned with the two
    beams and [maxa], the largest number of states of a frame; [am] gives, for an arc of
    [g], the arc of [f] it comes from (-1: none), and [bm] the place of its frame score;
    [loc t l] is the place of the score of label [l] on frame [t] *)
Definition is_pruned_intersection (f : nfsa) (rows : frames) (sbeam obeam maxa : Z) (partial : bool) (loc : Z -> Z -> Z)
    (g : nfsa) (am bm : Z -> Z) : Prop :=
  (f = [] -> g = []) /\ (valid f -> valid g) /\
  (* its paths are paths of the graph with one arc per frame; or, if partial paths
     are allowed and no path survives, paths that cannot reach the final state *)
  (forall q, successful g q ->
     (dense_path f rows (map am q) /\ comes_from f rows loc g am bm q) \/
     (partial = true /\ cut_short f rows loc g am bm q /\
      (zlen f <= maxa -> obeam < 10 ^ 10 -> forall p, ~ good_path f rows sbeam obeam p))) /\
  (* unless the number of states is limited, no path within the beams is lost, and
     each is there once *)
  (zlen f <= maxa -> obeam < 10 ^ 10 -> forall p, good_path f rows sbeam obeam p -> exists! q, successful g q /\ map am q = p) /\
  (* the arc maps recover the two parts of every arc *)
  (forall j a, rd (all_arcs g) j = Some a ->
     (exists b t x, rd (all_arcs f) (am j) = Some b /\ frame rows t (lab b) = Some x /\ bm j = loc t (lab b) /\ lab a = lab b /\ sc a = sc b + x) \/
     (partial = true /\ am j = -1 /\ exists b, In b (all_arcs f) /\ bm j = loc (zlen rows - 1) (lab b) /\ lab a = -1 /\ sc a = sc b)).

(** [gs] are the intersections, and the arc maps give positions in the array of arcs of
    the graphs and in the scores, read as a matrix with [cols] columns *)
Definition pruned_batch (V : list nfsa) (seqs : list frames) (cols sbeam obeam maxa : Z) (partial : bool) (gs : list nfsa) (mapa mapb : list Z) : Prop :=
  zlen gs = zlen seqs /\ zlen mapa = zlen (concat (concat gs)) /\ zlen mapb = zlen (concat (concat gs)) /\
  forall k rows, rd seqs k = Some rows -> exists f g, rd V (graph_index V k) = Some f /\ rd gs k = Some g /\
    is_pruned_intersection f rows sbeam obeam maxa partial (fun t l => (first_row seqs k + t) * cols + (l + 1)) g
      (fun i => let x := at0 mapa (arcs_before gs k + i) in if x =? -1 then -1 else x - arcs_before V (graph_index V k))
      (fun i => at0 mapb (arcs_before gs k + i)).
