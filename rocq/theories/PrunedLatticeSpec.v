(** * Specification of pruned_ranges_to_lattice *)
From Coq Require Import ZArith List Bool.
From Verif Require Import Base FsaSpec FstSpec RnntModel RnntSpec PrunedLatticeModel.
Import ListNotations.
Open Scope Z_scope.

(** Element (b, t, k, c) of a strided tensor of shape [n0][n1][n2][n3]: where it lies
    in memory, and what it is *)
Definition place (x : tensor4) (b t k c : Z) : Z :=
  match t4_stride x with (s0, s1, s2, s3) => b * s0 + t * s1 + k * s2 + c * s3 end.
Definition element (x : tensor4) (b t k c : Z) : option Z :=
  match t4_size x with (n0, n1, n2, n3) =>
    if (0 <=? b) && (b <? n0) && ((0 <=? t) && (t <? n1)) && ((0 <=? k) && (k <? n2)) && ((0 <=? c) && (c <? n3))
    then rd (t4_mem x) (place x b t k c) else None
  end.

(** After s symbols on frame t an alignment is at entry k of row t of the ranges *)
Definition slot (rows : list (list Z)) (s t k : Z) : Prop := exists row, rd rows t = Some row /\ rd row k = Some s.

(** [kept_alignment n s t l tr]: the list of decisions [l] ([true] emits the next
    symbol of [y], [false] a blank, which moves on to the next frame) leads from
    (s symbols emitted, frame t) to the last position that is kept on the last of
    the n frames, and every position it visits is kept.  [tr]: what it reads: for
    each decision, its symbol (0 for blank), the logit of that symbol at this frame
    and entry of utterance b, and the place of this logit in memory; and at the
    end -1 with score 0 and no place. *)
Inductive kept_alignment (rows : list (list Z)) (y : list Z) (logits : tensor4) (b n : Z) : Z -> Z -> list bool -> list (Z * Z * Z) -> Prop :=
| ka_end s row : rd rows (n - 1) = Some row -> rd row (zlen row - 1) = Some s ->
    kept_alignment rows y logits b n s (n - 1) [] [(-1, 0, -1)]
| ka_emit s t k k' v x l tr : slot rows s t k -> slot rows (s + 1) t k' ->
    rd y s = Some v -> element logits b t k v = Some x ->
    kept_alignment rows y logits b n (s + 1) t l tr ->
    kept_alignment rows y logits b n s t (true :: l) ((v, x, place logits b t k v) :: tr)
| ka_blank s t k k' x l tr : slot rows s t k -> slot rows s (t + 1) k' ->
    element logits b t k 0 = Some x ->
    kept_alignment rows y logits b n s (t + 1) l tr ->
    kept_alignment rows y logits b n s t (false :: l) ((0, x, place logits b t k 0) :: tr).

(** What is seen of a path: labels, scores and entries of arc_map *)
Definition seen (p : list tarc) : list (Z * Z * Z) := map (fun a => (lab (fst a), sc (fst a), snd a)) p.

(** A successful path of the lattice *)
Definition lattice_path (T : nfst) (p : list tarc) : Prop := tpath (concat T) 0 p (zlen T - 1).

(** The input of one call: [ranges] of shape [B][T][r], [frames] of B, [symbols]
    [B][..] and [logits] [B][T][r][C], every element of which lies in the memory.
    Utterance b has n frames, its transcript [y] is a prefix of its row of
    [symbols], and the rows of its frames in [ranges] are windows of r positions,
    none beyond the end of [y], which advance by less than r per frame. *)
Definition lattice_input (ranges : list (list (list Z))) (T r C : Z) (frames : list Z) (symbols ys : list (list Z)) (logits : tensor4) : Prop :=
  1 <= r /\ 1 <= C /\ t4_size logits = (zlen ranges, T, r, C) /\
  (forall b t k c, 0 <= b < zlen ranges -> 0 <= t < T -> 0 <= k < r -> 0 <= c < C ->
     0 <= place logits b t k c < zlen (t4_mem logits)) /\
  forall b rows, rd ranges b = Some rows -> exists n y pad,
    rd frames b = Some n /\ rd ys b = Some y /\ rd symbols b = Some (y ++ pad) /\ 1 <= n <= T /\
    windows (zlen y) n r (r - 1) (firstn (Z.to_nat n) rows) /\ Forall (fun v => 1 <= v < C) y.
