(** * Specification: suffixes, matching histories, statistics. *)
From Coq Require Import ZArith QArith List Bool Permutation Sorting.Sorted.
From Verif Require Import Base IDenseSpec.
Import ListNotations.
Open Scope Z_scope.

(** The suffix of [t] that starts at [i] comes before the one that starts at [j] in the
    dictionary.  [at0 t] is 0 after the end of the text, and every symbol is positive, so
    that a proper prefix comes first. *)
Definition suf_lt (t : list Z) (i j : Z) : Prop :=
  exists k, 0 <= k /\ (forall m, 0 <= m < k -> at0 t (i + m) = at0 t (j + m)) /\ at0 t (i + k) < at0 t (j + k).

(** [n] symbols between 1 and [K], then three zeros *)
Definition padded (t : list Z) (n K : Z) : Prop :=
  zlen t = n + 3 /\ (forall i, 0 <= i < n -> 1 <= at0 t i <= K) /\ forall i, n <= i -> at0 t i = 0.

(** [sa] is the suffix array of the first [n] symbols of [t] *)
Definition suffix_array_of (t : list Z) (n : Z) (sa : list Z) : Prop :=
  Permutation sa (zrange n) /\ StronglySorted (suf_lt t) sa.

(** The suffixes at [i] and [j] agree in their first [k] symbols *)
Definition agree (t : list Z) (i j k : Z) : Prop := forall m, 0 <= m < k -> at0 t (i + m) = at0 t (j + m).
(** [k] is the length of their longest common prefix *)
Definition is_lcp (t : list Z) (i j k : Z) : Prop := 0 <= k /\ agree t i j k /\ at0 t (i + k) <> at0 t (j + k).
(** [lcp] is the LCP array of the suffix array [sa] *)
Definition lcp_array_of (t : list Z) (n : Z) (sa lcp : list Z) : Prop :=
  zlen lcp = n /\ rd lcp 0 = Some 0 /\
  forall i a b, rd sa i = Some a -> rd sa (i + 1) = Some b -> exists k, rd lcp (i + 1) = Some k /\ is_lcp t a b k.

(** ** Best-match statistics *)
(** The words of a collection read backwards from position [i], across the boundaries of
    sentences, down to the eos that precedes the first one *)
Definition history (eos : Z) (toks : list Z) (i : Z) : list Z := rev (firstn (Z.to_nat (i + 1)) toks) ++ [eos].
Fixpoint match_len (a b : list Z) : Z :=
  match a, b with
  | x :: a', y :: b' => if x =? y then 1 + match_len a' b' else 0
  | _, _ => 0
  end.
(** How many words, read backwards, positions [i] and [j] have in common *)
Definition matched (eos : Z) (toks : list Z) (i j : Z) : Z := match_len (history eos toks i) (history eos toks j).
(** [L] is the longest match of position [i] with a key, that is with a position whose count is positive *)
Definition best_len (eos : Z) (toks counts : list Z) (i L : Z) : Prop :=
  (exists j, 0 <= j < zlen toks /\ 0 < at0 counts j /\ matched eos toks i j = L) /\
  forall j, 0 <= j < zlen toks -> 0 < at0 counts j -> matched eos toks i j <= L.
(** Position [i] of the collection is word [c] of its sentence *)
Definition place (tokens : list (list Z)) (i c : Z) : Prop :=
  exists pre l post, tokens = pre ++ l :: post /\ i = zlen (concat pre) + c /\ 0 <= c < zlen l.
Definition Qsum (l : list Q) : Q := fold_right Qplus 0%Q l.
(** The statistics of position [i]: mean and (population) variance of the scores of the
    keys that have the longest match, how many there are, and the length of the match *)
Definition best_stats (eos max_order : Z) (tokens : list (list Z)) (scores counts : list Z) (i : Z) (mean var : Q) (count order : Z) : Prop :=
  exists L, best_len eos (concat tokens) counts i L /\
    let ks := filter (fun j => (0 <? at0 counts j) && (L <=? matched eos (concat tokens) i j)) (zrange (zlen (concat tokens))) in
    (mean == inject_Z (zsum (map (at0 scores) ks)) / inject_Z (zlen ks))%Q /\
    (var == Qsum (map (fun j => (inject_Z (at0 scores j) - mean) * (inject_Z (at0 scores j) - mean)) ks) / inject_Z (zlen ks))%Q /\
    count = (if L =? 0 then 0 else zlen ks) /\
    forall c, place tokens i c -> order = (if L =? 0 then 0 else if c + 1 <=? L then max_order else Z.min L max_order).
