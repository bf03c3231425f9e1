(** * Specification of RNN-T decoding with a graph, one symbol per frame at most. *)
From Coq Require Import ZArith List Bool.
From Verif Require Import Base RaggedSpec FsaSpec FsaLemmas ScoreSpec ShortestSpec IDenseSpec.
Import ListNotations.
Open Scope Z_scope.

(** The symbols a prediction network sees: the last ones that were emitted; 0 (blank,
    epsilon) and -1 are not emitted *)
Definition push (ctx : list Z) (l : Z) : list Z := if (l =? 0) || (l =? -1) then ctx else tl ctx ++ [l].

(** [net t ctx] are the log-probs of the symbols on frame [t] after the symbols [ctx] *)
Definition logp (net : Z -> list Z -> list Z) (t : Z) (ctx : list Z) (l : Z) : Z := at0 (net t ctx) l.

(** [hyp f hist net p s ctx x]: a hypothesis for the first [zlen p] frames.  [p] is
    what it does on each of them: -1 is a blank, another number an arc of the graph [f].
    It leads to state [s], its last symbols are [ctx] and its score is [x].  A final
    arc has the log-prob of blank; the final state cannot be left. *)
Inductive hyp (f : nfsa) (hist : Z) (net : Z -> list Z -> list Z) : list Z -> Z -> list Z -> Z -> Prop :=
| hyp_start : hyp f hist net [] 0 (repeat 0 (Z.to_nat hist)) 0
| hyp_blank p s ctx x : hyp f hist net p s ctx x -> s <> final f ->
    hyp f hist net (p ++ [-1]) s ctx (x + logp net (zlen p) ctx 0)
| hyp_arc p s ctx x j a : hyp f hist net p s ctx x -> rd (all_arcs f) j = Some a -> src a = s ->
    hyp f hist net (p ++ [j]) (dst a) (push ctx (lab a)) (x + sc a + logp net (zlen p) ctx (if lab a =? -1 then 0 else lab a)).

(** the label of a step *)
Definition hlab (f : nfsa) (j : Z) : Z := match rd (all_arcs f) j with Some a => lab a | None => 0 end.

(** [p] is a hypothesis that pruning with [beam] should not lose: after every frame, its
    score is at most [beam] below that of any hypothesis for as many frames, or for one
    frame less *)
Definition good (f : nfsa) (hist : Z) (net : Z -> list Z -> list Z) (beam : Z) (p : list Z) : Prop :=
  (exists s ctx x, hyp f hist net p s ctx x) /\
  forall n s ctx x p' s' ctx' x', 0 < n <= zlen p -> hyp f hist net (firstn (Z.to_nat n) p) s ctx x ->
    hyp f hist net p' s' ctx' x' -> zlen p' = n \/ zlen p' = n - 1 -> x' - beam <= x.
Definition no_limit (f : nfsa) (vocab hist maxs maxc : Z) : Prop :=
  (maxs <= 0 \/ vocab ^ hist * nstates f <= maxs) /\ (maxc <= 0 \/ vocab ^ hist <= maxc).
Definition ends_final (f : nfsa) (p : list Z) : Prop := exists j a, last p 0 = j /\ rd (all_arcs f) j = Some a /\ lab a = -1.

(** [g] is a lattice of the hypotheses for [T] frames; [am] is the map from its arcs to
    the arcs of the graph (-1: none).  On the last frame only the final arcs count, and
    they have score 0 in the lattice.  [partial]: without final arcs, every hypothesis is
    taken to be final on the last frame. *)
Definition is_lattice (f : nfsa) (vocab hist beam maxs maxc : Z) (net : Z -> list Z -> list Z) (partial : bool) (T : Z)
    (g : nfsa) (am : Z -> Z) : Prop :=
  let unpruned := no_limit f vocab hist maxs maxc /\ forall t ctx, logp net t ctx 0 <= 0 in
  valid g /\
  (* its paths are hypotheses, with their labels and scores *)
  (forall q, successful g q -> exists p s ctx x,
     hyp f hist net p s ctx x /\ zlen p = T - 1 /\ s <> final f /\
     map am q = p ++ [-1] /\ labels (arcs_at g q) = map (hlab f) p ++ [-1] /\ score (arcs_at g q) = x /\
     ((exists j a, rd (all_arcs f) j = Some a /\ src a = s /\ lab a = -1) \/
      (partial = true /\ (unpruned -> forall p', zlen p' = T -> good f hist net beam p' -> ~ ends_final f p')))) /\
  (* without limits, no hypothesis within the beam is lost, and each is there once *)
  (unpruned -> forall p, zlen p = T -> good f hist net beam p ->
     ends_final f p \/ (partial = true /\ forall p' s ctx x, hyp f hist net p' s ctx x -> zlen p' = T -> ~ ends_final f p') ->
     exists! q, (exists j, successful g (q ++ [j])) /\ map am q = removelast p).

(** what the user has to provide *)
Definition decode_inputs (V : list nfsa) (vocab hist beam : Z) (net : Z -> Z -> list Z -> list Z) : Prop :=
  1 <= vocab /\ 1 <= hist /\ 0 <= beam /\
  (forall f, In f V -> valid f /\ forall a, In a (all_arcs f) -> lab a < vocab) /\
  (forall k t ctx, zlen (net k t ctx) = vocab).
(** batches of different streams of [V] *)
Definition batches_ok (V : list nfsa) (batches : list (list Z * nat)) : Prop :=
  forall b, In b batches -> fst b <> [] /\ NoDup (fst b) /\ forall k, In k (fst b) -> 0 <= k < zlen V.
(** the number of frames stream [k] has received *)
Definition frames_of (batches : list (list Z * nat)) (k : Z) : Z :=
  zsum (map (fun b => if existsb (Z.eqb k) (fst b) then Z.of_nat (snd b) else 0) batches).
