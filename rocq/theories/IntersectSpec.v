(** * Specification of intersection *)
From Coq Require Import ZArith List.
From Verif Require Import Base FsaSpec FsaLemmas ScoreModel ScoreSpec ShortestSpec.
Import ListNotations.
Open Scope Z_scope.

(** Equal label sequences; [eps]: up to epsilons (label 0). *)
Definition same_labels (eps : bool) (w w' : list Z) : Prop := if eps then strip w = strip w' else w = w'.

(** The arcs, of an FSA whose first arc has number [oa] in its batch, that the arc
    map [m] gives for the path [q] of an FSA whose first arc has number [oc];
    -1 means no arc. *)
Definition proj (m : list Z) (oc oa : Z) (q : list Z) : list Z :=
  flat_map (fun j => match rd m (oc + j) with
                     | Some i => if i =? -1 then [] else [i - oa]
                     | None => []
                     end) q.

(** [c] is the intersection of [a] and [b], and [pa], [pb] map its successful paths
    to paths of [a] and [b]: the pairs of successful paths of [a] and [b] with the
    same labels are exactly the images of the successful paths of [c], and scores
    add up.  If epsilons are ordinary labels, different paths have different images. *)
Definition is_intersection (eps : bool) (a b c : nfsa) (pa pb : list Z -> list Z) : Prop :=
  (forall q, successful c q ->
     successful a (pa q) /\ successful b (pb q) /\
     same_labels eps (labels (arcs_at c q)) (labels (arcs_at a (pa q))) /\
     same_labels eps (labels (arcs_at c q)) (labels (arcs_at b (pb q))) /\
     score (arcs_at c q) = score (arcs_at a (pa q)) + score (arcs_at b (pb q))) /\
  (forall p1 p2, successful a p1 -> successful b p2 -> same_labels eps (labels (arcs_at a p1)) (labels (arcs_at b p2)) ->
     exists q, successful c q /\ pa q = p1 /\ pb q = p2) /\
  (eps = false -> forall q q', successful c q -> successful c q' -> pa q = pa q' -> pb q = pb q' -> q = q').

(** Where an arc [u] of the intersection comes from: arcs number [i] and [k] of the
    batches, in which [a] and [b] start at arcs number [oa] and [ob]. *)
Definition origin (eps : bool) (a b : nfsa) (oa ob : Z) (u : arc) (i k : Z) : Prop :=
  (exists x y, rd (all_arcs a) (i - oa) = Some x /\ rd (all_arcs b) (k - ob) = Some y /\
     lab u = lab x /\ lab u = lab y /\ sc u = sc x + sc y /\ (eps = true -> lab u <> 0)) \/
  (eps = true /\ lab u = 0 /\ k = -1 /\ exists x, rd (all_arcs a) (i - oa) = Some x /\ lab x = 0 /\ sc u = sc x) \/
  (eps = true /\ lab u = 0 /\ i = -1 /\ exists y, rd (all_arcs b) (k - ob) = Some y /\ lab y = 0 /\ sc u = sc y).

(** The number of the first arc of FSA [k] in a batch *)
Definition first_arc (fs : list nfsa) (k : Z) : Z := off1 (map all_arcs fs) k.
(** Element [k] of a batch; a batch of one FSA is used for every [k]. *)
Definition bidx (fs : list nfsa) (k : Z) : Z := if zlen fs =? 1 then 0 else k.
