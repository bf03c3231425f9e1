(** * C60: the pruned intersection with dense scores. *)
From Coq Require Import ZArith List Lia Bool QArith.
From Coq Require Import ZifyBool ZifyNat.
From Verif Require Import Base RaggedModel RaggedSpec FsaSpec FsaLemmas ConnectProofs ScoreSpec ShortestSpec
  IDenseModel IDenseSpec IDenseProps IPrunedModel IPrunedSpec IPrunedNest IPrunedFwd IPrunedInv IPrunedAlive IPrunedRun IPrunedStart IPrunedOut IPrunedAll.
Import ListNotations.
Open Scope Z_scope.

Lemma execute_app ord c T es es' : forall r, execute ord c T (es ++ es') r = match execute ord c T es r with Some r' => execute ord c T es' r' | None => None end.
Proof.
  induction es as [|e es IH]; intros r; cbn [app execute]; [reflexivity|]. destruct (enabled T e r); [|reflexivity]. destruct (do_event ord c T e r); [|reflexivity]. apply IH.
Qed.

(** Whenever the function returns (whatever the order of the threads of its kernels and
    that of the steps of its forward and pruning threads), the result is the pruned
    intersection of every sequence with its graph. *)
Theorem C60_intersect_dense_pruned : forall V seqs cols stride sbeam obeam mina maxa partial ord es r,
  (forall n, is_sched n (ord n)) -> pruned_inputs V seqs cols stride sbeam obeam mina maxa ->
  intersect_dense_pruned ord es (flat_vec V) (flat_dense cols stride seqs) sbeam obeam mina maxa partial = Some r ->
  exists gs mapa mapb,
    r = (splits_of gs, splits_of (concat gs), map (fun a => (src a, dst a, lab a, Some (sc a))) (concat (concat gs)), mapa, mapb) /\
    pruned_batch V seqs cols sbeam obeam maxa partial gs mapa mapb.
Proof.
  intros V seqs cols stride sbeam obeam mina maxa partial ord es r Ho HI H.
  destruct (construct_ok V seqs cols stride sbeam obeam mina maxa partial HI) as (c & C1 & SU & C2 & C3 & C4 & C5 & CO & C6 & C7 & C8). unfold intersect_dense_pruned in H. rewrite C1, C8 in H.
  pose proof (TM_pos V seqs cols stride sbeam obeam mina maxa HI) as HT. replace (0 <? TM seqs) with true in H by lia. pose proof HI as (N1 & _ & _ & _ & _ & SB & _).
  pose proof (RH0 V seqs cols stride sbeam obeam mina maxa HI) as RH. destruct (start_ok V seqs cols stride c SU ltac:(lia) C6 RH (TM seqs) HT) as (r0 & R1 & R2). rewrite R1 in H.
  destruct (execute ord c (TM seqs) es r0) as [r1|] eqn:E; [|discriminate]. destruct (finished (TM seqs) r1) eqn:EF; [|discriminate].
  destruct (execute_inv V seqs cols stride c SU ord Ho (TM seqs) HT ltac:(lia) CO RH es r0 _ r1 R2 E) as (Ns & RI & _).
  pose proof (format_fin V seqs cols stride sbeam obeam mina maxa partial HI c SU C5 C7 r1 Ns RI EF) as F.
  rewrite F in H. injection H as <-. eexists _, _, _. split; [reflexivity|].
  apply (batch_ok V seqs cols stride sbeam obeam mina maxa partial HI c SU C2 C3 C4 C5 C7 r1 Ns RI EF).
Qed.
Print Assumptions C60_intersect_dense_pruned.

(** Every execution of the two threads ends with a result: no step fails, there is no
    deadlock, no execution has more than 4 steps per frame, and any can be completed. *)
Theorem C60_no_deadlock : forall V seqs cols stride sbeam obeam mina maxa partial ord,
  (forall n, is_sched n (ord n)) -> pruned_inputs V seqs cols stride sbeam obeam mina maxa ->
  exists c T r0,
    p_construct (flat_vec V) (flat_dense cols stride seqs) sbeam obeam mina maxa partial = Some c /\ max_T c = Some T /\ start_run c = Some r0 /\
    forall es r, execute ord c T es r0 = Some r ->
      zlen es <= 4 * (T + 1) /\
      (forall ev, enabled T ev r = true -> exists r', do_event ord c T ev r = Some r') /\
      (finished T r = true \/ exists ev, enabled T ev r = true) /\
      exists es' res, intersect_dense_pruned ord (es ++ es') (flat_vec V) (flat_dense cols stride seqs) sbeam obeam mina maxa partial = Some res.
Proof.
  intros V seqs cols stride sbeam obeam mina maxa partial ord Ho HI.
  destruct (construct_ok V seqs cols stride sbeam obeam mina maxa partial HI) as (c & C1 & SU & C2 & C3 & C4 & C5 & CO & C6 & C7 & C8).
  pose proof (TM_pos V seqs cols stride sbeam obeam mina maxa HI) as HT. pose proof HI as (N1 & _ & _ & _ & _ & SB & _).
  pose proof (RH0 V seqs cols stride sbeam obeam mina maxa HI) as RH. destruct (start_ok V seqs cols stride c SU ltac:(lia) C6 RH (TM seqs) HT) as (r0 & R1 & R2).
  exists c, (TM seqs), r0. split; [exact C1|]. split; [exact C8|]. split; [exact R1|]. intros es r E.
  destruct (execute_inv V seqs cols stride c SU ord Ho (TM seqs) HT ltac:(lia) CO RH es r0 _ r R2 E) as (Ns & RI & LE).
  assert (L0 : left_ (TM seqs) r0 = 4 * (TM seqs + 1)).
  { unfold start_run in R1. destruct (initial_frame c); [|discriminate]. injection R1 as <-. unfold left_. cbn [r_t r_done r_wait b2z]. rewrite (wok_none _ 0 (TM seqs) 0 (prune_windows_ok _ HT)) by lia. lia. }
  assert (Lr : 0 <= left_ (TM seqs) r). { unfold left_. pose proof (ri_T _ _ _ _ _ _ RI). pose proof (ri_done _ _ _ _ _ _ RI). destruct (r_wait r); cbn [b2z]; lia. }
  split; [lia|]. split; [|split].
  - intros ev En. destruct (event_run V seqs cols stride c SU ord Ho (TM seqs) HT ltac:(lia) CO RH ev r Ns RI En) as (r' & _ & X & _). eauto.
  - eapply not_stuck; eauto.
  - destruct (execute_ex V seqs cols stride c SU ord Ho (TM seqs) HT ltac:(lia) CO RH (Z.to_nat (left_ (TM seqs) r)) r Ns RI ltac:(lia)) as (es' & r' & Ns' & X1 & X2 & X3).
    exists es'. pose proof (format_fin V seqs cols stride sbeam obeam mina maxa partial HI c SU C5 C7 r' Ns' X3 X2) as F.
    unfold intersect_dense_pruned. rewrite C1, C8. replace (0 <? TM seqs) with true by lia. rewrite R1, execute_app, E, X1, X2, F. eauto.
Qed.
Print Assumptions C60_no_deadlock.

(** With beams wider than the difference of any two walks of the same length, the
    result has every path of the graph with one label per frame, once, with its score;
    and, if there is one, no other paths. *)
Theorem C60_wide_beams : forall f rows sbeam obeam maxa partial loc g am bm,
  is_pruned_intersection f rows sbeam obeam maxa partial loc g am bm -> zlen f <= maxa -> obeam < 10 ^ 10 ->
  (forall p p' s s' x x', apath f 0 p s -> apath f 0 p' s' -> zlen p = zlen p' ->
     dense_score f rows 0 p = Some x -> dense_score f rows 0 p' = Some x' -> x' - x < sbeam /\ x' - x <= obeam) ->
  let finite p := dense_path f rows p /\ exists x, dense_score f rows 0 p = Some x in
  (forall p, finite p -> exists! q, successful g q /\ map am q = p) /\
  ((exists p, finite p) -> forall q, successful g q -> dense_path f rows (map am q) /\ comes_from f rows loc g am bm q).
Proof.
  intros f rows sbeam obeam maxa partial loc g am bm (_ & _ & H1 & H2 & _) Hm Hb HD finite.
  assert (G : forall p, finite p -> good_path f rows sbeam obeam p).
  { intros p (P & x & E). split; [exact P|]. exists x. split; [exact E|]. pose proof P as ((_ & P1) & P2). split.
    - intros p' x' ((_ & Q1) & Q2) E'. destruct (HD p p' _ _ x x' P1 Q1 ltac:(lia) E E'). lia.
    - intros t p' s x' y Ht Q1 Q2 E' Ey. rewrite <- (firstn_skipn (Z.to_nat t) p) in P1. apply ScorePaths.apath_app in P1 as (u & U1 & _).
      assert (Zt : zlen (firstn (Z.to_nat t) p) = zlen p') by (rewrite Q2; unfold zlen; rewrite firstn_length_le; unfold zlen in *; lia).
      destruct (HD _ p' _ _ y x' U1 Q1 Zt Ey E'). lia. }
  split; [intros p F; apply H2; auto|]. intros (p & F) q Hq. destruct (H1 q Hq) as [X|(_ & _ & X)]; [exact X|]. exfalso. exact (X Hm Hb p (G p F)).
Qed.
Print Assumptions C60_wide_beams.

(** The rows of a DenseFsaVec meet the condition on the frames. *)
Theorem C60_dense_rows : forall n logits, dense_rows (segment_rows n logits).
Proof.
  intros n logits. unfold dense_rows, segment_rows. set (A := map (fun r => None :: map Some r) logits). set (R := Some 0 :: repeat None (Z.to_nat n)). rewrite zlen_app, zlen_cons, zlen_nil. pose proof (zlen_nonneg A). split; [lia|]. split.
  - intros t Ht. unfold frame. rewrite rd_app_l by lia. unfold A in *. rewrite rd_map. rewrite zlen_map in *. destruct (rd_in_bound logits t) as (r & ->); [lia|]. reflexivity.
  - intros l Hl. unfold frame. replace (zlen A + (1 + 0) - 1) with (zlen A) by lia. replace (zlen A + (0 + 1) - 1) with (zlen A) by lia. rewrite rd_app_r by lia. replace (zlen A - zlen A) with 0 by lia. rewrite rd_cons_0. unfold R.
    destruct (rd (Some 0 :: repeat None (Z.to_nat n)) (l + 1)) as [x|] eqn:E; [|reflexivity]. pose proof (rd_Some_bound _ _ _ E) as B. replace (l + 1) with (l + 1 - 1 + 1) in E by lia. rewrite rd_cons_S in E by lia. apply rd_In in E. apply repeat_spec in E. now subst.
Qed.
Print Assumptions C60_dense_rows.

(** ** Examples: the two graphs and sequences of C42, and one graph for both sequences
    that has no path as short as they are *)
Definition pruned_ex_es : list event := [Forward; Forward; Forward; Acquire; Prune; Forward].
Definition pruned_ex_V : list nfsa := [[[mkArc 0 1 0 (-1)]; [mkArc 1 2 1 0]; [mkArc 2 3 1 (-2); mkArc 2 2 0 (-5)]; [mkArc 3 4 (-1) 0]; []]].
Example C60_inputs_ex : pruned_inputs dense_ex_V dense_ex_seqs 3 3 100 3 0 10 /\ pruned_inputs pruned_ex_V dense_ex_seqs 3 3 100 100 0 10.
Proof.
  assert (HS : forall s, In s dense_ex_seqs -> dense_rows s /\ forall r, In r s -> zlen r = 3).
  { intros s Hs. split; [destruct Hs as [<-|[<-|[]]]; apply C60_dense_rows|]. intros r Hr. destruct Hs as [<-|[<-|[]]]; cbn in Hr; repeat destruct Hr as [<-|Hr]; try contradiction; reflexivity. }
  assert (HF : forall f, In f (dense_ex_V ++ pruned_ex_V) -> (f = [] \/ valid f) /\ forall a, In a (all_arcs f) -> lab a < 3 - 1).
  { intros f Hf. split; [right; destruct Hf as [<-|[<-|[<-|[]]]]; apply validb_ok; reflexivity|]. intros a Ha. destruct Hf as [<-|[<-|[<-|[]]]]; cbn in Ha; repeat destruct Ha as [<-|Ha]; try contradiction; cbn; lia. }
  split; (split; [reflexivity|]).
  - split; [right; reflexivity|]. split; [intros f Hf; apply HF; apply in_or_app; now left|]. split; [exact HS|]. repeat split; try lia; reflexivity.
  - split; [left; reflexivity|]. split; [intros f Hf; apply HF; apply in_or_app; now right|]. split; [exact HS|]. repeat split; try lia; reflexivity.
Qed.
(** The scores of the paths of the first graph are -18, -20, -16 and -29; the beam of 3
    leaves the first and the third.  Without a path the result has two states and no
    arcs for each sequence, or the paths that are cut short. *)
Example C60_intersect_dense_pruned_ex :
  intersect_dense_pruned zrange pruned_ex_es (flat_vec dense_ex_V) (flat_dense 3 3 dense_ex_seqs) 100 3 0 10 false =
    Some ([0; 5; 8], [0; 2; 3; 4; 5; 5; 6; 7; 7],
          [(0, 1, 0, Some (-11)); (0, 2, 0, Some (-12)); (1, 3, 0, Some (-6)); (2, 3, 1, Some (-3)); (3, 4, -1, Some (-1)); (0, 1, 1, Some 0); (1, 2, -1, Some 3)],
          [0; 1; 1; 3; 4; 5; 6], [1; 1; 4; 5; 6; 11; 12]) /\
  intersect_dense_pruned zrange pruned_ex_es (flat_vec pruned_ex_V) (flat_dense 3 3 dense_ex_seqs) 100 100 0 10 false =
    Some ([0; 2; 4], [0; 0; 0; 0; 0], [], [], []) /\
  intersect_dense_pruned zrange [Forward; Forward; Forward; Acquire; Forward; Prune] (flat_vec pruned_ex_V) (flat_dense 3 3 dense_ex_seqs) 100 100 0 10 true =
    Some ([0; 4; 7], [0; 1; 2; 4; 4; 5; 6; 6],
          [(0, 1, 0, Some (-11)); (1, 2, 1, Some (-3)); (2, 3, -1, Some (-2)); (2, 3, -1, Some (-5)); (0, 1, 0, Some (-7)); (1, 2, -1, Some 0)],
          [0; 1; -1; -1; 0; -1], [1; 5; 8; 7; 10; 14]).
Proof. split; [|split]; vm_compute; reflexivity. Qed.

(** ** A label without a column
    The bound on the labels is needed. There are two symbols and the graph reads the
    symbol 2, so no path has a finite score. The code reads the first score of the next
    row, and the result has the path. *)
Theorem C60_label_without_column_refuted : exists f rows,
  valid f /\ dense_rows rows /\ (forall p, dense_path f rows p -> dense_score f rows 0 p = None) /\
  intersect_dense_pruned zrange [Forward; Forward; Acquire; Prune; Forward] (flat_vec [f]) (flat_dense 3 3 [rows]) 100 100 0 10 false =
    Some (splits_of [f], splits_of f, map (fun a => (src a, dst a, lab a, Some (sc a))) (all_arcs f), [0; 1], [3; 3]).
Proof.
  exists bad_graph, (segment_rows 2 [[-10; -20]]). split; [apply validb_ok; reflexivity|]. split; [apply C60_dense_rows|]. split; [|vm_compute; reflexivity].
  intros p ((_ & Hp) & Hl). change (zlen (segment_rows 2 [[-10; -20]])) with 2 in Hl. remember 0 as s eqn:Es in Hp. destruct Hp as [s|j a p t Ha Hp]; [discriminate Hl|].
  cbn [dense_score]. rewrite Ha. pose proof (rd_Some_bound _ _ _ Ha) as B. change (zlen (all_arcs bad_graph)) with 2 in B. assert (j = 0 \/ j = 1) as [->| ->] by lia; cbn in Ha; injection Ha as <-; [|discriminate Es]. reflexivity.
Qed.
Print Assumptions C60_label_without_column_refuted.
