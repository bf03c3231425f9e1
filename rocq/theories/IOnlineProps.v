(** * C64: decoding streams chunk by chunk *)
From Coq Require Import ZArith List Lia Bool.
From Coq Require Import ZifyBool ZifyNat.
From Verif Require Import Base RaggedModel RaggedSpec FsaSpec FsaLemmas ConnectProofs ScoreSpec ScorePaths ShortestSpec IDenseModel IDenseSpec IPrunedModel IPrunedSpec IOnlineModel IOnlineSpec IOnlineStart IOnlineSession.
From Verif Require Import IDenseProps.
Import ListNotations.
Open Scope Z_scope.

(** Batches of chunks are decoded in turns, each stream going on where it was left.
    Whatever the order in which the streams take part, each call gives, for every
    stream of its batch, the pruned intersection of the graph with all the frames that
    the stream has had up to now. *)
Theorem C64_online_decoding f n m cols stride sbeam obeam mina maxa partial ord calls :
  fair ord -> 0 <= m -> online_inputs f n m cols stride sbeam obeam mina maxa calls ->
  exists c outs, o_construct (flat_vec [f]) n sbeam obeam mina maxa partial = Some c /\
    decode_calls ord c (repeat None (Z.to_nat m), []) (map (fun call => (fst call, flat_dense cols stride (snd call))) calls) = Some outs /\
    zlen outs = zlen calls /\
    forall before ids seqs after, calls = before ++ (ids, seqs) :: after -> exists gs mapa,
      rd outs (zlen before) = Some (splits_of gs, splits_of (concat gs), map (fun a => (src a, dst a, lab a, Some (sc a))) (concat (concat gs)), mapa) /\
      online_batch f cols sbeam obeam maxa partial before ids seqs gs mapa.
Proof.
  intros Ho Hm0 (Vf & Lf & Hcs & Hsb & Hob & Hmm & Hn & HB & HC). exists (C0 f n sbeam obeam mina maxa partial).
  destruct (calls_ok f n cols stride sbeam obeam mina maxa partial Vf Lf Hcs Hsb Hob Hmm Hn ord Ho m calls [] (repeat None (Z.to_nat m)) []) as (outs & E1 & E2 & E3).
  - exact HC.
  - split; [unfold zlen; rewrite repeat_length; lia|]. split; [intros i; split; [intros r []|intros t; unfold frame, heard; cbn; now rewrite rd_nil]|]. intros i o Hi. pose proof (rd_Some_bound _ _ _ Hi) as B. unfold zlen in B. rewrite repeat_length in B. rewrite rd_repeat_in in Hi by lia. injection Hi as <-. reflexivity.
  - reflexivity.
  - exists outs. split; [apply o_construct_ok; assumption|]. split; [exact E1|]. split; [exact E2|]. intros before ids seqs after E. exact (E3 _ _ _ _ E).
Qed.
Print Assumptions C64_online_decoding.

(** ** Example: three streams, two at a time *)
Definition onl_g : nfsa := [[mkArc 0 0 1 0; mkArc 0 0 2 (-1); mkArc 0 1 (-1) 0]; []].
Definition onl_row (a b : Z) : list (option Z) := [None; None; Some a; Some b].
Definition onl_end : list (option Z) := [Some 0; None; None; None].
Definition onl_calls : list dcall :=
  [([0; 1], [[onl_row 1 2; onl_row 0 5; onl_end]; [onl_row 4 4; onl_row 3 3; onl_end]]);
   ([2; 0], [[onl_row 1 1; onl_end]; [onl_row 2 0; onl_end]]);
   ([1; 2], [[onl_end]; [onl_end]])].

Definition onl_check (rows : frames) : bool :=
  forallb (fun t => match frame rows t (-1), frame rows t 1 with None, Some _ => true | _, _ => false end) (zrange (zlen rows - 1)).
Lemma onl_keeps rows : onl_check rows = true -> keeps_going onl_g rows.
Proof.
  intros HC l s x Hp Hl Hx.
  assert (HT : forall t, 0 <= t < zlen rows - 1 -> frame rows t (-1) = None /\ exists y, frame rows t 1 = Some y).
  { intros t Ht. unfold onl_check in HC. rewrite forallb_forall in HC. specialize (HC t). rewrite in_zrange in HC. specialize (HC Ht). destruct (frame rows t (-1)); [discriminate|]. destruct (frame rows t 1); [|discriminate]. eauto. }
  assert (Hs : forall l s0 t x, apath onl_g s0 l s -> s0 = 0 -> 0 <= t -> t + zlen l < zlen rows - 1 -> dense_score onl_g rows t l = Some x -> s = 0).
  { clear l x Hp Hl Hx. induction l as [|j l IH]; intros s0 t x Hp E0 Ht Hl Hx; inversion Hp; subst; [reflexivity|]. rewrite zlen_cons in Hl. pose proof (zlen_nonneg l) as Zl. cbn [dense_score] in Hx.
    match goal with H : rd (all_arcs onl_g) j = Some _ |- _ => rename H into Ha end. rewrite Ha in Hx. pose proof (rd_Some_bound _ _ _ Ha) as Bj. change (zlen (all_arcs onl_g)) with 3 in Bj. destruct (HT t) as (T1 & _); [lia|].
    assert (j = 0 \/ j = 1 \/ j = 2) as [->|[->| ->]] by lia; cbn in Ha; injection Ha as <-; cbn [lab dst] in *.
    - destruct (frame rows t 1); [|discriminate]. destruct (dense_score onl_g rows (t + 1) l) eqn:E; [|discriminate]. eapply (IH 0 (t + 1)); eauto; lia.
    - destruct (frame rows t 2); [|discriminate]. destruct (dense_score onl_g rows (t + 1) l) eqn:E; [|discriminate]. eapply (IH 0 (t + 1)); eauto; lia.
    - rewrite T1 in Hx. discriminate. }
  assert (s = 0) as -> by (eapply (Hs l 0 0); eauto; lia). destruct (HT (zlen l)) as (_ & y & Hy); [pose proof (zlen_nonneg l); lia|]. exists (mkArc 0 0 1 0), y. split; [now left|]. split; [reflexivity|exact Hy].
Qed.
Lemma onl_dense_rows mid : (forall r, In r mid -> exists a b, r = onl_row a b \/ r = [None; None; None; None]) -> dense_rows (mid ++ [onl_end]) /\ forall r, In r (mid ++ [onl_end]) -> zlen r = 4.
Proof.
  intros HM. pose proof (zlen_nonneg mid) as Z0. assert (ZR : zlen (mid ++ [onl_end]) = zlen mid + 1) by (rewrite zlen_app, zlen_cons, zlen_nil; lia). split; [|intros r Hr; apply in_app_or in Hr as [Hr|[<-|[]]]; [|reflexivity]; destruct (HM r Hr) as (a & b & [->| ->]); reflexivity].
  split; [lia|]. rewrite ZR. split.
  - intros t Ht. unfold frame. rewrite rd_app_l by lia. destruct (rd_in_bound mid t) as (r & Hr); [lia|]. rewrite Hr. destruct (HM r (rd_In _ _ _ Hr)) as (a & b & [->| ->]); reflexivity.
  - intros l Hl. unfold frame. replace (zlen mid + 1 - 1) with (zlen mid) by lia. rewrite rd_app_r, Z.sub_diag, rd_cons_0 by lia. unfold onl_end. destruct (rd _ (l + 1)) as [x|] eqn:E; [|reflexivity]. pose proof (rd_Some_bound _ _ _ E) as B. change (zlen [Some 0; None; None; None]) with 4 in B. assert (l + 1 = 1 \/ l + 1 = 2 \/ l + 1 = 3) as [D|[D|D]] by lia; rewrite D in E; cbn in E; injection E as <-; reflexivity.
Qed.
Lemma onl_and (A B C : Prop) : (A /\ B) /\ C -> A /\ B /\ C.
Proof. tauto. Qed.
Ltac onl_rows := let r := fresh in let X := fresh in intros r X; repeat (destruct X as [<-|X]; [(eexists _, _; left; reflexivity) || (exists 0, 0; right; reflexivity)|]); destruct X.



Example C64_online_decoding_inputs_ex : online_inputs onl_g 2 3 4 4 10 10 0 10 onl_calls.
Proof.
  split; [apply validb_ok; reflexivity|]. split; [intros a Ha; cbn in Ha; repeat destruct Ha as [<-|Ha]; try contradiction; cbn; lia|]. do 5 (split; [lia|]). split; [reflexivity|].
  assert (cases : forall X (x y : X) k z, rd [x; y] k = Some z -> (k = 0 /\ z = x) \/ (k = 1 /\ z = y)). { intros X x y k z Hz. pose proof (rd_Some_bound _ _ _ Hz) as B. change (zlen [x; y]) with 2 in B. assert (k = 0 \/ k = 1) as [->| ->] by lia; cbn in Hz; injection Hz as <-; auto. }
  intros before ids seqs after E. destruct before as [|c1 [|c2 [|c3 [|c4 before]]]]; try discriminate E.
  - injection E as <- <- <-. split; [reflexivity|]. split; [reflexivity|]. split; [repeat constructor; cbn; lia|]. split; [intros i [<-|[<-|[]]]; lia|]. split; [exists 3; intros rows [<-|[<-|[]]]; reflexivity|].
    intros k i rows Hi Hr. destruct (cases _ _ _ _ _ Hi) as [(-> & ->)|(-> & ->)]; destruct (cases _ _ _ _ _ Hr) as [(D & ->)|(D & ->)]; try discriminate D; apply onl_and.
    + split; [apply (onl_dense_rows [onl_row 1 2; onl_row 0 5]); onl_rows|apply onl_keeps; reflexivity].
    + split; [apply (onl_dense_rows [onl_row 4 4; onl_row 3 3]); onl_rows|apply onl_keeps; reflexivity].
  - injection E as <- <- <- <-. split; [reflexivity|]. split; [reflexivity|]. split; [repeat constructor; cbn; lia|]. split; [intros i [<-|[<-|[]]]; lia|]. split; [exists 2; intros rows [<-|[<-|[]]]; reflexivity|].
    intros k i rows Hi Hr. destruct (cases _ _ _ _ _ Hi) as [(-> & ->)|(-> & ->)]; destruct (cases _ _ _ _ _ Hr) as [(D & ->)|(D & ->)]; try discriminate D; apply onl_and.
    + split; [apply (onl_dense_rows [onl_row 1 1]); onl_rows|apply onl_keeps; reflexivity].
    + split; [apply (onl_dense_rows [onl_row 2 0]); onl_rows|apply onl_keeps; reflexivity].
  - injection E as <- <- <- <- <-. split; [reflexivity|]. split; [reflexivity|]. split; [repeat constructor; cbn; lia|]. split; [intros i [<-|[<-|[]]]; lia|]. split; [exists 1; intros rows [<-|[<-|[]]]; reflexivity|].
    intros k i rows Hi Hr. destruct (cases _ _ _ _ _ Hi) as [(-> & ->)|(-> & ->)]; destruct (cases _ _ _ _ _ Hr) as [(D & ->)|(D & ->)]; try discriminate D; apply onl_and; (split; [apply (onl_dense_rows []); onl_rows|apply onl_keeps; reflexivity]).
Qed.
Example C64_online_decoding_ex : exists c, o_construct (flat_vec [onl_g]) 2 10 10 0 10 false = Some c /\
  decode_calls zrange c (repeat None 3, []) (map (fun call => (fst call, flat_dense 4 4 (snd call))) onl_calls) = Some
    [([0; 4; 8], [0; 2; 4; 5; 5; 7; 9; 10; 10],
      [(0, 1, 1, Some 1); (0, 1, 2, Some 1); (1, 2, 1, Some 0); (1, 2, 2, Some 4); (2, 3, -1, Some 0);
       (0, 1, 1, Some 4); (0, 1, 2, Some 3); (1, 2, 1, Some 3); (1, 2, 2, Some 2); (2, 3, -1, Some 0)], [0; 1; 0; 1; 2; 0; 1; 0; 1; 2]);
     ([0; 3; 8], [0; 2; 3; 3; 5; 7; 9; 10; 10],
      [(0, 1, 1, Some 1); (0, 1, 2, Some 0); (1, 2, -1, Some 0);
       (0, 1, 1, Some 1); (0, 1, 2, Some 1); (1, 2, 1, Some 0); (1, 2, 2, Some 4); (2, 3, 1, Some 2); (2, 3, 2, Some (-1)); (3, 4, -1, Some 0)], [0; 1; 2; 0; 1; 0; 1; 0; 1; 2]);
     ([0; 4; 7], [0; 2; 4; 5; 5; 7; 8; 8],
      [(0, 1, 1, Some 4); (0, 1, 2, Some 3); (1, 2, 1, Some 3); (1, 2, 2, Some 2); (2, 3, -1, Some 0);
       (0, 1, 1, Some 1); (0, 1, 2, Some 0); (1, 2, -1, Some 0)], [0; 1; 0; 1; 2; 0; 1; 2])].
Proof. eexists. split; vm_compute; reflexivity. Qed.

(** ** What goes wrong otherwise
    A lattice that has a path with another number of arcs than there are frames *)
Lemma wrong_length f cols sb ob maxa before ids seqs gs mapa k i rows g q : online_batch f cols sb ob maxa false before ids seqs gs mapa ->
  rd ids k = Some i -> rd seqs k = Some rows -> rd gs k = Some g -> successful g q -> zlen q = zlen (heard before i ++ rows).
Proof.
  intros (_ & _ & HB) Hi Hr Hg Hq. destruct (HB _ _ _ Hi Hr) as (g' & bm & Hg' & (_ & _ & HP & _)). rewrite Hg in Hg'. injection Hg' as <-. destruct (HP q Hq) as [((_ & HL) & _)|(D & _)]; [|discriminate]. rewrite zlen_map in HL. exact HL.
Qed.
Definition onl_one : nfsa := [[mkArc 0 1 1 1; mkArc 0 1 2 0]; [mkArc 1 2 (-1) 0]; []].
Lemma onl_one_path : successful onl_one [0; 2].
Proof.
  split; [reflexivity|]. apply (ap_cons onl_one 0 (mkArc 0 1 1 1) [2] 2); [reflexivity|]. apply (ap_cons onl_one 2 (mkArc 1 2 (-1) 0) [] 2); [reflexivity|]. constructor.
Qed.

(** C64: a call is refused unless there is one stream for each chunk and their number
    is that of the intersecter. *)
Theorem C64_number_of_streams : forall ord c b sts h, zlen (b_rs b) - 1 <> zlen sts \/ zlen sts <> c_n c -> o_decode ord c b sts h = None.
Proof.
  intros ord c b sts h H. unfold o_decode. destruct (zlen (b_rs b) - 1 =? zlen sts) eqn:E; [|reflexivity]. destruct (zlen (v_rs1 (c_v c)) - 1 =? 1); [|reflexivity]. destruct (c_n c =? zlen (b_rs b) - 1) eqn:E2; [lia|reflexivity].
Qed.
Print Assumptions C64_number_of_streams.

(** A stream that gets stuck is started again: on its second frame no label has a
    score, so no path is left; the frames without states are dropped, and in the next
    call its lattice has the paths of the third frame alone. *)
Theorem C64_stuck_stream_refuted : exists f chunk1 chunk2 c out1 gs mapa,
  valid f /\ (forall a, In a (all_arcs f) -> lab a < 4 - 1) /\
  (dense_rows chunk1 /\ forall r, In r chunk1 -> zlen r = 4) /\ (dense_rows chunk2 /\ forall r, In r chunk2 -> zlen r = 4) /\
  o_construct (flat_vec [f]) 1 10 10 0 10 false = Some c /\
  decode_calls zrange c ([None], []) [([0], flat_dense 4 4 [chunk1]); ([0], flat_dense 4 4 [chunk2])] =
    Some [out1; (splits_of gs, splits_of (concat gs), map (fun a => (src a, dst a, lab a, Some (sc a))) (concat (concat gs)), mapa)] /\
  ~ online_batch f 4 10 10 10 false [([0], [chunk1])] [0] [chunk2] gs mapa.
Proof.
  exists onl_g, [onl_row 1 1; [None; None; None; None]; onl_end], [onl_row 1 1; onl_end]. eexists. exists ([0; 2], [0; 0; 0], [], []), [onl_one], [0; 1; 2].
  split; [apply validb_ok; reflexivity|]. split; [intros a Ha; cbn in Ha; repeat destruct Ha as [<-|Ha]; try contradiction; cbn; lia|]. split; [apply (onl_dense_rows [onl_row 1 1; [None; None; None; None]]); onl_rows|]. split; [apply (onl_dense_rows [onl_row 1 1]); onl_rows|].
  split; [vm_compute; reflexivity|]. split; [vm_compute; reflexivity|]. intros HB. pose proof (wrong_length _ _ _ _ _ _ _ _ _ _ 0 0 _ onl_one [0; 2] HB eq_refl eq_refl eq_refl onl_one_path) as X. vm_compute in X. discriminate.
Qed.
Print Assumptions C64_stuck_stream_refuted.

(** The chunks of a call must be equally long: a stream whose chunk is shorter than
    another is treated as finished, and what it is given later is not decoded.  Its
    next lattice is not even a valid FSA: its final arc enters a state that is not the
    final one.  Both streams always have an arc to follow. *)
Definition onl_short_calls : list dcall :=
  [([0; 1], [[onl_row 1 1; onl_row 1 1; onl_end]; [onl_row 1 1; onl_end]]);
   ([0; 1], [[onl_row 1 1; onl_row 1 1; onl_end]; [onl_row 1 1; onl_row 1 1; onl_end]])].
Definition onl_long : nfsa :=
  [[mkArc 0 1 1 1; mkArc 0 1 2 0]; [mkArc 1 2 1 1; mkArc 1 2 2 0]; [mkArc 2 3 1 1; mkArc 2 3 2 0]; [mkArc 3 4 1 1; mkArc 3 4 2 0]; [mkArc 4 5 (-1) 0]; []].
Definition onl_short : nfsa := [[mkArc 0 1 1 1; mkArc 0 1 2 0]; [mkArc 1 2 (-1) 0]; []; []].
Lemma onl_short_given before ids seqs after k i rows : onl_short_calls = before ++ (ids, seqs) :: after -> rd ids k = Some i -> rd seqs k = Some rows ->
  dense_rows rows /\ (forall r, In r rows -> zlen r = 4) /\ keeps_going onl_g (heard before i ++ rows).
Proof.
  assert (cases : forall X (x y : X) k z, rd [x; y] k = Some z -> (k = 0 /\ z = x) \/ (k = 1 /\ z = y)). { intros X x y k' z Hz. pose proof (rd_Some_bound _ _ _ Hz) as B. change (zlen [x; y]) with 2 in B. assert (k' = 0 \/ k' = 1) as [->| ->] by lia; cbn in Hz; injection Hz as <-; auto. }
  intros E Hi Hr. destruct before as [|c1 [|c2 [|c3 before]]]; try discriminate E.
  - injection E as <- <- <-. destruct (cases _ _ _ _ _ Hi) as [(-> & ->)|(-> & ->)]; destruct (cases _ _ _ _ _ Hr) as [(D & ->)|(D & ->)]; try discriminate D; apply onl_and.
    + split; [apply (onl_dense_rows [onl_row 1 1; onl_row 1 1]); onl_rows|apply onl_keeps; reflexivity].
    + split; [apply (onl_dense_rows [onl_row 1 1]); onl_rows|apply onl_keeps; reflexivity].
  - injection E as <- <- <- <-. destruct (cases _ _ _ _ _ Hi) as [(-> & ->)|(-> & ->)]; destruct (cases _ _ _ _ _ Hr) as [(D & ->)|(D & ->)]; try discriminate D; apply onl_and; (split; [apply (onl_dense_rows [onl_row 1 1; onl_row 1 1]); onl_rows|apply onl_keeps; reflexivity]).
Qed.
Theorem C64_short_chunk_refuted : exists f call1 call2 c out1 gs mapa,
  valid f /\ (forall a, In a (all_arcs f) -> lab a < 4 - 1) /\ fst call1 = [0; 1] /\ fst call2 = [0; 1] /\
  (forall before ids seqs after k i rows, [call1; call2] = before ++ (ids, seqs) :: after -> rd ids k = Some i -> rd seqs k = Some rows ->
     dense_rows rows /\ (forall r, In r rows -> zlen r = 4) /\ keeps_going f (heard before i ++ rows)) /\
  o_construct (flat_vec [f]) 2 10 10 0 10 false = Some c /\
  decode_calls zrange c ([None; None], []) (map (fun call => (fst call, flat_dense 4 4 (snd call))) [call1; call2]) =
    Some [out1; (splits_of gs, splits_of (concat gs), map (fun a => (src a, dst a, lab a, Some (sc a))) (concat (concat gs)), mapa)] /\
  (exists g, rd gs 1 = Some g /\ ~ valid g) /\ ~ online_batch f 4 10 10 10 false [call1] (fst call2) (snd call2) gs mapa.
Proof.
  exists onl_g. eexists. eexists. eexists. eexists. exists [onl_long; onl_short], [0; 1; 0; 1; 0; 1; 0; 1; 2; 0; 1; 2].
  assert (NV : ~ valid onl_short). { intros (_ & _ & H). destruct (H (mkArc 1 2 (-1) 0)) as (_ & _ & H1 & _); [cbn; auto|]. destruct H1 as (H1 & _). specialize (H1 eq_refl). cbn in H1. discriminate. }
  split; [apply validb_ok; reflexivity|]. split; [intros a Ha; cbn in Ha; repeat destruct Ha as [<-|Ha]; try contradiction; cbn; lia|]. do 2 (split; [shelve|]). split; [exact onl_short_given|].
  split; [vm_compute; reflexivity|]. split; [vm_compute; reflexivity|]. split; [exists onl_short; auto|].
  intros (_ & _ & HB). destruct (HB 1 _ _ eq_refl eq_refl) as (g & bm & Hg & (_ & HV & _)). injection Hg as <-. apply NV, HV, validb_ok. reflexivity.
  Unshelve. all: reflexivity.
Qed.
Print Assumptions C64_short_chunk_refuted.
