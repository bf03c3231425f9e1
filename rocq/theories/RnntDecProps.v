(** * C61: RNN-T decoding streams: sessions, contexts, limits and lattices. *)
From Coq Require Import ZArith List Lia Bool.
From Coq Require Import ZifyBool ZifyNat.
From Verif Require Import Base RaggedSpec FsaSpec FsaLemmas ScoreSpec ShortestSpec OpsModel IDenseSpec
  RnntDecModel RnntDecSpec RnntDecArith RnntDecStep RnntDecSession RnntDecLattice RnntDecOut.
Import ListNotations.
Open Scope Z_scope.

Lemma nd_app_l {A} (l m : list A) : NoDup (l ++ m) -> NoDup l.
Proof. induction l as [|x l IH]; intros H; [constructor|]. cbn in H. inversion H as [|? ? N1 N2]. subst. constructor; [|auto]. intros X. apply N1, in_or_app. now left. Qed.
Lemma nd_app_r {A} (l m : list A) : NoDup (l ++ m) -> NoDup m.
Proof. induction l as [|x l IH]; intros H; [exact H|]. cbn in H. inversion H. auto. Qed.
Definition graph_at (V : list nfsa) (k : Z) : nfsa := match rd V k with Some f => f | None => [] end.
Lemma world_start V c net : (forall f, In f V -> valid f /\ forall a, In a (all_arcs f) -> lab a < r_vocab c) -> 1 <= r_vocab c -> 1 <= r_hist c -> (forall k t ctx, zlen (net k t ctx) = r_vocab c) ->
  (forall k, 0 <= k < zlen V -> gok (graph_at V) c k) /\ world_ok (graph_at V) c net (zlen V) (fun _ => 0) (map create_stream (map flat V)).
Proof.
  intros HF HV Hh HN. assert (G : forall k, 0 <= k < zlen V -> gok (graph_at V) c k). { intros k Hk. destruct (rd_in_bound V k Hk) as (f & Ef). unfold gok, graph_at. rewrite Ef. apply HF. eapply rd_In; eauto. }
  split; [exact G|]. split; [now rewrite !zlen_map|]. intros k s Hs. rewrite !rd_map in Hs. destruct (rd V k) as [f|] eqn:Ef; [|discriminate]. injection Hs as <-. pose proof (G k (rd_Some_bound _ _ _ Ef)) as Gk. pose proof (sinv_start (graph_at V) c net HV Hh HN k Gk) as S. unfold graph_at in S at 2. rewrite Ef in S. split; [exact S|reflexivity].
Qed.
Lemma session_world V c net batches : decode_inputs V (r_vocab c) (r_hist c) (r_beam c) net -> batches_ok V batches ->
  (forall k, 0 <= k < zlen V -> gok (graph_at V) c k) /\
  exists w, session c net (map flat V) batches = Some w /\ world_ok (graph_at V) c net (zlen V) (frames_of batches) w.
Proof.
  intros (HV & Hh & Hb & HF & HN) HB. destruct (world_start V c net HF HV Hh HN) as (G & W0). split; [exact G|]. destruct (batches_run (graph_at V) c net HV Hh Hb HN (zlen V) batches G HB _ _ W0) as (w & E & W). exists w. split; [exact E|]. destruct W as (W1 & W2). split; [exact W1|]. intros k s Hs. destruct (W2 k s Hs). split; [assumption|lia].
Qed.

(** Any number of streams, decoded in any batches for any number of frames: nothing
    fails, every stream has received its frames, and the limits hold. *)
Theorem C61_session : forall V c net batches, decode_inputs V (r_vocab c) (r_hist c) (r_beam c) net -> batches_ok V batches ->
  exists w, session c net (map flat V) batches = Some w /\ zlen w = zlen V /\
    forall k s, rd w k = Some s ->
      zlen (s_frames s) = frames_of batches k /\
      (0 < r_maxs c -> zlen (concat (s_states s)) <= r_maxs c) /\ (0 < r_maxc c -> zlen (s_states s) <= r_maxc c).
Proof.
  intros V c net batches HI HB. destruct (session_world V c net batches HI HB) as (_ & w & E & W1 & W2). exists w. split; [exact E|]. split; [exact W1|]. intros k s Hs. destruct (W2 k s Hs) as (S & L). pose proof (sinv_ok _ _ _ _ _ S) as K. split; [exact L|]. split; [apply (os_maxs _ _ _ _ _ K)|apply (os_maxc _ _ _ _ _ K)].
Qed.

(** The contexts the network is asked about are different, and each is the context of a
    hypothesis; the states of a context are different graph states, each reached by a
    hypothesis with this context and with the score of the state. *)
Theorem C61_contexts : forall V c net batches w k f s, decode_inputs V (r_vocab c) (r_hist c) (r_beam c) net -> batches_ok V batches ->
  session c net (map flat V) batches = Some w -> rd V k = Some f -> rd w k = Some s ->
  exists ctxs, get_contexts c (s_graph s) (s_states s) = Some ctxs /\ NoDup ctxs /\ zlen ctxs = zlen (s_states s) /\
    (forall ctx, In ctx ctxs -> zlen ctx = r_hist c /\ forall d, In d ctx -> 0 <= d < r_vocab c) /\
    forall i ctx sts, rd ctxs i = Some ctx -> rd (s_states s) i = Some sts ->
      sts <> [] /\ NoDup (map (fun st => fst st mod nstates f) sts) /\
      forall v x, In (v, x) sts -> exists p, zlen p = frames_of batches k /\ hyp f (r_hist c) (net k) p (v mod nstates f) ctx x.
Proof.
  intros V c net batches w k f s HI HB E Ef Hs. destruct (session_world V c net batches HI HB) as (G & w' & E' & W1 & W2). rewrite E in E'. injection E' as <-. destruct (W2 k s Hs) as (S & L). pose proof (sinv_ok _ _ _ _ _ S) as K. destruct S as (SG & _). assert (Fk : graph_at V k = f) by (unfold graph_at; now rewrite Ef). rewrite Fk in *.
  pose proof (G k (rd_Some_bound _ _ _ Ef)) as (Gv & _). rewrite Fk in Gv. pose proof (n2 f Gv) as N2. destruct HI as (HV & Hh & Hb & HF & HN).
  eexists. rewrite SG. split; [eapply contexts_ok; exact K|].
  assert (CR : forall sts, In sts (s_states s) -> 0 <= ccode f sts < r_vocab c ^ r_hist c). { intros sts Hin. destruct (os_ne _ _ _ _ _ K sts Hin) as (NE & _). destruct sts as [|(v & x) r]; [easy|]. destruct (os_hyp _ _ _ _ _ K v x) as (IV & _); [apply in_concat; eexists; split; [exact Hin|now left]|]. cbn [ccode fst]. apply (inr_code f c (net k) Gv _ IV). }
  split.
  { pose proof (os_ctx _ _ _ _ _ K) as ND. clear -ND CR HV Hh. induction (s_states s) as [|a l IH]; [constructor|]. cbn [map] in *. inversion ND as [|? ? N1 N3]. subst. constructor; [|apply IH; [|exact N3]; intros; apply CR; now right]. intros X. apply in_map_iff in X as (b & Eb & Hb). apply (ctxof_inj (r_vocab c) (r_hist c) HV Hh) in Eb; [|apply CR; now right|apply CR; now left]. apply N1. rewrite <- Eb. apply in_map_iff. eauto. }
  split; [now rewrite zlen_map|]. split.
  { intros ctx Hc. apply in_map_iff in Hc as (sts & <- & _). split; [apply (zlen_ctxof (r_vocab c) (r_hist c) Hh)|intros d Hd; eapply ctxof_dig; eauto]. }
  intros i ctx sts Hi Hst. rewrite rd_map, Hst in Hi. injection Hi as <-. pose proof (rd_In _ _ _ Hst) as Hin. destruct (os_ne _ _ _ _ _ K sts Hin) as (NE & SC). split; [exact NE|]. split.
  - assert (ND : NoDup (map fst sts)). { pose proof (os_nd _ _ _ _ _ K) as ND. apply in_split in Hin as (l1 & l2 & El). rewrite El, concat_app in ND. cbn [concat] in ND. rewrite !map_app in ND. apply nd_app_r in ND. apply nd_app_l in ND. exact ND. }
    clear -ND SC N2. induction sts as [|a l IH]; [constructor|]. cbn [map] in *. inversion ND as [|? ? N1 N3]. subst. assert (SC' : forall s, In s l -> fst s / nstates f = fst a / nstates f) by (intros s Hs; rewrite (SC s) by (now right); rewrite (SC a) by (now left); reflexivity).
    constructor.
    + intros X. apply in_map_iff in X as (b & Eb & Hb). apply N1. apply in_map_iff. exists b. split; [|exact Hb]. pose proof (SC' b Hb) as Q. rewrite (Z_div_mod_eq_full (fst b) (nstates f)), (Z_div_mod_eq_full (fst a) (nstates f)). congruence.
    + clear IH SC. revert SC' N3. clear -N2. generalize (fst a / nstates f). induction l as [|b l IH]; intros q SC' N3; [constructor|]. cbn [map] in *. inversion N3 as [|? ? N1 N4]. subst. constructor; [|apply (IH q); [intros; apply SC'; now right|exact N4]]. intros X. apply in_map_iff in X as (d & Ed & Hd). apply N1. apply in_map_iff. exists d. split; [|exact Hd]. rewrite (Z_div_mod_eq_full (fst d) (nstates f)), (Z_div_mod_eq_full (fst b) (nstates f)). rewrite (SC' d), (SC' b) by (now (left + right)). congruence.
  - intros v x Hv. destruct (os_hyp _ _ _ _ _ K v x) as (_ & p & P1 & P2); [apply in_concat; eauto|]. exists p. split; [lia|]. rewrite <- (SC (v, x) Hv). exact P1.
Qed.

(** The lattice of any streams of the session (after their first [nf >= 1] frames): its
    paths are hypotheses with their arcs, labels and scores, and no hypothesis within the
    beam is lost. *)
Theorem C61_lattice : forall V c net batches w partial ids nums ss, decode_inputs V (r_vocab c) (r_hist c) (r_beam c) net -> batches_ok V batches ->
  session c net (map flat V) batches = Some w -> mapM (rd w) ids = Some ss -> zlen nums = zlen ids ->
  (forall i k nf, rd ids i = Some k -> rd nums i = Some nf -> 1 <= nf <= frames_of batches k) ->
  exists gs out_map,
    format_output partial ss nums = Some (flat_vec gs, out_map) /\ zlen gs = zlen ids /\ zlen out_map = zlen (concat (concat gs)) /\
    forall i k f nf g, rd ids i = Some k -> rd V k = Some f -> rd nums i = Some nf -> rd gs i = Some g ->
      is_lattice f (r_vocab c) (r_hist c) (r_beam c) (r_maxs c) (r_maxc c) (net k) partial nf g (fun j => at0 out_map (arcs_before gs i + j)).
Proof.
  intros V c net batches w partial ids nums ss HI HB E Hss Zn Hnf. destruct (session_world V c net batches HI HB) as (G & w' & E' & W1 & W2). rewrite E in E'. injection E' as <-. destruct HI as (HV & Hh & _).
  pose proof (mapM_length _ _ _ Hss) as Zs. assert (Z2 : zlen ss = zlen ids) by (unfold zlen; lia).
  assert (AT : forall i k, rd ids i = Some k -> exists s, rd ss i = Some s /\ rd w k = Some s). { intros i k Hi. destruct (rd_in_bound ss i) as (s & Es); [rewrite Z2; eapply rd_Some_bound; eauto|]. exists s. split; [exact Es|]. destruct (mapM_rd _ _ _ i s Hss Es) as (k' & X & Y). congruence. }
  assert (HA : forall i s nf, rd ss i = Some s -> rd nums i = Some nf -> 1 <= nf <= zlen (s_frames s) /\ exists k, gok (graph_at V) c k /\ sinv (graph_at V) c net k s).
  { intros i s nf Hs Hn. destruct (rd_in_bound ids i) as (k & Ek); [rewrite <- Z2; eapply rd_Some_bound; eauto|]. destruct (AT i k Ek) as (s' & X & Y). rewrite Hs in X. injection X as <-. destruct (W2 k s Y) as (S & L). split; [rewrite L; eapply Hnf; eauto|]. exists k. split; [apply G; rewrite <- W1; eapply rd_Some_bound; eauto|exact S]. }
  exists (gsL partial ss nums), (map snd (concat (concat (LL partial ss nums)))). split; [eapply (format_ok (graph_at V) c net); try lia; exact HA|]. destruct (lattices_ok (graph_at V) c net partial HV Hh ss nums ltac:(lia) HA) as (L1 & L2 & L3). split; [lia|]. split; [exact L2|].
  intros i k f nf g Hi Hf Hn Hg. destruct (AT i k Hi) as (s & X & Y). destruct (W2 k s Y) as (S & _). assert (Fk : graph_at V k = f) by (unfold graph_at; now rewrite Hf). rewrite <- Fk. apply (L3 i s nf g k X Hn Hg); [apply G; eapply rd_Some_bound; eauto|exact S].
Qed.

(** ** Concrete cases *)
Definition ex_f : nfsa := [[mkArc 0 1 1 3; mkArc 0 2 (-1) 0]; [mkArc 1 1 2 (-1); mkArc 1 2 (-1) 2]; []].
Definition ex_V : list nfsa := [ex_f; [[mkArc 0 1 (-1) 5]; []]].
Definition ex_net (k t : Z) (ctx : list Z) : list Z := [-1 - t; - zsum ctx; -2 - k].
Definition ex_c : rcfg := mkR 3 2 10 0 0.
Definition ex_b : list (list Z * nat) := [([0; 1], 1%nat); ([0], 2%nat)].
Example C61_session_ex : decode_inputs ex_V (r_vocab ex_c) (r_hist ex_c) (r_beam ex_c) ex_net /\ batches_ok ex_V ex_b /\ frames_of ex_b 0 = 3.
Proof.
  split; [|split; [|reflexivity]].
  - split; [cbn; lia|]. split; [cbn; lia|]. split; [cbn; lia|]. split; [|reflexivity]. intros f [<-|[<-|[]]]; (split; [apply validb_ok; reflexivity|]); intros a Ha; cbn in Ha; repeat destruct Ha as [<-|Ha]; cbn; try lia; easy.
  - intros b [<-|[<-|[]]]; cbn [fst]; (split; [discriminate|]); (split; [repeat constructor; cbn; intuition lia|]); intros k Hk; change (zlen ex_V) with 2; cbn in Hk; lia.
Qed.
Example C61_contexts_ex : exists w s, session ex_c ex_net (map flat ex_V) ex_b = Some w /\ rd w 0 = Some s /\
  get_contexts ex_c (s_graph s) (s_states s) = Some [[0; 0]; [0; 1]; [1; 2]; [2; 2]].
Proof. eexists _, _. split; [vm_compute; reflexivity|]. split; [vm_compute; reflexivity|]. vm_compute. reflexivity. Qed.
Definition ex_f0 : nfsa := [[mkArc 0 1 1 0; mkArc 0 2 (-1) 0]; [mkArc 1 1 2 0; mkArc 1 2 (-1) 0]; []].
Definition ex_net0 (k t : Z) (ctx : list Z) : list Z := [0; 0; 0].
Lemma ex_hyp0 p s ctx x : hyp ex_f0 2 (ex_net0 0) p s ctx x -> x = 0.
Proof.
  assert (L0 : forall t ctx l, logp (ex_net0 0) t ctx l = 0). { intros t ctx' l. unfold logp, at0. destruct (rd _ l) as [y|] eqn:E; [|reflexivity]. apply rd_In in E. cbn in E. intuition. }
  induction 1 as [|p s ctx x H IH Hs|p s ctx x j a H IH Ha Hs]; [reflexivity|rewrite L0; lia|]. rewrite L0. apply rd_In in Ha. cbn in Ha. repeat destruct Ha as [<-|Ha]; cbn [sc]; lia || easy.
Qed.
(** three frames: arc 0, arc 2 and the final arc 3; the lattice of this stream and of a
    second one *)
Example C61_lattice_ex : exists w ss r, session ex_c ex_net0 (map flat [ex_f0; ex_f]) [([1; 0], 3%nat)] = Some w /\ mapM (rd w) [1; 0] = Some ss /\ format_output false ss [2; 3] = Some r /\
  good ex_f0 2 (ex_net0 0) 10 [0; 2; 3] /\ ends_final ex_f0 [0; 2; 3] /\ no_limit ex_f0 3 2 0 0 /\ forall t ctx, logp (ex_net0 0) t ctx 0 <= 0.
Proof.
  eexists _, _, _. split; [vm_compute; reflexivity|]. split; [vm_compute; reflexivity|]. split; [vm_compute; reflexivity|]. split; [|split; [|split]].
  - split.
    + eexists _, _, _. change [0; 2; 3] with ((([] ++ [0]) ++ [2]) ++ [3]). eapply hyp_arc with (a := mkArc 1 2 (-1) 0) (s := 1); [|reflexivity|reflexivity]. eapply (hyp_arc ex_f0 2 (ex_net0 0) _ 1 _ _ 2 (mkArc 1 1 2 0)); [|reflexivity|reflexivity]. eapply (hyp_arc ex_f0 2 (ex_net0 0) _ 0 _ _ 0 (mkArc 0 1 1 0)); [constructor|reflexivity|reflexivity].
    + intros n s ctx x p' s' ctx' x' _ H H' _. rewrite (ex_hyp0 _ _ _ _ H), (ex_hyp0 _ _ _ _ H'). lia.
  - exists 3, (mkArc 1 2 (-1) 0). repeat split; reflexivity.
  - split; left; lia.
  - intros t ctx. unfold logp, ex_net0, at0. rewrite rd_cons_0. lia.
Qed.

(** ** The log-probs of the last frame are not in the lattice *)
Definition rf_f : nfsa := [[mkArc 0 1 (-1) 5]; []].
Definition rf_net (k t : Z) (ctx : list Z) : list Z := [-7].
(** a hypothesis for one frame has score -2; it is a path of the lattice with score 0 *)
Theorem C61_last_frame_refuted : exists f net c w ss g m p s ctx x q,
  decode_inputs [f] (r_vocab c) (r_hist c) (r_beam c) net /\ session c net (map flat [f]) [([0], 1%nat)] = Some w /\ mapM (rd w) [0] = Some ss /\
  format_output false ss [1] = Some (flat_vec [g], m) /\
  hyp f (r_hist c) (net 0) p s ctx x /\ zlen p = 1 /\ s = final f /\
  successful g q /\ labels (arcs_at g q) = map (hlab f) p /\ score (arcs_at g q) <> x.
Proof.
  exists rf_f, rf_net, (mkR 1 1 10 0 0). eexists _, _. exists [[mkArc 0 1 (-1) 0]; []]. eexists. exists [0]. eexists _, _, _. exists [0].
  split; [|split; [vm_compute; reflexivity|split; [vm_compute; reflexivity|split; [vm_compute; reflexivity|split]]]].
  - split; [cbn; lia|]. split; [cbn; lia|]. split; [cbn; lia|]. split; [|reflexivity]. intros f [<-|[]]. split; [apply validb_ok; reflexivity|]. intros a [<-|[]]. cbn. lia.
  - change [0] with ([] ++ [0]). eapply (hyp_arc rf_f 1 (rf_net 0) [] 0 _ _ 0 (mkArc 0 1 (-1) 5)); [constructor|reflexivity|reflexivity].
  - split; [reflexivity|]. split; [reflexivity|]. split; [|split; [reflexivity|discriminate]]. split; [reflexivity|]. apply (ap_cons [[mkArc 0 1 (-1) 0]; []] 0 (mkArc 0 1 (-1) 0)); [reflexivity|constructor].
Qed.
(** ** A stream can lose all its states
    (rnnt_decode.cu says that every stream keeps one): when only the final state is
    within the beam, the next frame has no arcs at all, although there are hypotheses. *)
Theorem C61_survivor_refuted : exists f net c w s p st ctx x,
  decode_inputs [f] (r_vocab c) (r_hist c) (r_beam c) net /\ session c net (map flat [f]) [([0], 2%nat)] = Some w /\ rd w 0 = Some s /\
  concat (s_states s) = [] /\ hyp f (r_hist c) (net 0) p st ctx x /\ zlen p = 2.
Proof.
  exists rf_f, rf_net, (mkR 1 1 1 0 0). eexists _, _. exists [-1; -1], 0. eexists _, _.
  split; [|split; [vm_compute; reflexivity|split; [vm_compute; reflexivity|split; [vm_compute; reflexivity|split]]]].
  - split; [cbn; lia|]. split; [cbn; lia|]. split; [cbn; lia|]. split; [|reflexivity]. intros f [<-|[]]. split; [apply validb_ok; reflexivity|]. intros a [<-|[]]. cbn. lia.
  - change [-1; -1] with (([] ++ [-1]) ++ [-1]). eapply hyp_blank; [|discriminate]. eapply hyp_blank; [constructor|discriminate].
  - reflexivity.
Qed.
Print Assumptions C61_session.
Print Assumptions C61_contexts.
Print Assumptions C61_lattice.
Print Assumptions C61_last_frame_refuted.
Print Assumptions C61_survivor_refuted.
