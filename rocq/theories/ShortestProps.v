(** * C29: shortest_path; C33: gradients of the total score, tropical semiring. *)
From Coq Require Import ZArith List Lia Lra Bool Reals Permutation.
From Coq Require Import ZifyBool ZifyNat.
From Verif Require Import Base RaggedModel RaggedSpec RaggedProofs FsaSpec FsaLemmas EpsLoopProofs RaggedOpsModel RaggedOpsSpec RaggedOpsProofs RaggedCatProofs
  PropsSpec PropsProofs PropsProps ConnectSpec ConnectProofs ExtractProofs ConnectProps TopSortProofs TopSortRun LogReal MutualInfoProofs
  BatchModel BatchRun ScoreModel ScoreSpec PathSums ScoreProofs ScoreRun ScorePaths ScoreProps ShortestModel ShortestProofs ShortestRun ShortestSpec.
Import ListNotations.
Open Scope Z_scope.

Section P.
Variable fs : list nfsa.
Hypothesis WF : Forall well_formed fs.
Hypothesis TS : Forall p_topsorted_acyclic fs.
Variable scores : list (option R).
Notation Sn := (zlen (concat fs)).
Notation An := (zlen (concat (concat fs))).
Notation E := (went fs scores false).
Notation sr := (srcq fs).
Notation trf := (tr E sr).
Notation exf := (ex E).
Notation FwF := (Fw fs scores false).

Lemma Fw_step s : 0 <= s < Sn -> E s <> -1 -> FwF s = ladd (FwF (sr (E s))) (sw scores (E s)).
Proof.
  intros Hs H. destruct (E_cases fs scores s) as [(C & _) | (C & D & S)]; [lia|]. rewrite <- S. unfold Fw at 1. rewrite (tot_to_rec An sr (dstq fs) rk (is_start fs) (RK fs WF TS)).
  replace (is_start fs s) with false; [apply splus_None|]. symmetry. destruct (is_start fs s) eqn:G; auto. exfalso. pose proof (start_no_arcs fs WF TS s Hs G) as N.
  assert (I : In (E s) (inarcs An (dstq fs) s)) by (now apply in_inarcs). rewrite N in I. destruct I.
Qed.

Section One.
Variables (k : Z) (f : nfsa).
Hypothesis Hk : rd fs k = Some f.
Hypothesis Ne : 0 < zlen f.
Notation b := (off1 fs k).
Notation F := (final_of fs k f).
Notation L := (zlen (chain fs scores k f)).
Notation ab := (abase fs k).

Lemma chain_path n : 0 <= n <= L -> exists p, rev (tab n (fun i => exf (trf i F))) = map (fun j => ab + j) p /\ apath f (trf n F - b) p (nstates f - 1) /\
  ladd (FwF (trf n F)) (pweight (arc_score fs scores k) p) = FwF F.
Proof.
  intros Hn. replace n with (Z.of_nat (Z.to_nat n)) in * by lia. revert Hn. generalize (Z.to_nat n) as m. induction m as [|m IH]; intros Hn.
  - exists []. split; [reflexivity|]. rewrite tr_0. split; [|now rewrite ladd_0r]. replace (F - b) with (nstates f - 1) by (unfold final_of, nstates; lia). constructor.
  - destruct (IH ltac:(lia)) as (p & P1 & P2 & P3). replace (Z.of_nat (S m)) with (Z.of_nat m + 1) in * by lia. destruct (chain_arc fs WF TS scores k f Hk Ne (Z.of_nat m) ltac:(lia)) as (j & a & A1 & A2 & A3 & A4).
    exists (j :: p). split; [|split].
    + rewrite tab_app by lia. rewrite rev_app_distr, P1. change (tab 1 (fun j0 : Z => exf (trf (Z.of_nat m + j0) F))) with [exf (trf (Z.of_nat m + 0) F)]. rewrite Z.add_0_r, A2. reflexivity.
    + rewrite A4. replace (b + src a - b) with (src a) by lia. apply ap_cons; auto. replace (dst a) with (trf (Z.of_nat m) F - b) by lia. exact P2.
    + pose proof (tr_in fs WF TS scores k f Hk Ne (Z.of_nat m) ltac:(lia)) as Rg. pose proof (F_range fs k f Hk Ne). pose proof (off1_nonneg fs k).
      assert (EE : exf (trf (Z.of_nat m) F) = E (trf (Z.of_nat m) F)) by (unfold ex; now replace (trf (Z.of_nat m) F <? 0) with false by lia). destruct (arc_kj fs WF k f j a Hk A1) as (B & S1 & _).
      rewrite <- P3. rewrite (Fw_step (trf (Z.of_nat m) F)) by lia. rewrite <- EE, A2, S1, A4. cbn [pweight fold_right]. fold (pweight (arc_score fs scores k) p). rewrite <- sw_arc. now rewrite ladd_assoc.
Qed.
End One.

Lemma best_ok k f : rd fs k = Some f -> exists p, best fs scores k f = map (fun j => abase fs k + j) p /\ (p = [] \/ successful f p) /\
  (forall p' x', successful f p' -> pweight (arc_score fs scores k) p' = Some x' -> successful f p /\ pweight (arc_score fs scores k) p = Tot fs scores false k).
Proof.
  intros Hk. unfold best. destruct (zlen f =? 0) eqn:EZ.
  { exists []. split; auto. split; auto. intros p' x' (H & _). unfold nstates in H. lia. }
  pose proof (zlen_nonneg f). assert (Ne : 0 < zlen f) by lia. pose proof (zlen_nonneg (chain fs scores k f)) as L0. destruct (chain_path k f Hk Ne (zlen (chain fs scores k f)) ltac:(lia)) as (p & P1 & P2 & P3).
  destruct (chain_ok fs WF TS scores k f Hk Ne) as (C1 & C2 & C3).
  assert (EC : chain fs scores k f = tab (zlen (chain fs scores k f)) (fun i => exf (trf i (final_of fs k f)))).
  { apply list_ext_rd; [now rewrite zlen_tab by lia|]. intros i Hi. rewrite rd_tab by lia. now apply C1. }
  rewrite <- EC in P1. set (u := trf (zlen (chain fs scores k f)) (final_of fs k f)) in *.
  assert (SU : u = off1 fs k -> successful f p) by (intros U; split; [unfold nstates; lia|]; replace 0 with (u - off1 fs k) by lia; exact P2).
  assert (ET : Tot fs scores false k = FwF (final_of fs k f)) by (unfold Tot; rewrite Hk; replace (0 <? zlen f) with true by lia; f_equal; unfold final_of, nstates; lia).
  assert (OPT : forall p' x', successful f p' -> pweight (arc_score fs scores k) p' = Some x' -> u = off1 fs k /\ pweight (arc_score fs scores k) p = Tot fs scores false k).
  { intros p' x' Hp' Hx'. destruct (path_sum_In _ _ _ _ _ _ (Tot_sum false fs scores k f WF TS Hk) Hp' Hx') as (T & HT & _). rewrite ET in HT. rewrite HT in P3.
    pose proof (tr_in fs WF TS scores k f Hk Ne (zlen (chain fs scores k f)) ltac:(lia)) as Rg. fold u in Rg. pose proof (F_range fs k f Hk Ne) as RF. pose proof (off1_nonneg fs k). pose proof (L_states fs WF TS scores k f Hk Ne).
    assert (IA : inarcs An (dstq fs) u = []).
    { destruct (E_cases fs scores u) as [(_ & C) | (C & _)]; auto. exfalso. unfold ex in C2. replace (u <? 0) with false in C2 by lia. lia. }
    assert (FU : FwF u = if is_start fs u then lzero else None).
    { unfold Fw. rewrite (tot_to_rec An sr (dstq fs) rk (is_start fs) (RK fs WF TS)), IA. cbn [map ssum fold_right]. now destruct (is_start fs u). }
    destruct (is_start fs u) eqn:SU'; [|rewrite FU in P3; discriminate]. rewrite FU, ladd_0 in P3. replace u with (off1 fs k + (u - off1 fs k)) in SU' by lia.
    rewrite (is_start_at fs k f (u - off1 fs k) Hk) in SU' by (unfold final_of in *; lia). split; [lia|]. now rewrite P3, ET. }
  destruct (u =? off1 fs k) eqn:EU.
  - exists p. split; auto. split; [right; apply SU; lia|]. intros p' x' Hp' Hx'. destruct (OPT p' x' Hp' Hx'). auto.
  - exists []. split; auto. split; auto. intros p' x' Hp' Hx'. destruct (OPT p' x' Hp' Hx'). lia.
Qed.
End P.

(** ** FsaVecFromArcIndexes *)
Section Lin.
Context (v : fsavec) (X : list (list Z)) (HX : zlen X = zlen (v_rs1 v) - 1) (HI : forall r q, In r X -> In q r -> 0 <= q < zlen (v_arcs v)).
Definition arc_of (q : Z) : arc := match rd (v_arcs v) q with Some a => a | None => mkArc 0 0 0 0 end.
Definition lins : list nfsa := map (fun r => linear_of (map arc_of r)) X.

Lemma zlen_linear p : zlen (linear_of p) = if zlen p =? 0 then 0 else zlen p + 1.
Proof using. clear. destruct p as [|a p]; [reflexivity|]. unfold linear_of. rewrite zlen_app, zlen_imap. rewrite zlen_cons. pose proof (zlen_nonneg p). replace (1 + zlen p =? 0) with false by lia. reflexivity. Qed.
Lemma rd_linear p i : 0 <= i < zlen p -> rd (linear_of p) i = option_map (fun a => [mkArc i (i + 1) (lab a) (sc a)]) (rd p i).
Proof using. clear.
  intros Hi. destruct p as [|a p]; [change (zlen (@nil arc)) with 0 in Hi; lia|]. unfold linear_of. rewrite rd_app_l by (rewrite zlen_imap; lia). rewrite rd_imap. destruct (rd (a :: p) i); reflexivity.
Qed.
Lemma concat_linear p : concat (linear_of p) = imap (fun i a => mkArc i (i + 1) (lab a) (sc a)) 0 p.
Proof using. clear.
  destruct p as [|a p]; [reflexivity|]. unfold linear_of. rewrite concat_app. cbn [concat]. rewrite app_nil_r. generalize (a :: p) as l, 0 as n. clear. induction l as [|a l IH]; intros n; [reflexivity|]. cbn [imap concat app]. now rewrite IH.
Qed.
Lemma off1_linear p i : 0 <= i <= zlen p -> off1 (linear_of p) i = i.
Proof using. clear.
  intros Hi. replace i with (Z.of_nat (Z.to_nat i)) in * by lia. revert Hi. generalize (Z.to_nat i) as m. induction m as [|m IH]; intros Hi; [reflexivity|].
  replace (Z.of_nat (S m)) with (Z.of_nat m + 1) in * by lia. destruct (rd_in_bound p (Z.of_nat m) ltac:(lia)) as (a & Ha). rewrite (off1_next _ _ [mkArc (Z.of_nat m) (Z.of_nat m + 1) (lab a) (sc a)]) by (rewrite rd_linear, Ha by lia; reflexivity).
  rewrite IH by lia. reflexivity.
Qed.
Lemma off1_linear_all p : off1 (linear_of p) (zlen p + 1) = zlen p.
Proof using. clear.
  destruct p as [|a p]; [reflexivity|]. pose proof (off1_all (linear_of (a :: p))) as H. rewrite zlen_linear in H. pose proof (zlen_nonneg p). rewrite zlen_cons in *. replace (1 + zlen p =? 0) with false in H by lia. rewrite H.
  rewrite concat_linear, zlen_imap. apply zlen_cons.
Qed.
Lemma rd_lins k r : rd X k = Some r -> rd lins k = Some (linear_of (map arc_of r)).
Proof using. clear. intros H. unfold lins. rewrite rd_map, H. reflexivity. Qed.
Lemma zlen_lins : zlen lins = zlen X. Proof. apply zlen_map. Qed.

Lemma pinned_ok : change_sublist_size_pinned (splits_of X) 1 = Some (splits_of lins).
Proof using. clear.
  unfold change_sublist_size_pinned. rewrite zlen_splits_of. replace (zlen X + 1 - 1) with (zlen X) by lia.
  rewrite (RaggedOpsProofs.mapM_zrange _ _ (map zlen lins)); [reflexivity|apply zlen_nonneg|rewrite zlen_map; apply zlen_lins|].
  intros k Hk. destruct (rd_in_bound X k Hk) as (r & Hr). rewrite !rd_splits_off by lia. rewrite rd_map, (rd_lins k r Hr), (off1_next _ _ _ Hr). cbn [option_map]. f_equal. rewrite zlen_linear, zlen_map. pose proof (zlen_nonneg r).
  destruct (zlen r =? 0) eqn:EZ.
  - now replace (off1 X k + zlen r - off1 X k =? 0) with true by lia.
  - replace ((off1 X k + zlen r - off1 X k =? 0) || (off1 X k + zlen r - off1 X k + 1 <=? 0)) with false by lia. lia.
Qed.
Lemma zlen_arcs_pre k : zlen (concat (concat (firstn (Z.to_nat k) lins))) = off1 X k.
Proof using. clear.
  unfold off1. unfold lins. rewrite firstn_map. generalize (firstn (Z.to_nat k) X) as l. induction l as [|r l IH]; [reflexivity|]. cbn [map concat]. rewrite concat_app, !zlen_app, IH, concat_linear, zlen_imap, zlen_map. reflexivity.
Qed.
Lemma lin_split k r i : rd X k = Some r -> 0 < zlen r -> 0 <= i <= zlen r + 1 -> off1 (concat lins) (off1 lins k + i) = off1 X k + Z.min i (zlen r).
Proof using. clear.
  intros Hr Hp Hi. rewrite (off1_concat lins k (linear_of (map arc_of r)) i (rd_lins k r Hr)) by (rewrite zlen_linear, zlen_map; replace (zlen r =? 0) with false by lia; lia).
  rewrite zlen_arcs_pre. f_equal. destruct (Z.eq_dec i (zlen r + 1)) as [->|].
  - pose proof (off1_linear_all (map arc_of r)) as H. rewrite zlen_map in H. rewrite H. lia.
  - rewrite off1_linear by (rewrite zlen_map; lia). lia.
Qed.

Theorem from_indexes_ok sched : is_sched (zlen (concat X)) sched -> fsavec_from_arc_indexes sched v (splits_of X) (concat X) = Some (flat_vec lins).
Proof using HX HI.
  intros SC. unfold fsavec_from_arc_indexes. rewrite pinned_ok. rewrite zlen_splits_of, <- HX. replace (zlen X =? zlen X + 1 - 1) with true by lia.
  rewrite <- zlen_lins at 1. rewrite rd_splits_last. destruct (zlen (concat X) =? 0) eqn:EZ.
  - assert (EL : forall r, In r X -> r = []).
    { intros r Hr. assert (ER : concat X = []) by (apply length_zero_iff_nil; unfold zlen in EZ; lia). destruct r as [|q r]; auto. exfalso. assert (I : In q (concat X)) by (apply in_concat; exists (q :: r); split; auto; now left). rewrite ER in I. destruct I. }
    assert (LE : lins = repeat [] (length X)).
    { unfold lins. clear - EL. induction X as [|r X' IH]; [reflexivity|]. cbn [map length repeat]. rewrite IH by (intros; apply EL; now right). rewrite (EL r) by now left. reflexivity. }
    assert (CE : forall n, concat (repeat (@nil (list arc)) n) = []) by (induction n; auto). unfold flat_vec. rewrite LE, CE. change (concat (@nil (list arc))) with (@nil arc). change (splits_of (@nil (list arc))) with [0]. f_equal. f_equal.
    apply list_ext_rd; [rewrite zlen_map, zlen_zrange, zlen_splits_of, zlen_repeat; unfold zlen; lia|]. intros i Hi. rewrite zlen_map, zlen_zrange in Hi by (pose proof (zlen_nonneg X); lia). rewrite rd_map, rd_zrange by lia. rewrite rd_splits_off by (rewrite zlen_repeat; unfold zlen in *; lia).
    cbn [option_map]. f_equal. unfold off1. assert (CF : forall n m, concat (firstn n (repeat (@nil (list arc)) m)) = []) by (intros n m; revert n; induction m as [|m IH]; intros [|n]; cbn; auto). now rewrite CF.
  - rewrite row_ids_of_splits.
    assert (POS : forall i, 0 <= i < zlen (concat X) -> exists k r j q, rd X k = Some r /\ rd r j = Some q /\ i = off1 X k + j /\ rd (ids_of X) i = Some k /\ 0 <= j < zlen r /\ 0 <= k < zlen X /\ rd (concat X) i = Some q).
    { intros i Hi. destruct (rd_in_bound (concat X) i Hi) as (q & Hq). destruct (rd_concat_inv _ _ _ Hq) as (k & r & j & R1 & R2 & EI & R3). pose proof (rd_Some_bound _ _ _ R1). pose proof (rd_Some_bound _ _ _ R2). exists k, r, j, q. subst i. repeat split; auto; lia. }
    assert (AC : concat (concat lins) = concat (map (fun r => imap (fun i a => mkArc i (i + 1) (lab a) (sc a)) 0 (map arc_of r)) X)).
    { unfold lins. rewrite <- concat_map_concat, map_map. f_equal. apply map_ext. intros r. apply concat_linear. }
    match goal with |- (arcs <- ?m;; _) = _ => assert (E1 : m = Some (concat (concat lins))) end.
    { rewrite AC. set (g := fun r => imap (fun i a => mkArc i (i + 1) (lab a) (sc a)) 0 (map arc_of r)). assert (LG : forall r, zlen (g r) = zlen r) by (intros r; unfold g; rewrite zlen_imap; apply zlen_map).
      assert (LC : forall l, zlen (concat (map g l)) = zlen (concat l)) by (induction l as [|r l IH]; [reflexivity|]; cbn [map concat]; rewrite !zlen_app, IH, LG; reflexivity).
      apply RaggedOpsProofs.mapM_zrange; [apply zlen_nonneg|apply LC|]. intros i Hi. destruct (POS i Hi) as (k & r & j & q & R1 & R2 & -> & R3 & Bj & Bk & R4). rewrite R3, R4, rd_splits_off by lia.
      destruct (rd_in_bound (v_arcs v) q (HI r q (rd_In _ _ _ R1) (rd_In _ _ _ R2))) as (a & Ha). rewrite Ha. replace (off1 X k + j - off1 X k) with j by lia.
      assert (G : rd (g r) j = Some (mkArc j (j + 1) (lab a) (sc a))) by (unfold g; rewrite rd_imap, rd_map, R2; cbn [option_map]; unfold arc_of; now rewrite Ha).
      destruct (rd_concat_off (map g X) k (g r) j _ ltac:(now rewrite rd_map, R1) G) as (RC & _). replace (off1 (map g X) k) with (off1 X k) in RC; [now rewrite RC|]. unfold off1. now rewrite firstn_map, LC. }
    rewrite E1. clear E1 AC.
    match goal with |- (rs2 <- ?m;; _) = _ => assert (E2 : m = Some (splits_of (concat lins))) end; [|now rewrite E2].
    pose proof (zlen_nonneg (concat X)) as ZX. rewrite <- zlen_splits_of. apply (k2_fill_list _ (zlen (concat X))); auto.
    + intros i Hi. destruct (POS i Hi) as (k & r & j & q & R1 & R2 & -> & R3 & Bj & Bk & R4). rewrite R3. rewrite !rd_splits_off by (rewrite ?zlen_lins; lia). rewrite (off1_next _ _ _ R1). replace (off1 X k + j - off1 X k) with j by lia. replace (off1 X k + zlen r - off1 X k) with (zlen r) by lia.
      eexists. split; [reflexivity|]. pose proof (off1_next _ _ _ (rd_lins k r R1)) as ON. rewrite zlen_linear, zlen_map in ON. replace (zlen r =? 0) with false in ON by lia.
      assert (SB : forall c, 0 <= c <= zlen r + 1 -> rd (splits_of (concat lins)) (off1 lins k + c) = Some (off1 X k + Z.min c (zlen r))).
      { intros c Hc. rewrite <- (lin_split k r c R1) by lia. apply rd_splits_off. pose proof (off1_nonneg lins k). pose proof (off1_bound lins (k + 1)). lia. }
      apply Forall_app. split; [|apply Forall_app; split].
      * constructor; [|constructor]. cbn [fst snd]. replace (off1 lins k + j + 1) with (off1 lins k + (j + 1)) by lia. rewrite SB by lia. f_equal. lia.
      * destruct (off1 X k + j =? 0); constructor; [|constructor]. cbn [fst snd]. rewrite rd_splits_off by (pose proof (zlen_nonneg (concat lins)); lia). reflexivity.
      * destruct (j + 1 =? zlen r) eqn:EJ; constructor; [|constructor]. cbn [fst snd]. replace (off1 lins k + j + 2) with (off1 lins k + (j + 2)) by lia. rewrite SB by lia. f_equal. lia.
    + intros c Hc. rewrite zlen_splits_of in Hc.
      assert (JOB : forall k r j, rd X k = Some r -> 0 <= j < zlen r -> 0 <= off1 X k + j < zlen (concat X) /\ rd (ids_of X) (off1 X k + j) = Some k /\ 0 <= k < zlen X).
      { intros k r j R1 Bj. destruct (rd_in_bound r j Bj) as (q & R2). destruct (rd_concat_off X k r j q R1 R2) as (RC & RI). pose proof (rd_Some_bound _ _ _ R1). pose proof (rd_Some_bound _ _ _ RC). auto. }
      destruct (Z.eq_dec c 0) as [->|].
      * destruct (POS 0 ltac:(lia)) as (k & r & j & q & R1 & R2 & E0 & R3 & Bj & Bk & R4). exists 0. rewrite R3. rewrite !rd_splits_off by (rewrite ?zlen_lins; lia).
        eexists. split; [lia|]. split; [reflexivity|]. rewrite !map_app, !in_app_iff. right. left. now left.
      * destruct (rd_in_bound (concat lins) (c - 1) ltac:(lia)) as (st & Hst). destruct (rd_concat_inv _ _ _ Hst) as (k & l & i & R1 & R2 & EI & _). pose proof (rd_Some_bound _ _ _ R1) as Bk. rewrite zlen_lins in Bk.
        destruct (rd_in_bound X k Bk) as (r & Hr). rewrite (rd_lins k r Hr) in R1. injection R1 as <-. pose proof (rd_Some_bound _ _ _ R2) as Bi. rewrite zlen_linear, zlen_map in Bi. pose proof (zlen_nonneg r).
        assert (NR : 0 < zlen r) by (destruct (zlen r =? 0) eqn:EE; lia). replace (zlen r =? 0) with false in Bi by lia. destruct (Z.eq_dec i (zlen r)) as [->|].
        -- destruct (JOB k r (zlen r - 1) Hr ltac:(lia)) as (J1 & J2 & J3). exists (off1 X k + (zlen r - 1)). rewrite J2. rewrite !rd_splits_off by (rewrite ?zlen_lins; lia). rewrite (off1_next _ _ _ Hr).
           eexists. split; [lia|]. split; [reflexivity|]. rewrite !map_app, !in_app_iff. right. right. replace (off1 X k + (zlen r - 1) - off1 X k + 1 =? off1 X k + zlen r - off1 X k) with true by lia. left. cbn [fst]. lia.
        -- destruct (JOB k r i Hr ltac:(lia)) as (J1 & J2 & J3). exists (off1 X k + i). rewrite J2. rewrite !rd_splits_off by (rewrite ?zlen_lins; lia).
           eexists. split; [lia|]. split; [reflexivity|]. rewrite !map_app, !in_app_iff. left. left. cbn [fst]. lia.
Qed.
End Lin.

(** ** C29 *)
(** For every batch of well-formed, top-sorted acyclic FSAs, any scores
    (including -inf), and any schedule: [shortest_path] succeeds; [ps] are the
    positions of the arcs chosen in each FSA.  Each FSA of the result is the
    linear FSA of those arcs, and arc_map their positions in the batch.  They are
    empty or form a successful path, a best one when a path of finite score
    exists. *)
Theorem C29_shortest_path (fs : list nfsa) (scores : list (option R)) lp sched ord lp' sched' :
  Forall well_formed fs -> Forall p_topsorted_acyclic fs -> zlen (concat fs) < int_max -> zlen scores = zlen (concat (concat fs)) ->
  is_sched (zlen fs * 2 ^ Z.of_nat lp) sched -> fair ord -> is_sched (zlen fs * 2 ^ Z.of_nat lp') sched' ->
  exists (outs : list nfsa) (ps : list (list Z)),
    shortest_path lp sched ord (flat_vec fs) scores lp' sched' = Some (flat_vec outs, concat (imap (fun k p => map (fun j => off1 (map all_arcs fs) k + j) p) 0 ps)) /\
    zlen outs = zlen fs /\ zlen ps = zlen fs /\
    forall k f, rd fs k = Some f -> exists p, rd ps k = Some p /\ rd outs k = Some (linear_of (arcs_at f p)) /\
      (p = [] \/ successful f p) /\
      ((exists p', successful f p' /\ pweight (arc_score fs scores k) p' <> None) -> best_path f (arc_score fs scores k) p).
Proof.
  intros WF TS SM LS SC FO SC'. unfold shortest_path. rewrite (forward_run fs WF TS ltac:(lia) scores LS lp sched ord SC FO false). cbn [snd].
  rewrite (shortest_path_run fs WF TS scores lp' sched' SC'). cbn [fst snd].
  set (ps := imap (fun k f => map (fun q => q - abase fs k) (best fs scores k f)) 0 fs).
  assert (RP : forall k f, rd fs k = Some f -> exists p, rd ps k = Some p /\ best fs scores k f = map (fun j => abase fs k + j) p /\ (p = [] \/ successful f p) /\
     (forall p' x', successful f p' -> pweight (arc_score fs scores k) p' = Some x' -> successful f p /\ pweight (arc_score fs scores k) p = Tot fs scores false k)).
  { intros k f Hk. destruct (best_ok fs WF TS scores k f Hk) as (p & B1 & B2 & B3). exists p. split; auto. unfold ps. rewrite rd_imap, Hk. cbn [option_map]. rewrite Z.add_0_l, B1. f_equal. apply un_sh. }
  assert (ARC : forall k f p j, rd fs k = Some f -> (p = [] \/ successful f p) -> In j p -> 0 <= j < zlen (all_arcs f)).
  { intros k f p j Hk [-> | (_ & H)] Hj; [destruct Hj|]. eapply apath_arcs; eauto. }
  rewrite (from_indexes_ok (flat_vec fs) (bests fs scores)).
  2:{ rewrite zlen_bests. change (v_rs1 (flat_vec fs)) with (splits_of fs). rewrite zlen_splits_of. lia. }
  2:{ intros r q Hr Hq. apply In_rd in Hr as (k & Bk & Hr). rewrite zlen_bests in Bk. destruct (rd_in_bound fs k Bk) as (f & Hk). rewrite (rd_bests fs scores k f Hk) in Hr. injection Hr as <-.
      destruct (RP k f Hk) as (p & _ & B1 & B2 & _). rewrite B1 in Hq. apply in_map_iff in Hq as (j & <- & Hj). pose proof (ARC k f p j Hk B2 Hj) as BJ. destruct (rd_in_bound _ _ BJ) as (a & Ha). apply (arc_kj fs WF k f j a Hk Ha). }
  2:{ apply FO. }
  eexists _, ps. split; [f_equal; f_equal|].
  { f_equal. apply list_ext_rd; [unfold ps; now rewrite zlen_bests, !zlen_imap|]. intros k Bk. rewrite zlen_bests in Bk. destruct (rd_in_bound fs k Bk) as (f & Hk). destruct (RP k f Hk) as (p & P1 & B1 & _).
    rewrite (rd_bests fs scores k f Hk), rd_imap, P1. cbn [option_map]. rewrite Z.add_0_l. now rewrite B1. }
  split; [now rewrite zlen_lins, zlen_bests|]. split; [apply zlen_imap|]. intros k f Hk. destruct (RP k f Hk) as (p & P1 & B1 & B2 & B3). exists p. split; auto. split; [|split; auto].
  - rewrite (rd_lins (flat_vec fs) (bests fs scores) k (best fs scores k f)) by now apply rd_bests. f_equal. f_equal. rewrite B1. unfold arcs_at. rewrite map_map, flat_map_concat_map.
    assert (G : forall l, (forall j, In j l -> In j p) -> map (fun x => arc_of (flat_vec fs) (abase fs k + x)) l = concat (map (fun j => match rd (all_arcs f) j with Some a => [a] | None => [] end) l)); [|now apply G].
    induction l as [|j l IH]; intros HI; [reflexivity|]. cbn [map concat]. rewrite <- IH by (intros; apply HI; now right). destruct (rd_in_bound _ _ (ARC k f p j Hk B2 (HI j (or_introl eq_refl)))) as (a & Ha). rewrite Ha. cbn [app]. f_equal.
    unfold arc_of. destruct (arc_by_pos fs WF k f j a Hk Ha) as (R1 & _). change (v_arcs (flat_vec fs)) with (concat (concat fs)). now rewrite R1.
  - intros (p' & Hp' & N). destruct (pweight (arc_score fs scores k) p') as [x'|] eqn:Hx'; [|congruence]. destruct (B3 p' x' Hp' Hx') as (S & W). split; auto.
    destruct (path_sum_In _ _ _ _ _ _ (Tot_sum false fs scores k f WF TS Hk) Hp' Hx') as (T & HT & _). exists T. split; [congruence|]. intros p2 x2 Hp2 Hx2.
    destruct (path_sum_In _ _ _ _ _ _ (Tot_sum false fs scores k f WF TS Hk) Hp2 Hx2) as (T2 & HT2 & LE). specialize (LE eq_refl). rewrite HT in HT2. injection HT2 as ->. exact LE.
Qed.
Print Assumptions C29_shortest_path.

(** *** Non-triviality and a limit *)
(** The first FSA of the batch has two successful paths, one of them with score -inf. *)
Example C29_ex : exists outs ps p, shortest_path 2 (rev (zrange 12)) rev_ord (flat_vec fs30) sc30 2 (rev (zrange 12)) = Some (flat_vec outs, concat (imap (fun k p => map (fun j => off1 (map all_arcs fs30) k + j) p) 0 ps)) /\
  rd ps 0 = Some p /\ best_path BatchProps.f32a (arc_score fs30 sc30 0) p.
Proof.
  destruct fs30_ok as (W & T & S & L & SC & FO). destruct (C29_shortest_path fs30 sc30 2 (rev (zrange 12)) rev_ord 2 (rev (zrange 12)) W T S L SC FO SC) as (outs & ps & E & _ & _ & H).
  destruct (H 0 BatchProps.f32a eq_refl) as (p & P1 & _ & _ & P2). exists outs, ps, p. split; auto. split; auto. apply P2. exists [0; 2; 4]. destruct fs30_paths as (A & _ & B & _). split; auto. rewrite B. discriminate.
Qed.

(** A successful path of score -inf may be missed: state 1 cannot be reached, but
    the last of two arcs with forward score -inf is the one traced back. *)
Definition f29 : nfsa := [[mkArc 0 2 (-1) 0]; [mkArc 1 2 (-1) 0]; []].
Theorem C29_ninf_refuted : exists f scores p, well_formed f /\ p_topsorted_acyclic f /\ successful f p /\
  shortest_path 0 [0] zrange (flat_vec [f]) scores 0 [0] = Some (flat_vec [[]], []).
Proof.
  exists f29, [None; Some 0%R], [0]. split; [now apply wfb_ok|]. split.
  { intros a Ha. cbn in Ha. destruct Ha as [<-|[<-|[]]]; cbn; lia. }
  split; [split; [reflexivity|apply (ap_cons _ 0 (mkArc 0 2 (-1) 0)); [reflexivity|constructor]]|]. cbv -[Rplus IZR R0 R1]. reflexivity.
Qed.
