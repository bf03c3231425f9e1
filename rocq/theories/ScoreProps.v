(** * C30, C31: forward, backward and total scores, arc posteriors. *)
From Coq Require Import ZArith List Lia Lra Bool Reals Permutation.
From Coq Require Import ZifyBool ZifyNat.
From Verif Require Import Base RaggedModel RaggedSpec RaggedProofs FsaSpec FsaLemmas EpsLoopProofs
  PropsSpec PropsProofs PropsProps ConnectSpec ConnectProofs ExtractProofs ConnectProps TopSortRun LogReal MutualInfoProofs
  BatchModel ScoreModel ScoreSpec PathSums ScoreProofs ScoreRun ScorePaths.
Import ListNotations.
Open Scope Z_scope.

(** Forward scores: sums over the paths from the start state. *)
Theorem C30_forward_scores (log : bool) (fs : list nfsa) (scores : list (option R)) lp sched ord :
  Forall well_formed fs -> Forall p_topsorted_acyclic fs -> zlen (concat fs) < int_max -> zlen scores = zlen (concat (concat fs)) ->
  is_sched (zlen fs * 2 ^ Z.of_nat lp) sched -> fair ord ->
  exists fw ent, get_forward_scores log lp sched ord (flat_vec fs) scores = Some (fw, ent) /\ zlen fw = zlen (concat fs) /\
    forall k f t, rd fs k = Some f -> 0 <= t < nstates f ->
      exists x, rd fw (off1 fs k + t) = Some x /\ path_sum log (arc_score fs scores k) (fun p => apath f 0 p t) x.
Proof.
  intros WF TS SM LS SC FO. rewrite (forward_run fs WF TS ltac:(lia) scores LS lp sched ord SC FO log). do 2 eexists. split; [reflexivity|]. split; [apply zlen_tab, zlen_nonneg|].
  intros k f t Hk Ht. exists (Fw fs scores log (off1 fs k + t)). split; [apply rd_tab; now apply (state_range fs k f)|]. now apply Fw_sum.
Qed.
Print Assumptions C30_forward_scores.

(** Backward scores: sums over the paths to the final state. *)
Theorem C30_backward_scores (log : bool) (fs : list nfsa) (scores : list (option R)) lp sched ord :
  Forall well_formed fs -> Forall p_topsorted_acyclic fs -> zlen (concat fs) < int_max -> zlen scores = zlen (concat (concat fs)) ->
  is_sched (zlen fs * 2 ^ Z.of_nat lp) sched -> fair ord ->
  exists bw, get_backward_scores log lp sched ord (flat_vec fs) scores = Some bw /\ zlen bw = zlen (concat fs) /\
    forall k f s, rd fs k = Some f -> 0 <= s < nstates f ->
      exists x, rd bw (off1 fs k + s) = Some x /\ path_sum log (arc_score fs scores k) (fun p => apath f s p (nstates f - 1)) x.
Proof.
  intros WF TS SM LS SC FO. rewrite (backward_run fs WF TS ltac:(lia) scores LS lp sched ord SC FO log). eexists. split; [reflexivity|]. split; [apply zlen_tab, zlen_nonneg|].
  intros k f t Hk Ht. exists (Bw fs scores log (off1 fs k + t)). split; [apply rd_tab; now apply (state_range fs k f)|]. now apply Bw_sum.
Qed.
Print Assumptions C30_backward_scores.

(** Total scores: sums over the successful paths (-inf when there are none, in
    particular for an FSA without states). *)
Definition Tot (fs : list nfsa) (scores : list (option R)) (log : bool) (k : Z) : option R :=
  match rd fs k with Some f => if 0 <? zlen f then Fw fs scores log (off1 fs k + (nstates f - 1)) else lninf | None => lninf end.
Lemma tot_run (log : bool) (fs : list nfsa) (scores : list (option R)) lp sched ord :
  Forall well_formed fs -> Forall p_topsorted_acyclic fs -> zlen (concat fs) < int_max -> zlen scores = zlen (concat (concat fs)) ->
  is_sched (zlen fs * 2 ^ Z.of_nat lp) sched -> fair ord ->
  get_tot_scores log lp sched ord (flat_vec fs) scores = Some (tab (zlen fs) (Tot fs scores log)).
Proof.
  intros WF TS SM LS SC FO. unfold get_tot_scores. rewrite (forward_run fs WF TS ltac:(lia) scores LS lp sched ord SC FO log). unfold tot_scores_of. cbn [fst].
  change (v_rs1 (flat_vec fs)) with (splits_of fs). change (v_rs2 (flat_vec fs)) with (splits_of (concat fs)). rewrite !zlen_splits_of, zlen_tab by apply zlen_nonneg.
  replace (zlen (concat fs) =? zlen (concat fs) + 1 - 1) with true by lia. replace (zlen fs + 1 - 1) with (zlen fs) by lia.
  apply RaggedOpsProofs.mapM_zrange; [apply zlen_nonneg|apply zlen_tab, zlen_nonneg|]. intros k Hk0. rewrite !rd_splits_off, (rd_tab (zlen fs) _ k) by lia. destruct (rd_in_bound fs k Hk0) as (f & Hk).
  unfold Tot, nstates. rewrite Hk. rewrite (off1_next _ _ _ Hk). destruct (0 <? zlen f) eqn:E.
  - replace (off1 fs k <? off1 fs k + zlen f) with true by lia. replace (off1 fs k + zlen f - 1) with (off1 fs k + (zlen f - 1)) by lia. apply rd_tab. apply (state_range fs k f); auto. lia.
  - now replace (off1 fs k <? off1 fs k + zlen f) with false by lia.
Qed.
Lemma Tot_sum (log : bool) (fs : list nfsa) (scores : list (option R)) k f :
  Forall well_formed fs -> Forall p_topsorted_acyclic fs -> rd fs k = Some f -> path_sum log (arc_score fs scores k) (successful f) (Tot fs scores log k).
Proof.
  intros WF TS Hk. unfold Tot. rewrite Hk. destruct (0 <? zlen f) eqn:E.
  - eapply path_sum_ext; [|apply (Fw_sum fs WF TS scores k f); auto; unfold nstates; lia]. intros p. unfold successful, nstates. intuition lia.
  - exists []. split; [constructor|]. split; [|reflexivity]. intros p. unfold successful, nstates. split; [intros []|intros (H & _); lia].
Qed.
Theorem C30_tot_scores (log : bool) (fs : list nfsa) (scores : list (option R)) lp sched ord :
  Forall well_formed fs -> Forall p_topsorted_acyclic fs -> zlen (concat fs) < int_max -> zlen scores = zlen (concat (concat fs)) ->
  is_sched (zlen fs * 2 ^ Z.of_nat lp) sched -> fair ord ->
  exists tot, get_tot_scores log lp sched ord (flat_vec fs) scores = Some tot /\ zlen tot = zlen fs /\
    forall k f, rd fs k = Some f -> exists x, rd tot k = Some x /\ path_sum log (arc_score fs scores k) (successful f) x.
Proof.
  intros WF TS SM LS SC FO. rewrite tot_run by auto. eexists. split; [reflexivity|]. split; [apply zlen_tab, zlen_nonneg|].
  intros k f Hk. exists (Tot fs scores log k). split; [apply rd_tab; now apply rd_Some_bound in Hk|]. now apply Tot_sum.
Qed.
Print Assumptions C30_tot_scores.

(** The total read off the backward scores is the same. *)
Theorem C30_totals_agree (log : bool) (fs : list nfsa) (scores : list (option R)) lp sched ord lp' sched' ord' tot bw k f :
  Forall well_formed fs -> Forall p_topsorted_acyclic fs -> zlen (concat fs) < int_max -> zlen scores = zlen (concat (concat fs)) ->
  is_sched (zlen fs * 2 ^ Z.of_nat lp) sched -> fair ord -> is_sched (zlen fs * 2 ^ Z.of_nat lp') sched' -> fair ord' ->
  get_tot_scores log lp sched ord (flat_vec fs) scores = Some tot -> get_backward_scores log lp' sched' ord' (flat_vec fs) scores = Some bw ->
  rd fs k = Some f -> 0 < nstates f -> rd tot k = rd bw (off1 fs k).
Proof.
  intros WF TS SM LS SC FO SC' FO' HT HB Hk Hf. rewrite tot_run in HT by auto. rewrite (backward_run fs WF TS ltac:(lia) scores LS lp' sched' ord' SC' FO' log) in HB. injection HT as <-. injection HB as <-.
  replace (off1 fs k) with (off1 fs k + 0) by lia. rewrite !rd_tab by (try (now apply rd_Some_bound in Hk); apply (state_range fs k f); auto; unfold nstates in *; lia). f_equal.
  eapply path_sum_unique; [apply (Tot_sum log fs scores k f WF TS Hk)|]. eapply path_sum_ext; [|apply (Bw_sum fs WF TS scores k f); auto; unfold nstates in *; lia]. intros p. unfold successful. tauto.
Qed.
Print Assumptions C30_totals_agree.

(** ** Arc posteriors *)
Definition Post (fs : list nfsa) (scores : list (option R)) (log : bool) (k j : Z) (a : arc) : option R :=
  ladd (ladd (ladd (arc_score fs scores k j) (Fw fs scores log (off1 fs k + src a))) (Bw fs scores log (off1 fs k + dst a))) (lneg (Tot fs scores log k)).
Lemma post_run (log : bool) (fs : list nfsa) (scores : list (option R)) lp sched ord :
  Forall well_formed fs -> Forall p_topsorted_acyclic fs -> zlen (concat fs) < int_max -> zlen scores = zlen (concat (concat fs)) ->
  is_sched (zlen fs * 2 ^ Z.of_nat lp) sched -> fair ord ->
  exists post, get_arc_post log lp sched ord (flat_vec fs) scores = Some post /\ zlen post = zlen (concat (concat fs)) /\
    forall k f j a, rd fs k = Some f -> rd (all_arcs f) j = Some a -> rd post (abase fs k + j) = Some (Post fs scores log k j a).
Proof.
  intros WF TS SM LS SC FO. unfold get_arc_post. rewrite (forward_run fs WF TS ltac:(lia) scores LS lp sched ord SC FO log), (backward_run fs WF TS ltac:(lia) scores LS lp sched ord SC FO log). unfold arc_post_of. cbn [fst].
  change (v_rs1 (flat_vec fs)) with (splits_of fs). change (v_rs2 (flat_vec fs)) with (splits_of (concat fs)). change (v_arcs (flat_vec fs)) with (concat (concat fs)).
  rewrite !zlen_splits_of, !zlen_tab by apply zlen_nonneg. replace (zlen fs + 1 - 1) with (zlen fs) by lia. replace (zlen (concat fs) + 1 - 1) with (zlen (concat fs)) by lia. rewrite Z.eqb_refl.
  rewrite !row_ids_of_splits.
  set (neg := fun k => match rd fs k with Some f => if 0 <? zlen f then lneg (Tot fs scores log k) else lneg lzero | None => None end).
  rewrite (RaggedOpsProofs.mapM_zrange _ _ (tab (zlen fs) neg)); [|apply zlen_nonneg|apply zlen_tab, zlen_nonneg|].
  2:{ intros k Hk0. rewrite !rd_splits_off, (rd_tab (zlen fs) _ k) by lia. destruct (rd_in_bound fs k Hk0) as (f & Hk). unfold neg. rewrite Hk, (off1_next _ _ _ Hk). destruct (0 <? zlen f) eqn:E.
      - replace (off1 fs k =? off1 fs k + zlen f) with false by lia. replace (off1 fs k + zlen f - 1) with (off1 fs k + (zlen f - 1)) by lia.
        assert (RB : rd (tab (zlen (concat fs)) (Bw fs scores log)) (off1 fs k) = Some (Bw fs scores log (off1 fs k + 0))) by (rewrite Z.add_0_r; apply rd_tab; rewrite <- (Z.add_0_r (off1 fs k)); apply (state_range fs k f); auto; lia).
        rewrite RB. rewrite rd_tab by (apply (state_range fs k f); auto; lia).
        assert (ET : Tot fs scores log k = Fw fs scores log (off1 fs k + (zlen f - 1))) by (unfold Tot; now rewrite Hk, E).
        assert (EB : Bw fs scores log (off1 fs k + 0) = Tot fs scores log k).
        { eapply path_sum_unique; [|apply (Tot_sum log fs scores k f WF TS Hk)]. eapply path_sum_ext; [|apply (Bw_sum fs WF TS scores k f); auto; lia]. intros p. unfold successful, nstates. intuition lia. }
        rewrite EB, <- ET. destruct (Tot fs scores log k) as [x|]; [|reflexivity]. cbn. do 2 f_equal. lra.
      - pose proof (zlen_nonneg f). now replace (off1 fs k =? off1 fs k + zlen f) with true by lia. }
  set (pv := fun q => match rd (concat (concat fs)) q, rd (ids_of (concat fs)) q with
                      | Some a, Some s => match rd (ids_of fs) s with Some k => Post fs scores log k (q - abase fs k) a | None => None end
                      | _, _ => None end).
  assert (PV : forall k f j a, rd fs k = Some f -> rd (all_arcs f) j = Some a -> pv (abase fs k + j) = Post fs scores log k j a).
  { intros k f j a Hk Ha. destruct (arc_by_pos fs WF k f j a Hk Ha) as (R1 & R2 & _ & B1 & B2). unfold pv. rewrite R1, R2. destruct (rd_in_bound f (src a) B1) as (st & Hst).
    destruct (rd_concat_off fs k f (src a) st Hk Hst) as (_ & ->). f_equal. lia. }
  exists (tab (zlen (concat (concat fs))) pv). split; [|split; [apply zlen_tab, zlen_nonneg|]].
  - apply RaggedOpsProofs.mapM_zrange; [apply zlen_nonneg|apply zlen_tab, zlen_nonneg|]. intros q Hq. rewrite rd_tab by lia.
    destruct (arc_q fs WF q Hq) as (k & f & j & a & Hk & Ha & -> & _). rewrite (PV k f j a Hk Ha).
    destruct (arc_by_pos fs WF k f j a Hk Ha) as (R1 & R2 & _ & B1 & B2). rewrite R1, R2. destruct (rd_in_bound f (src a) B1) as (st & Hst). destruct (rd_concat_off fs k f (src a) st Hk Hst) as (_ & ->).
    pose proof (rd_Some_bound _ _ _ Hk). destruct (rd_in_bound scores (abase fs k + j) ltac:(lia)) as (w & Hw). rewrite Hw. rewrite rd_splits_off by lia.
    rewrite !rd_tab by (try lia; apply (state_range fs k f); auto). unfold Post, neg. rewrite Hk. replace (0 <? zlen f) with true by lia. do 4 f_equal. unfold arc_score.
    change (off1 (map all_arcs fs) k) with (abase fs k). now rewrite Hw.
  - intros k f j a Hk Ha. destruct (arc_kj fs WF k f j a Hk Ha) as (A1 & _). rewrite rd_tab by lia. f_equal. now apply (PV k f).
Qed.

(** The posterior of an arc is the sum over the successful paths through the
    arc, divided by the total (minus, on log scores).  [off1 (map all_arcs fs) k + j] is
    the position of arc j of FSA k. *)
Theorem C31_arc_post (log : bool) (fs : list nfsa) (scores : list (option R)) lp sched ord :
  Forall well_formed fs -> Forall p_topsorted_acyclic fs -> zlen (concat fs) < int_max -> zlen scores = zlen (concat (concat fs)) ->
  is_sched (zlen fs * 2 ^ Z.of_nat lp) sched -> fair ord ->
  exists tot post, get_tot_scores log lp sched ord (flat_vec fs) scores = Some tot /\ get_arc_post log lp sched ord (flat_vec fs) scores = Some post /\
    zlen post = zlen (concat (concat fs)) /\
    forall k f j T, rd fs k = Some f -> 0 <= j < zlen (all_arcs f) -> rd tot k = Some (Some T) ->
      exists x, path_sum log (arc_score fs scores k) (fun p => successful f p /\ In j p) x /\
                rd post (off1 (map all_arcs fs) k + j) = Some (ladd x (Some (- T)%R)).
Proof.
  intros WF TS SM LS SC FO. rewrite tot_run by auto. destruct (post_run log fs scores lp sched ord) as (post & E & LP & HP); auto. exists (tab (zlen fs) (Tot fs scores log)), post. repeat split; auto.
  intros k f j T Hk Hj HT. pose proof (rd_Some_bound _ _ _ Hk). rewrite rd_tab in HT by lia. injection HT as HT. destruct (rd_in_bound (all_arcs f) j Hj) as (a & Ha).
  eexists. split; [now apply (arc_through fs WF TS scores k f log j a)|]. change (off1 (map all_arcs fs) k) with (abase fs k). rewrite (HP k f j a Hk Ha). unfold Post. now rewrite HT.
Qed.
Print Assumptions C31_arc_post.

(** Log semiring: posteriors are probabilities of crossing an arc.  For any set U
    of states with the start state in and the final state out, (the sum over the
    arcs leaving U) - (the sum over the arcs entering U) is 1. *)
Definition leaves (f : nfsa) (U : Z -> bool) (j : Z) : bool := match rd (all_arcs f) j with Some a => U (src a) && negb (U (dst a)) | None => false end.
Theorem C31_cut (fs : list nfsa) (scores : list (option R)) lp sched ord tot post k f T (U : Z -> bool) :
  Forall well_formed fs -> Forall p_topsorted_acyclic fs -> zlen (concat fs) < int_max -> zlen scores = zlen (concat (concat fs)) ->
  is_sched (zlen fs * 2 ^ Z.of_nat lp) sched -> fair ord ->
  get_tot_scores true lp sched ord (flat_vec fs) scores = Some tot -> get_arc_post true lp sched ord (flat_vec fs) scores = Some post ->
  rd fs k = Some f -> rd tot k = Some (Some T) -> U 0 = true -> U (nstates f - 1) = false ->
  let P j := match rd post (off1 (map all_arcs fs) k + j) with Some x => expo x | None => 0%R end in
  (sumf P (filter (leaves f U) (zrange (zlen (all_arcs f)))) - sumf P (filter (leaves f (fun s => negb (U s))) (zrange (zlen (all_arcs f)))) = 1)%R.
Proof.
  intros WF TS SM LS SC FO HT HP Hk HTk U0 U1 P. rewrite tot_run in HT by auto. injection HT as <-. pose proof (rd_Some_bound _ _ _ Hk). rewrite rd_tab in HTk by lia. injection HTk as HTk.
  destruct (post_run true fs scores lp sched ord) as (post' & E & LP & HPo); auto. rewrite HP in E. injection E as <-.
  rewrite !sumf_filter. set (A := zlen (all_arcs f)).
  set (c := fun j => match rd (all_arcs f) j with Some a => (bR (U (src a)) - bR (U (dst a)))%R | None => 0%R end).
  set (y := fun j => (P j * exp T)%R).
  assert (EQ : (sumf (fun j => if leaves f U j then P j else 0) (zrange A) - sumf (fun j => if leaves f (fun s => negb (U s)) j then P j else 0) (zrange A) = sumf (fun j => c j * P j) (zrange A))%R).
  { set (g := fun j : Z => if leaves f U j then P j else 0%R). set (h := fun j : Z => if leaves f (fun s => negb (U s)) j then P j else 0%R).
    replace (sumf g (zrange A) - sumf h (zrange A))%R with (sumf g (zrange A) + -1 * sumf h (zrange A))%R by lra. rewrite <- sumf_scale, <- sumf_plus. apply sumf_ext. intros j _.
    unfold g, h, c, leaves. destruct (rd (all_arcs f) j) as [a|]; [|lra]. destruct (U (src a)), (U (dst a)); cbn; lra. }
  rewrite EQ. destruct (Tot_sum true fs scores k f WF TS Hk) as (L & ND & HL & ET). rewrite HTk in ET.
  set (w := arc_score fs scores k) in *.
  assert (CS : sumf (fun j => (c j * y j)%R) (zrange A) = sumf (fun p => expo (pweight w p)) L).
  { apply cut_sum.
    - intros p Hp. apply HL in Hp as (_ & Hp). split; [eapply (apath_nodup fs WF TS k f); eauto|]. split; [intros j; now apply (apath_arcs f _ _ _ j Hp)|].
      rewrite (crossings f U c 0 p (nstates f - 1)); auto; [rewrite U0, U1; cbn; lra|]. intros j a Ha. unfold c. now rewrite Ha.
    - intros j Hj. destruct (rd_in_bound (all_arcs f) j Hj) as (a & Ha). unfold y, P. change (off1 (map all_arcs fs) k) with (abase fs k). rewrite (HPo k f j a Hk Ha).
      pose proof (arc_through fs WF TS scores k f true j a Hk Ha) as TH.
      assert (TF : path_sum true w (fun p => successful f p /\ In j p) (ssum true (map (pweight w) (filter (fun p => if in_dec Z.eq_dec j p then true else false) L)))).
      { eexists. split; [apply NoDup_filter; exact ND|]. split; [|reflexivity]. intros p. rewrite filter_In, HL. destruct (in_dec Z.eq_dec j p); intuition congruence. }
      unfold Post. rewrite (path_sum_unique _ _ _ _ _ TH TF). rewrite expo_ladd, expo_ssum, sumf_map, HTk. cbn [lneg option_map expo]. rewrite Rmult_assoc, <- exp_plus. replace (- T + T)%R with 0%R by lra. rewrite exp_0. lra. }
  rewrite <- (sumf_map expo (pweight w)) in CS. rewrite <- expo_ssum, <- ET in CS. cbn [expo] in CS.
  assert (CY : sumf (fun j => (c j * y j)%R) (zrange A) = (exp T * sumf (fun j => c j * P j) (zrange A))%R) by (rewrite <- sumf_scale; apply sumf_ext; intros j _; unfold y; lra).
  rewrite CY in CS. pose proof (exp_pos T). apply (Rmult_eq_reg_l (exp T)); [|lra]. rewrite CS. lra.
Qed.
Print Assumptions C31_cut.

Lemma ssum_In log (l : list (option R)) x : In (Some x) l -> exists y, ssum log l = Some y /\ (log = false -> (x <= y)%R).
Proof.
  destruct log.
  - intros H. destruct (expo_pos_Some (ssum true l)) as (y & Hy); [|exists y; split; auto; discriminate]. rewrite expo_ssum. apply in_split in H as (l1 & l2 & ->). rewrite sumf_app, sumf_cons.
    pose proof (sumf_nonneg expo l1 expo_nonneg). pose proof (sumf_nonneg expo l2 expo_nonneg). pose proof (exp_pos x). cbn [expo]. lra.
  - induction l as [|a l IH]; intros H; [destruct H|]. change (ssum false (a :: l)) with (lmax a (ssum false l)). destruct H as [-> | H].
    + destruct (ssum false l) as [y|]; cbn; eexists; (split; [reflexivity|]); intros _; [apply Rmax_l|lra].
    + destruct (IH H) as (y & -> & Hy). specialize (Hy eq_refl). destruct a as [a|]; cbn; eexists; (split; [reflexivity|]); intros _; [|lra]. eapply Rle_trans; [exact Hy|apply Rmax_r].
Qed.
Lemma path_sum_In log w P p x y : path_sum log w P y -> P p -> pweight w p = Some x -> exists y', y = Some y' /\ (log = false -> (x <= y')%R).
Proof. intros (L & _ & HL & ->) Hp Hx. apply (ssum_In log (map (pweight w) L) x). rewrite <- Hx. apply in_map. now apply HL. Qed.

(** The batch of BatchProps.C32_ex: an FSA with two successful paths, one
    without states, one with a single path; one arc has score -inf. *)
Definition sc30 : list (option R) := [Some 1%R; Some 2%R; Some 3%R; None; Some 4%R; Some 5%R].
Definition fs30 : list nfsa := [BatchProps.f32a; []; BatchProps.f32b].
Lemma fs30_ok : Forall well_formed fs30 /\ Forall p_topsorted_acyclic fs30 /\ zlen (concat fs30) < int_max /\ zlen sc30 = zlen (concat (concat fs30)) /\
  is_sched (zlen fs30 * 2 ^ Z.of_nat 2) (rev (zrange 12)) /\ fair rev_ord.
Proof.
  destruct BatchProps.C32_ex as (W & T & S & _). repeat split; auto; try exact rev_ord_fair.
Qed.
Lemma fs30_paths : successful BatchProps.f32a [0; 2; 4] /\ successful BatchProps.f32a [1; 3; 4] /\
  pweight (arc_score fs30 sc30 0) [0; 2; 4] = Some (1 + (3 + (4 + 0)))%R /\ pweight (arc_score fs30 sc30 0) [1; 3; 4] = None.
Proof.
  repeat split; try (apply (ap_cons _ 0 (mkArc 0 1 1 0)); [reflexivity|apply (ap_cons _ 2 (mkArc 1 3 3 0)); [reflexivity|apply (ap_cons _ 4 (mkArc 3 4 (-1) 0)); [reflexivity|constructor]]]).
  apply (ap_cons _ 1 (mkArc 0 2 2 0)); [reflexivity|apply (ap_cons _ 3 (mkArc 2 3 4 0)); [reflexivity|apply (ap_cons _ 4 (mkArc 3 4 (-1) 0)); [reflexivity|constructor]]].
Qed.
Example C30_ex : forall log, exists tot T, get_tot_scores log 2 (rev (zrange 12)) rev_ord (flat_vec fs30) sc30 = Some tot /\ rd tot 0 = Some (Some T) /\ (log = false -> 8 <= T)%R.
Proof.
  intros log. destruct fs30_ok as (W & T & S & L & SC & FO). destruct (C30_tot_scores log fs30 sc30 2 (rev (zrange 12)) rev_ord W T S L SC FO) as (tot & E & _ & H).
  destruct (H 0 BatchProps.f32a eq_refl) as (x & Hx & PS). destruct fs30_paths as (P1 & _ & W1 & _). destruct (path_sum_In _ _ _ _ _ _ PS P1 W1) as (y & -> & Hy). exists tot, y. repeat split; auto. intros E'. specialize (Hy E'). lra.
Qed.
(** C31_cut with U = {0, 1}: arcs 1 and 2 of the first FSA leave it. *)
Example C31_ex : exists post x1 x2, get_arc_post true 2 (rev (zrange 12)) rev_ord (flat_vec fs30) sc30 = Some post /\ rd post 1 = Some x1 /\ rd post 2 = Some x2 /\ (expo x1 + expo x2 = 1)%R.
Proof.
  destruct fs30_ok as (W & T & S & L & SC & FO). destruct (C30_ex true) as (tot & y & E & Hy & _). destruct (C31_arc_post true fs30 sc30 2 (rev (zrange 12)) rev_ord W T S L SC FO) as (tot' & post & E' & EP & LP & _).
  pose proof (C31_cut fs30 sc30 2 (rev (zrange 12)) rev_ord tot post 0 BatchProps.f32a y (fun s => s <=? 1) W T S L SC FO E EP eq_refl Hy eq_refl eq_refl) as C. cbv zeta in C.
  assert (LP' : zlen post = 6) by (rewrite LP; reflexivity).
  destruct (rd_in_bound post 1 ltac:(lia)) as (x1 & H1). destruct (rd_in_bound post 2 ltac:(lia)) as (x2 & H2). exists post, x1, x2. repeat split; auto.
  change (filter (leaves BatchProps.f32a (fun s => s <=? 1)) (zrange (zlen (all_arcs BatchProps.f32a)))) with [1; 2] in C.
  change (off1 (map all_arcs fs30) 0) with 0 in C. cbn [sumf fold_right] in C. change (0 + 1) with 1 in C. change (0 + 2) with 2 in C. rewrite H1, H2 in C. cbv beta iota in C.
  replace (filter (leaves BatchProps.f32a (fun s => negb (s <=? 1))) (zrange (zlen (all_arcs BatchProps.f32a)))) with (@nil Z) in C by reflexivity. rewrite sumf_nil in C. lra.
Qed.
