(** * C33: the gradients of the total scores are derivatives. *)
From Coq Require Import ZArith List Lia Lra Bool Reals Permutation.
From Coq Require Import ZifyBool ZifyNat.
From Verif Require Import Base RaggedModel RaggedSpec RaggedProofs FsaSpec FsaLemmas EpsLoopProofs RaggedOpsModel RaggedOpsSpec RaggedOpsProofs RaggedCatProofs
  PropsSpec PropsProofs PropsProps ConnectSpec ConnectProofs ExtractProofs ConnectProps TopSortProofs TopSortRun LogReal MutualInfoProofs
  BatchModel BatchRun ScoreModel ScoreSpec PathSums ScoreProofs ScoreRun ScorePaths ScoreProps ShortestModel ShortestProofs ShortestRun ShortestSpec ShortestProps GradSpec.
Import ListNotations.
Open Scope Z_scope.

Lemma rd_set_score scores q x i : rd (set_score scores q x) i = option_map (fun y => if i =? q then Some x else y) (rd scores i).
Proof. unfold set_score. rewrite rd_imap. destruct (rd scores i); reflexivity. Qed.
Lemma zlen_set_score scores q x : zlen (set_score scores q x) = zlen scores.
Proof. apply zlen_imap. Qed.

(** the score of a path through an arc *)
Lemma pweight_out (w w' : Z -> option R) j p : (forall i, i <> j -> w' i = w i) -> ~ In j p -> pweight w' p = pweight w p.
Proof. intros H N. apply pweight_ext. intros i Hi. apply H. intros ->. auto. Qed.
Lemma pweight_in (w w' w0 : Z -> option R) j x p : (forall i, i <> j -> w' i = w i) -> w' j = Some x -> (forall i, w0 i = if i =? j then lzero else w i) -> NoDup p -> In j p -> pweight w' p = ladd (Some x) (pweight w0 p).
Proof.
  intros H1 H2 H3. induction p as [|i p IH]; intros ND I; [destruct I|]. inversion ND as [|? ? N1 N2]; subst. cbn [pweight fold_right]. fold (pweight w' p). fold (pweight w0 p). destruct (Z.eq_dec i j) as [->|Ni].
  - rewrite H2, H3, Z.eqb_refl, ladd_0. f_equal. apply pweight_ext. intros i Hi. assert (i <> j) by (intros ->; auto). rewrite H1, H3 by auto. now replace (i =? j) with false by lia.
  - destruct I as [->|I]; [congruence|]. rewrite (IH N2 I), H1, H3 by auto. replace (i =? j) with false by lia. rewrite !ladd_assoc. f_equal. apply ladd_comm.
Qed.
Lemma filter_split {A} (P : A -> bool) l : Permutation l (filter P l ++ filter (fun x => negb (P x)) l).
Proof. induction l as [|a l IH]; [constructor|]. cbn [filter]. destruct (P a); cbn [negb app]; [now constructor|]. etransitivity; [constructor; exact IH|]. apply Permutation_middle. Qed.

(** The total as a function of the score of one arc *)
Lemma tot_arc fs scores l k f j a : Forall well_formed fs -> Forall p_topsorted_acyclic fs -> zlen scores = zlen (concat (concat fs)) -> rd fs k = Some f -> rd (all_arcs f) j = Some a ->
  exists A B, (forall x, Tot fs (set_score scores (abase fs k + j) x) l k = splus l (ladd (Some x) A) B) /\
    (forall x0, arc_score fs scores k j = Some x0 -> path_sum l (arc_score fs scores k) (fun p => successful f p /\ In j p) (ladd (Some x0) A)) /\
    path_sum l (arc_score fs scores k) (fun p => successful f p /\ ~ In j p) B.
Proof.
  intros WF TS LS Hk Ha. destruct (Tot_sum l fs scores k f WF TS Hk) as (L & ND & HL & _). set (w := arc_score fs scores k).
  set (inj := fun p => if in_dec Z.eq_dec j p then true else false). set (w0 := fun i => if i =? j then lzero else w i).
  destruct (arc_kj fs WF k f j a Hk Ha) as (Bq & _).
  assert (WX : forall x i, arc_score fs (set_score scores (abase fs k + j) x) k i = if i =? j then Some x else w i).
  { intros x i. unfold w, arc_score. change (off1 (map all_arcs fs) k) with (abase fs k). rewrite rd_set_score. replace (abase fs k + i =? abase fs k + j) with (i =? j) by lia. destruct (i =? j) eqn:E.
    - replace i with j by lia. destruct (rd_in_bound scores (abase fs k + j) ltac:(lia)) as (y & ->). reflexivity.
    - destruct (rd scores (abase fs k + i)); reflexivity. }
  assert (NDp : forall p, In p L -> NoDup p) by (intros p Hp; apply HL in Hp as (_ & Hp); eapply (apath_nodup fs WF TS k f); eauto).
  assert (INJ : forall p, inj p = true <-> In j p) by (intros p; unfold inj; destruct (in_dec Z.eq_dec j p); intuition congruence).
  assert (SPL : forall w' x, (forall i, i <> j -> w' i = w i) -> w' j = Some x -> map (pweight w') (filter inj L) = map (ladd (Some x)) (map (pweight w0) (filter inj L))).
  { intros w' x H1 H2. rewrite map_map. apply map_ext_in. intros p Hp. apply filter_In in Hp as (Hp & I). apply INJ in I. apply (pweight_in w w' w0 j); auto. }
  exists (ssum l (map (pweight w0) (filter inj L))), (ssum l (map (pweight w) (filter (fun p => negb (inj p)) L))). split; [|split].
  - intros x. assert (PS : path_sum l (arc_score fs (set_score scores (abase fs k + j) x) k) (successful f) (ssum l (map (pweight (arc_score fs (set_score scores (abase fs k + j) x) k)) L))) by (exists L; auto).
    rewrite (path_sum_unique _ _ _ _ _ (Tot_sum l fs (set_score scores (abase fs k + j) x) k f WF TS Hk) PS). rewrite (ssum_perm l _ _ (Permutation_map _ (filter_split inj L))), map_app, ssum_app.
    assert (H1 : forall i, i <> j -> arc_score fs (set_score scores (abase fs k + j) x) k i = w i) by (intros i Hi; rewrite WX; now replace (i =? j) with false by lia).
    rewrite (SPL _ x H1) by (rewrite WX; now rewrite Z.eqb_refl). rewrite <- ssum_distr_l. f_equal. f_equal. apply map_ext_in. intros p Hp. apply filter_In in Hp as (_ & N). apply (pweight_out w _ j); auto. intros I. apply INJ in I. rewrite I in N. discriminate.
  - intros x0 Hx0. exists (filter inj L). split; [now apply NoDup_filter|]. split; [intros p; rewrite filter_In, INJ, HL; tauto|]. rewrite (SPL w x0) by auto. apply ssum_distr_l.
  - exists (filter (fun p => negb (inj p)) L). split; [now apply NoDup_filter|]. split; [|reflexivity]. intros p. rewrite filter_In, HL. pose proof (INJ p). destruct (inj p); cbn [negb]; intuition congruence.
Qed.
Lemma tot_other fs scores l k f j a k' : Forall well_formed fs -> Forall p_topsorted_acyclic fs -> rd fs k = Some f -> rd (all_arcs f) j = Some a -> k' <> k ->
  forall x, Tot fs (set_score scores (abase fs k + j) x) l k' = Tot fs scores l k'.
Proof.
  intros WF TS Hk Ha N x. destruct (rd fs k') as [f'|] eqn:Hk'; [|unfold Tot; now rewrite Hk'].
  eapply path_sum_unique; [apply (Tot_sum l fs _ k' f' WF TS Hk')|]. destruct (Tot_sum l fs scores k' f' WF TS Hk') as (L & ND & HL & ->). exists L. split; auto. split; auto. f_equal. apply map_ext_in. intros p Hp. apply HL in Hp as (_ & Hp).
  apply pweight_ext. intros i Hi. pose proof (apath_arcs _ _ _ _ _ Hp Hi) as Bi. destruct (rd_in_bound _ _ Bi) as (b & Hb). unfold arc_score. change (off1 (map all_arcs fs) k') with (abase fs k'). rewrite rd_set_score.
  replace (abase fs k' + i =? abase fs k + j) with false; [destruct (rd scores (abase fs k' + i)); reflexivity|]. symmetry. apply Z.eqb_neq. intros E.
  destruct (arc_by_pos fs WF k f j a Hk Ha) as (_ & R2 & _ & B1 & _). destruct (arc_by_pos fs WF k' f' i b Hk' Hb) as (_ & R2' & _ & B1' & _). rewrite E, R2 in R2'. injection R2' as R2'.
  destruct (row_unique fs k f (src a) k' f' (src b) Hk Hk' ltac:(lia) ltac:(lia) ltac:(lia)) as (-> & _). congruence.
Qed.

(** derivatives of sums *)
Lemma sumf_derive (h : Z -> R -> R) (d : Z -> R) x0 l : (forall k, In k l -> derivable_pt_lim (h k) x0 (d k)) -> derivable_pt_lim (fun x => sumf (fun k => h k x) l) x0 (sumf d l).
Proof.
  induction l as [|k l IH]; intros H.
  - apply (derivable_pt_lim_ext (fct_cte 0%R)); [reflexivity|]. rewrite sumf_nil. apply derivable_pt_lim_const.
  - rewrite sumf_cons. apply (derivable_pt_lim_ext (plus_fct (h k) (fun x => sumf (fun k => h k x) l))); [intros z; unfold plus_fct; now rewrite sumf_cons|]. apply derivable_pt_lim_plus; [apply H; now left|apply IH; intros; apply H; now right].
Qed.
Lemma sumf_single (d : Z -> R) k n : 0 <= k < n -> (forall i, i <> k -> d i = 0%R) -> sumf d (zrange n) = d k.
Proof.
  intros Hk H. assert (I : In k (zrange n)) by now apply in_zrange. apply in_split in I as (l1 & l2 & E). pose proof (NoDup_zrange n) as ND. rewrite E in *. apply NoDup_remove_2 in ND. rewrite in_app_iff in ND. rewrite sumf_app, sumf_cons, !sumf_0; try lra; intros a Ha; apply H; intros ->; auto.
Qed.
Definition fin (x : option R) : R := match x with Some r => r | None => 0%R end.
Lemma loss_derive (fs : list nfsa) (c : list R) (T : R -> Z -> option R) k g x0 d : zlen c = zlen fs -> rd c k = Some g -> (forall k', k' <> k -> forall x, T x k' = T x0 k') -> derivable_pt_lim (fun x => fin (T x k)) x0 d ->
  derivable_pt_lim (fun x => loss (Some (tab (zlen fs) (T x))) c) x0 (d * g)%R.
Proof.
  intros LC Hg HT HD. pose proof (rd_Some_bound _ _ _ Hg). set (h := fun k' x => match rd c k' with Some g => (g * fin (T x k'))%R | None => 0%R end).
  apply (derivable_pt_lim_ext (fun x => sumf (fun k' => h k' x) (zrange (zlen c)))).
  - intros z. unfold loss. apply sumf_ext. intros i Hi. apply in_zrange in Hi. rewrite rd_tab by lia. unfold h. destruct (rd c i); auto. destruct (T z i); cbn [fin]; lra.
  - replace (d * g)%R with (sumf (fun k' => if k' =? k then (g * d)%R else 0%R) (zrange (zlen c))).
    2:{ rewrite (sumf_single _ k) by (try lia; intros i Hi; now replace (i =? k) with false by lia). rewrite Z.eqb_refl. lra. }
    apply sumf_derive. intros k' _. destruct (k' =? k) eqn:E.
    + replace k' with k by lia. apply (derivable_pt_lim_ext (mult_real_fct g (fun x => fin (T x k)))); [intros z; unfold h, mult_real_fct; now rewrite Hg|]. now apply derivable_pt_lim_scal.
    + apply (derivable_pt_lim_ext (fct_cte (h k' x0))); [intros z; unfold h, fct_cte; destruct (rd c k'); auto; now rewrite (HT k' ltac:(lia) z)|]. apply derivable_pt_lim_const.
Qed.

(** ** Log semiring *)
Lemma log_derive A B x0 : derivable_pt_lim (fun x => fin (splus true (ladd (Some x) A) B)) x0 (expo (ladd (ladd (Some x0) A) (lneg (splus true (ladd (Some x0) A) B)))).
Proof.
  pose proof (expo_nonneg A) as NA. pose proof (expo_nonneg B) as NB.
  assert (EX : forall x, expo (splus true (ladd (Some x) A) B) = (exp x * expo A + expo B)%R).
  { intros x. change (splus true) with (logadd None). pose proof (expo_ssum [ladd (Some x) A; B]) as H. cbn [ssum fold_right] in H. change (splus true B None) with (logadd None B None) in H. 
    rewrite (splus_None_r true B : logadd None B None = B) in H. change (splus true) with (logadd None) in H. rewrite H. rewrite !sumf_cons, sumf_nil, expo_ladd. cbn [expo]. lra. }
  destruct (Req_dec (expo A + expo B) 0) as [Z|NZ].
  - assert (expo A = 0%R /\ expo B = 0%R) as (ZA & ZB) by lra. apply expo_0_None in ZA, ZB. subst A B. cbn [ladd]. apply (derivable_pt_lim_ext (fct_cte 0%R)); [intros; reflexivity|]. apply derivable_pt_lim_const.
  - assert (P : forall x, (0 < exp x * expo A + expo B)%R).
    { intros x. pose proof (exp_pos x). destruct (Req_dec (expo A) 0) as [E|E]; [rewrite E in *; lra|]. assert (0 < exp x * expo A)%R by (apply Rmult_lt_0_compat; lra). lra. }
    assert (V : forall x, splus true (ladd (Some x) A) B = Some (ln (exp x * expo A + expo B))).
    { intros x. apply expo_inj. rewrite EX. cbn [expo]. rewrite exp_ln; auto. }
    apply (derivable_pt_lim_ext (comp ln (plus_fct (mult_fct exp (fct_cte (expo A))) (fct_cte (expo B))))); [intros z; rewrite V; reflexivity|].
    rewrite V. rewrite !expo_ladd. cbn [lneg option_map expo]. rewrite exp_Ropp, exp_ln by apply P. rewrite Rmult_comm.
    apply derivable_pt_lim_comp; [|apply derivable_pt_lim_ln; apply P]. replace (exp x0 * expo A)%R with (exp x0 * fct_cte (expo A) x0 + exp x0 * 0 + 0)%R by (unfold fct_cte; lra).
    apply derivable_pt_lim_plus; [apply derivable_pt_lim_mult|]; try apply derivable_pt_lim_const. apply derivable_pt_lim_exp.
Qed.

(** For every batch, loss coefficients [c] and arc (position [q]) with a finite
    score: the backward pass gives the derivative of the loss w.r.t. the score
    of that arc. *)
Theorem C33_log_gradient (fs : list nfsa) (scores : list (option R)) (c : list R) lp sched ord :
  Forall well_formed fs -> Forall p_topsorted_acyclic fs -> zlen (concat fs) < int_max -> zlen scores = zlen (concat (concat fs)) ->
  is_sched (zlen fs * 2 ^ Z.of_nat lp) sched -> fair ord -> zlen c = zlen fs ->
  exists grad, tot_scores_backward_log lp sched ord (flat_vec fs) scores c = Some grad /\ zlen grad = zlen scores /\
    forall q x0, rd scores q = Some (Some x0) ->
      exists g, rd grad q = Some g /\ derivable_pt_lim (fun x => loss (get_tot_scores true lp sched ord (flat_vec fs) (set_score scores q x)) c) x0 g.
Proof.
  intros WF TS SM LS SC FO LC. unfold tot_scores_backward_log. destruct (post_run true fs scores lp sched ord WF TS SM LS SC FO) as (post & -> & LP & HP). unfold tot_scores_log_backward.
  change (v_rs1 (flat_vec fs)) with (splits_of fs). change (v_rs2 (flat_vec fs)) with (splits_of (concat fs)). change (v_arcs (flat_vec fs)) with (concat (concat fs)). rewrite !zlen_splits_of, !row_ids_of_splits. rewrite LP, Z.eqb_refl. replace (zlen c =? zlen fs + 1 - 1) with true by lia.
  replace (zlen (concat fs) + 1 - 1) with (zlen (concat fs)) by lia. rewrite row_ids_of_splits.
  match goal with |- context [mapM ?F ?l] => set (body := F) end.
  assert (BK : forall k f j a, rd fs k = Some f -> rd (all_arcs f) j = Some a -> exists g, rd c k = Some g /\ body (abase fs k + j) = Some (expo (Post fs scores true k j a) * g)%R).
  { intros k f j a Hk Ha. destruct (arc_by_pos fs WF k f j a Hk Ha) as (_ & R2 & _ & B1 & _). destruct (rd_in_bound f (src a) B1) as (st & Hst). destruct (rd_concat_off fs k f (src a) st Hk Hst) as (_ & ID).
    pose proof (rd_Some_bound _ _ _ Hk). destruct (rd_in_bound c k ltac:(lia)) as (g & Hg). exists g. split; auto. unfold body. now rewrite R2, ID, (HP k f j a Hk Ha), Hg. }
  assert (TOTAL : forall q, In q (zrange (zlen (concat (concat fs)))) -> body q <> None).
  { intros q Hq. apply in_zrange in Hq. destruct (arc_q fs WF q Hq) as (k & f & j & a & Hk & Ha & -> & _). destruct (BK k f j a Hk Ha) as (g & _ & ->). discriminate. }
  set (val := fun q => match body q with Some y => y | None => 0%R end).
  rewrite (RaggedOpsProofs.mapM_zrange body _ (tab (zlen (concat (concat fs))) val)); [|apply zlen_nonneg|apply zlen_tab, zlen_nonneg|].
  2:{ intros q Hq. rewrite rd_tab by lia. unfold val. specialize (TOTAL q ltac:(now apply in_zrange)). destruct (body q); congruence. }
  eexists. split; [reflexivity|]. split; [rewrite zlen_tab by apply zlen_nonneg; auto|]. intros q x0 Hx0. pose proof (rd_Some_bound _ _ _ Hx0) as Bq. rewrite LS in Bq.
  destruct (arc_q fs WF q Bq) as (k & f & j & a & Hk & Ha & -> & _). destruct (BK k f j a Hk Ha) as (g & Hg & EB). rewrite rd_tab by lia. exists (expo (Post fs scores true k j a) * g)%R. split; [unfold val; now rewrite EB|].
  apply (derivable_pt_lim_ext (fun x => loss (Some (tab (zlen fs) (Tot fs (set_score scores (abase fs k + j) x) true))) c)).
  { intros z. rewrite tot_run by (auto; now rewrite zlen_set_score). reflexivity. }
  assert (HX : arc_score fs scores k j = Some x0) by (unfold arc_score; change (off1 (map all_arcs fs) k) with (abase fs k); now rewrite Hx0).
  destruct (tot_arc fs scores true k f j a WF TS LS Hk Ha) as (A & B & HT & HA & HB).
  assert (S0 : set_score scores (abase fs k + j) x0 = scores).
  { apply list_ext_rd; [apply zlen_set_score|]. intros i _. rewrite rd_set_score. destruct (i =? abase fs k + j) eqn:E; [replace i with (abase fs k + j) by lia; now rewrite Hx0|]. destruct (rd scores i); reflexivity. }
  apply (loss_derive fs c (fun x => Tot fs (set_score scores (abase fs k + j) x) true) k g x0); auto.
  - intros k' N x. rewrite !(tot_other fs scores true k f j a k' WF TS Hk Ha N). reflexivity.
  - apply (derivable_pt_lim_ext (fun x => fin (splus true (ladd (Some x) A) B))); [intros z; now rewrite HT|].
    replace (Post fs scores true k j a) with (ladd (ladd (Some x0) A) (lneg (splus true (ladd (Some x0) A) B))); [apply log_derive|].
    unfold Post. rewrite <- (path_sum_unique _ _ _ _ _ (HA x0 HX) (arc_through fs WF TS scores k f true j a Hk Ha)). rewrite <- HT, S0. reflexivity.
Qed.
Print Assumptions C33_log_gradient.

(** ** Tropical semiring *)
Lemma ssum_attained (l : list (option R)) y : ssum false l = Some y -> In (Some y) l.
Proof.
  revert y. induction l as [|a l IH]; intros y H; [discriminate|]. change (ssum false (a :: l)) with (lmax a (ssum false l)) in H. destruct a as [a|], (ssum false l) as [z|]; cbn in H.
  - injection H as <-. destruct (Rle_dec a z); [right; rewrite Rmax_right by lra; now apply IH|left; now rewrite Rmax_left by lra].
  - left. exact H.
  - right. now apply IH.
  - discriminate.
Qed.
Lemma path_sum_attained w P y : path_sum false w P (Some y) -> exists p, P p /\ pweight w p = Some y.
Proof. intros (L & _ & HL & E). symmetry in E. apply ssum_attained in E. apply in_map_iff in E as (p & E & Hp). exists p. split; auto. now apply HL. Qed.

Lemma trop_derive_in A B x0 : (forall b, B = Some b -> b < x0 + A)%R -> derivable_pt_lim (fun x => fin (splus false (ladd (Some x) (Some A)) B)) x0 1%R.
Proof.
  intros H. change (splus false) with lmax. cbn [ladd]. assert (exists lo, (lo < x0 /\ forall z, lo < z -> fin (lmax (Some (z + A)) B) = z + A)%R) as (lo & L1 & L2).
  { destruct B as [b|]; cbn [lmax fin]; [specialize (H b eq_refl); exists (b - A)%R; split; [lra|]; intros z Hz; apply Rmax_left; lra|exists (x0 - 1)%R; split; [lra|reflexivity]]. }
  apply (derivable_pt_lim_locally_ext (plus_fct id (fct_cte A)) _ x0 lo (x0 + 1)); [lra|intros z Hz; symmetry; apply L2; lra|]. replace 1%R with (1 + 0)%R by lra. apply derivable_pt_lim_plus; [apply derivable_pt_lim_id|apply derivable_pt_lim_const].
Qed.
Lemma trop_derive_out A b x0 : (forall a, A = Some a -> x0 + a < b)%R -> derivable_pt_lim (fun x => fin (splus false (ladd (Some x) A) (Some b))) x0 0%R.
Proof.
  intros H. change (splus false) with lmax. assert (exists hi, (x0 < hi /\ forall z, z < hi -> fin (lmax (ladd (Some z) A) (Some b)) = b)%R) as (hi & L1 & L2).
  { destruct A as [a|]; cbn [ladd lmax fin]; [specialize (H a eq_refl); exists (b - a)%R; split; [lra|]; intros z Hz; apply Rmax_right; lra|exists (x0 + 1)%R; split; [lra|reflexivity]]. }
  apply (derivable_pt_lim_locally_ext (fct_cte b) _ x0 (x0 - 1) hi); [lra|intros z Hz; symmetry; apply L2; lra|]. apply derivable_pt_lim_const.
Qed.

(** The gradient written: the coefficient of the FSA on the arcs of its path. *)
Lemma trop_run fs scores (c : list R) lp sched ord lp' sched' :
  Forall well_formed fs -> Forall p_topsorted_acyclic fs -> zlen (concat fs) < int_max -> zlen scores = zlen (concat (concat fs)) ->
  is_sched (zlen fs * 2 ^ Z.of_nat lp) sched -> fair ord -> is_sched (zlen fs * 2 ^ Z.of_nat lp') sched' -> zlen c = zlen fs ->
  exists grad, tot_scores_backward_tropical lp sched ord (flat_vec fs) scores lp' sched' c = Some grad /\ zlen grad = zlen scores /\
    forall k f j a p g, rd fs k = Some f -> rd (all_arcs f) j = Some a -> best fs scores k f = map (fun j => abase fs k + j) p -> rd c k = Some g ->
      rd grad (abase fs k + j) = Some (if in_dec Z.eq_dec j p then g else 0%R).
Proof.
  intros WF TS SM LS SC FO SC' LC. unfold tot_scores_backward_tropical. rewrite (forward_run fs WF TS ltac:(lia) scores LS lp sched ord SC FO false). cbn [snd]. rewrite (shortest_path_run fs WF TS scores lp' sched' SC'). cbn [fst snd].
  change (v_rs1 (flat_vec fs)) with (splits_of fs). change (v_rs2 (flat_vec fs)) with (splits_of (concat fs)). change (v_arcs (flat_vec fs)) with (concat (concat fs)). rewrite !zlen_splits_of, zlen_bests, Z.eqb_refl, !row_ids_of_splits. replace (zlen c =? zlen fs + 1 - 1) with true by lia.
  replace (zlen (concat fs) + 1 - 1) with (zlen (concat fs)) by lia. rewrite row_ids_of_splits. set (An := zlen (concat (concat fs))). pose proof (zlen_nonneg (concat (concat fs))) as A0. fold An in A0.
  set (X := bests fs scores).
  set (kq := fun q => match rd (ids_of (concat fs)) q with Some s => match rd (ids_of fs) s with Some k => match rd c k with Some g => g | None => 0%R end | None => 0%R end | None => 0%R end).
  assert (KQ : forall k f j a g, rd fs k = Some f -> rd (all_arcs f) j = Some a -> rd c k = Some g -> kq (abase fs k + j) = g /\ rd (ids_of (concat fs)) (abase fs k + j) = Some (off1 fs k + src a) /\ rd (ids_of fs) (off1 fs k + src a) = Some k).
  { intros k f j a g Hk Ha Hg. destruct (arc_by_pos fs WF k f j a Hk Ha) as (_ & R2 & _ & B1 & _). destruct (rd_in_bound f (src a) B1) as (st & Hst). destruct (rd_concat_off fs k f (src a) st Hk Hst) as (_ & ID). unfold kq. rewrite R2, ID, Hg. auto. }
  assert (XQ : forall q, In q (concat X) -> exists k f j a g p, rd fs k = Some f /\ rd (all_arcs f) j = Some a /\ rd c k = Some g /\ q = abase fs k + j /\ best fs scores k f = map (fun j => abase fs k + j) p /\ In j p).
  { intros q Hq. apply in_concat in Hq as (r & Hr & Hq). apply In_rd in Hr as (k & Bk & Hr). unfold X in Bk, Hr. rewrite zlen_bests in Bk. destruct (rd_in_bound fs k Bk) as (f & Hk). rewrite (rd_bests fs scores k f Hk) in Hr. injection Hr as <-.
    destruct (best_ok fs WF TS scores k f Hk) as (p & B1 & B2 & _). rewrite B1 in Hq. apply in_map_iff in Hq as (j & <- & Hj).
    assert (Bj : 0 <= j < zlen (all_arcs f)) by (destruct B2 as [-> | (_ & B2)]; [destruct Hj|eapply apath_arcs; eauto]). destruct (rd_in_bound _ _ Bj) as (a & Ha). destruct (rd_in_bound c k ltac:(lia)) as (g & Hg). exists k, f, j, a, g, p. auto 10. }
  set (cell := fun q => if in_dec Z.eq_dec q (concat X) then kq q else 0%R).
  destruct (k2_eval_agrees An cell (fun i => q <- rd (concat X) i;; s <- rd (ids_of (concat fs)) q;; k <- rd (ids_of fs) s;; g <- rd c k;; Some [(q, g)]) (ord (zlen (concat X)))) with (arr := repeat (Some 0%R) (Z.to_nat An)) as (m & EM & LM & HM).
  { intros i Hi. apply (in_sched _ _ _ (FO _)) in Hi. destruct (rd_in_bound (concat X) i Hi) as (q & Hq). rewrite Hq. pose proof (rd_In _ _ _ Hq) as Iq. destruct (XQ q Iq) as (k & f & j & a & g & p & Hk & Ha & Hg & -> & _). destruct (KQ k f j a g Hk Ha Hg) as (K1 & -> & ->). rewrite Hg.
    eexists. split; [reflexivity|]. constructor; [|constructor]. unfold agrees. cbn [fst snd]. split; [apply (arc_kj fs WF k f j a Hk Ha)|]. unfold cell. destruct (in_dec Z.eq_dec (abase fs k + j) (concat X)); [auto|contradiction]. }
  { rewrite zlen_repeat. lia. }
  rewrite EM. exists (tab An cell). split; [|split; [rewrite zlen_tab by lia; auto|]].
  - apply freeze_tab; auto. intros q Hq. apply HM; auto. unfold cell. destruct (in_dec Z.eq_dec q (concat X)) as [I|N]; [right|left; now apply rd_repeat; lia]. pose proof I as I'. apply In_rd in I' as (i & Bi & Hi). exists i. rewrite Hi. destruct (XQ q I) as (k & f & j & a & g & p & Hk & Ha & Hg & -> & _). destruct (KQ k f j a g Hk Ha Hg) as (K1 & -> & ->). rewrite Hg.
    eexists. split; [now apply (in_sched _ _ _ (FO _))|]. split; [reflexivity|]. now left.
  - intros k f j a p g Hk Ha HB Hg. destruct (arc_kj fs WF k f j a Hk Ha) as (Bq & _). rewrite rd_tab by exact Bq. f_equal. unfold cell. destruct (KQ k f j a g Hk Ha Hg) as (K1 & KI & KF).
    destruct (in_dec Z.eq_dec (abase fs k + j) (concat X)) as [I|N], (in_dec Z.eq_dec j p) as [I'|N']; auto; exfalso.
    + destruct (XQ _ I) as (k2 & f2 & j2 & a2 & g2 & p2 & Hk2 & Ha2 & Hg2 & E & HB2 & I2). destruct (KQ k2 f2 j2 a2 g2 Hk2 Ha2 Hg2) as (_ & KI2 & KF2). rewrite <- E, KI in KI2. injection KI2 as KI2. rewrite <- KI2, KF in KF2. injection KF2 as <-.
      rewrite Hk in Hk2. injection Hk2 as <-. rewrite HB in HB2. apply map_inj in HB2; [|intros; cbn in *; lia]. subst p2. replace j2 with j in I2 by lia. auto.
    + apply N. apply in_concat. exists (best fs scores k f). split; [eapply rd_In; now apply rd_bests|]. rewrite HB. now apply (in_map (fun j => abase fs k + j)).
Qed.

Theorem C33_tropical_gradient (fs : list nfsa) (scores : list (option R)) (c : list R) lp sched ord lp' sched' :
  Forall well_formed fs -> Forall p_topsorted_acyclic fs -> zlen (concat fs) < int_max -> zlen scores = zlen (concat (concat fs)) ->
  is_sched (zlen fs * 2 ^ Z.of_nat lp) sched -> fair ord -> is_sched (zlen fs * 2 ^ Z.of_nat lp') sched' -> zlen c = zlen fs ->
  exists grad, tot_scores_backward_tropical lp sched ord (flat_vec fs) scores lp' sched' c = Some grad /\ zlen grad = zlen scores /\
    forall k f j q x0, rd fs k = Some f -> 0 <= j < zlen (all_arcs f) -> q = off1 (map all_arcs fs) k + j -> rd scores q = Some (Some x0) ->
      (exists p, best_path f (arc_score fs scores k) p) -> agree_on f (arc_score fs scores k) j ->
      exists g, rd grad q = Some g /\ derivable_pt_lim (fun x => loss (get_tot_scores false lp sched ord (flat_vec fs) (set_score scores q x)) c) x0 g.
Proof.
  intros WF TS SM LS SC FO SC' LC. destruct (trop_run fs scores c lp sched ord lp' sched' WF TS SM LS SC FO SC' LC) as (grad & E & LG & HG). exists grad. split; auto. split; auto.
  intros k f j q x0 Hk Bj -> Hx0 (p0 & BP0) AG. change (off1 (map all_arcs fs) k) with (abase fs k) in *. destruct (rd_in_bound _ _ Bj) as (a & Ha).
  pose proof (rd_Some_bound _ _ _ Hk). destruct (rd_in_bound c k ltac:(lia)) as (g & Hg). destruct (best_ok fs WF TS scores k f Hk) as (p & B1 & B2 & B3). set (w := arc_score fs scores k) in *.
  pose proof BP0 as (Sp0 & y0 & Hy0 & OPT0). destruct (B3 p0 y0 Sp0 Hy0) as (Sp & Wp). destruct (path_sum_In _ _ _ _ _ _ (Tot_sum false fs scores k f WF TS Hk) Sp0 Hy0) as (T & HT & LE0). specialize (LE0 eq_refl).
  assert (MAX : forall p' x', successful f p' -> pweight w p' = Some x' -> (x' <= T)%R).
  { intros p' x' Sp' Hx'. destruct (path_sum_In _ _ _ _ _ _ (Tot_sum false fs scores k f WF TS Hk) Sp' Hx') as (T' & HT' & LE'). specialize (LE' eq_refl). rewrite HT in HT'. injection HT' as <-. exact LE'. }
  assert (BST : forall p', successful f p' -> pweight w p' = Some T -> best_path f w p') by (intros p' S' W'; split; auto; exists T; auto).
  assert (BP : best_path f w p) by (apply BST; auto; congruence).
  exists (if in_dec Z.eq_dec j p then g else 0%R). split; [now apply (HG k f j a p g)|].
  apply (derivable_pt_lim_ext (fun x => loss (Some (tab (zlen fs) (Tot fs (set_score scores (abase fs k + j) x) false))) c)).
  { intros z. rewrite tot_run by (auto; now rewrite zlen_set_score). reflexivity. }
  assert (HX : w j = Some x0) by (unfold w, arc_score; change (off1 (map all_arcs fs) k) with (abase fs k); now rewrite Hx0).
  destruct (tot_arc fs scores false k f j a WF TS LS Hk Ha) as (A & B & HTx & HA & HB). fold w in HA, HB. specialize (HA x0 HX).
  replace (if in_dec Z.eq_dec j p then g else 0%R) with ((if in_dec Z.eq_dec j p then 1 else 0) * g)%R by (destruct (in_dec Z.eq_dec j p); lra).
  apply (loss_derive fs c (fun x => Tot fs (set_score scores (abase fs k + j) x) false) k g x0); auto.
  - intros k' N x. rewrite !(tot_other fs scores false k f j a k' WF TS Hk Ha N). reflexivity.
  - apply (derivable_pt_lim_ext (fun x => fin (splus false (ladd (Some x) A) B))); [intros z; now rewrite HTx|]. destruct (in_dec Z.eq_dec j p) as [I|N].
    + destruct (path_sum_In _ _ _ _ _ _ HA (conj Sp I) (eq_trans Wp HT)) as (y & Hy & LE). specialize (LE eq_refl). destruct A as [A|]; [|discriminate]. cbn [ladd] in Hy. injection Hy as <-. apply trop_derive_in. intros b ->.
      destruct (path_sum_attained _ _ _ HB) as (p' & (Sp' & N') & W'). pose proof (MAX p' b Sp' W'). destruct (Req_dec b T) as [->|]; [|lra]. exfalso. apply N'. apply (AG p p'); auto.
    + destruct (path_sum_In _ _ _ _ _ _ HB (conj Sp N) (eq_trans Wp HT)) as (b & -> & LE). specialize (LE eq_refl). apply trop_derive_out. intros A' ->. cbn [ladd] in HA.
      destruct (path_sum_attained _ _ _ HA) as (p' & (Sp' & I') & W'). pose proof (MAX p' _ Sp' W'). destruct (Req_dec (x0 + A') T) as [ET|]; [|lra]. exfalso. apply N. apply (AG p' p); auto. apply BST; auto. now rewrite W', ET.
Qed.
Print Assumptions C33_tropical_gradient.

(** *** Non-triviality *)
Lemma f32a_arc j a : rd (all_arcs BatchProps.f32a) j = Some a -> j = 0 /\ a = mkArc 0 1 1 0 \/ j = 1 /\ a = mkArc 0 2 2 0 \/ j = 2 /\ a = mkArc 1 3 3 0 \/ j = 3 /\ a = mkArc 2 3 4 0 \/ j = 4 /\ a = mkArc 3 4 (-1) 0.
Proof.
  intros H. pose proof (rd_Some_bound _ _ _ H) as B. change (zlen (all_arcs BatchProps.f32a)) with 5 in B.
  assert (j = 0 \/ j = 1 \/ j = 2 \/ j = 3 \/ j = 4) as [-> | [-> | [-> | [-> | ->]]]] by lia; cbv in H; injection H as <-; auto 10.
Qed.
Lemma f32a_paths p : successful BatchProps.f32a p -> p = [0; 2; 4] \/ p = [1; 3; 4].
Proof.
  intros (_ & H). change (nstates BatchProps.f32a - 1) with 4 in H.
  inversion H as [|j0 a0 p0 t0 A0 P0]; subst. apply f32a_arc in A0 as [(-> & ->) | [(-> & ->) | [(-> & ->) | [(-> & ->) | (-> & ->)]]]]; try discriminate; cbn [dst] in P0.
  - inversion P0 as [|j1 a1 p1 t1 A1 P1]; subst. apply f32a_arc in A1 as [(-> & ->) | [(-> & ->) | [(-> & ->) | [(-> & ->) | (-> & ->)]]]]; try discriminate; cbn [dst] in P1.
    inversion P1 as [|j2 a2 p2 t2 A2 P2]; subst. apply f32a_arc in A2 as [(-> & ->) | [(-> & ->) | [(-> & ->) | [(-> & ->) | (-> & ->)]]]]; try discriminate; cbn [dst] in P2.
    inversion P2 as [|j3 a3 p3 t3 A3 P3]; subst; auto. apply f32a_arc in A3 as [(-> & ->) | [(-> & ->) | [(-> & ->) | [(-> & ->) | (-> & ->)]]]]; discriminate.
  - inversion P0 as [|j1 a1 p1 t1 A1 P1]; subst. apply f32a_arc in A1 as [(-> & ->) | [(-> & ->) | [(-> & ->) | [(-> & ->) | (-> & ->)]]]]; try discriminate; cbn [dst] in P1.
    inversion P1 as [|j2 a2 p2 t2 A2 P2]; subst. apply f32a_arc in A2 as [(-> & ->) | [(-> & ->) | [(-> & ->) | [(-> & ->) | (-> & ->)]]]]; try discriminate; cbn [dst] in P2.
    inversion P2 as [|j3 a3 p3 t3 A3 P3]; subst; auto. apply f32a_arc in A3 as [(-> & ->) | [(-> & ->) | [(-> & ->) | [(-> & ->) | (-> & ->)]]]]; discriminate.
Qed.
Lemma f32a_best p : best_path BatchProps.f32a (arc_score fs30 sc30 0) p <-> p = [0; 2; 4].
Proof.
  destruct fs30_paths as (S1 & S2 & W1 & W2). split.
  - intros (S & x & Hx & _). destruct (f32a_paths p S) as [-> | ->]; auto. congruence.
  - intros ->. split; auto. eexists. split; [exact W1|]. intros p' x' S' W'. destruct (f32a_paths p' S') as [-> | ->]; [|congruence]. rewrite W1 in W'. injection W' as <-. lra.
Qed.
(** Arc 2 has score 3, and lies on the only path of finite score. *)
Example C33_ex : exists gl gt hl ht,
  tot_scores_backward_log 2 (rev (zrange 12)) rev_ord (flat_vec fs30) sc30 [2; 7; 5]%R = Some gl /\ rd gl 2 = Some hl /\
  derivable_pt_lim (fun x => loss (get_tot_scores true 2 (rev (zrange 12)) rev_ord (flat_vec fs30) (set_score sc30 2 x)) [2; 7; 5]%R) 3 hl /\
  tot_scores_backward_tropical 2 (rev (zrange 12)) rev_ord (flat_vec fs30) sc30 2 (rev (zrange 12)) [2; 7; 5]%R = Some gt /\ rd gt 2 = Some ht /\
  derivable_pt_lim (fun x => loss (get_tot_scores false 2 (rev (zrange 12)) rev_ord (flat_vec fs30) (set_score sc30 2 x)) [2; 7; 5]%R) 3 ht.
Proof.
  destruct fs30_ok as (W & T & S & L & SC & FO).
  destruct (C33_log_gradient fs30 sc30 [2; 7; 5]%R 2 (rev (zrange 12)) rev_ord W T S L SC FO eq_refl) as (gl & E1 & _ & H1). destruct (H1 2 3%R eq_refl) as (hl & R1 & D1).
  destruct (C33_tropical_gradient fs30 sc30 [2; 7; 5]%R 2 (rev (zrange 12)) rev_ord 2 (rev (zrange 12)) W T S L SC FO SC eq_refl) as (gt & E2 & _ & H2).
  destruct (H2 0 BatchProps.f32a 2 2 3%R eq_refl ltac:(change (zlen (all_arcs BatchProps.f32a)) with 5; lia) eq_refl eq_refl) as (ht & R2 & D2).
  { exists [0; 2; 4]. now apply f32a_best. }
  { intros p p' Hp Hp' I. apply f32a_best in Hp, Hp'. subst. exact I. }
  exists gl, gt, hl, ht. auto 10.
Qed.
