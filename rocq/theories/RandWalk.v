(** * Proofs about the walk of RandomPaths. *)
From Coq Require Import ZArith List Lia Lra Bool Reals Permutation.
From Coq Require Import ZifyBool ZifyNat.
From Verif Require Import Base RaggedModel RaggedSpec RaggedProofs FsaSpec FsaLemmas EpsLoopProofs RaggedOpsModel RaggedOpsSpec RaggedOpsProofs RaggedCatProofs
  PropsSpec PropsProofs PropsProps ReverseProofs ConnectSpec ConnectProofs ExtractProofs ConnectProps TopSortProofs TopSortRun LogReal MutualInfoProofs
  BatchModel BatchRun ScoreModel ScoreSpec PathSums ScoreProofs ScoreRun ScorePaths ScoreProps RandModel RandSpec CdfProofs.
Import ListNotations.
Open Scope Z_scope.

(** ** The choice of an arc *)
Section Choice.
Context (Ss : list (list arc)) (post : list (option R)) (LP : zlen post = zlen (concat Ss)).
Notation An := (zlen (concat Ss)).
Notation o := (off1 Ss).
Notation C := (CC Ss post).
Notation cdf := (tab An (cd Ss post)).
Context (s : Z) (r : list arc) (Hr : rd Ss s = Some r) (NZ : PP Ss post s <> 0%R).

Lemma C_end : C s (zlen r) = 1%R.
Proof. rewrite <- (CC_end Ss post s NZ). f_equal. unfold rowlen. now rewrite Hr. Qed.
Lemma rd_cdf j : 0 <= j < zlen r -> rd cdf (o s + j) = Some (C s j).
Proof. intros H. destruct (row_pos Ss s r j Hr H) as (B & _). rewrite rd_tab by lia. now rewrite (cd_at Ss post s r j Hr H). Qed.
Lemma interval_ok j : 0 <= j < zlen r -> arc_interval cdf (o s + zlen r) (o s + j) = Some (C s j, C s (j + 1)).
Proof.
  intros H. unfold arc_interval. rewrite rd_cdf by auto. destruct (o s + j + 1 =? o s + zlen r) eqn:E.
  - replace (j + 1) with (zlen r) by lia. now rewrite C_end.
  - replace (o s + j + 1) with (o s + (j + 1)) by lia. rewrite rd_cdf by lia. reflexivity.
Qed.
Lemma ubound_ok p : (p < 1)%R -> forall n j, 0 <= j -> j + Z.of_nat n = zlen r - 1 -> (C s j <= p)%R ->
  exists t, ubound cdf p n (o s + j) = Some (o s + t) /\ 0 <= t < zlen r /\ (C s t <= p < C s (t + 1))%R.
Proof.
  intros Hp. induction n as [|n IH]; intros j Hj L HC; cbn [ubound].
  - exists j. repeat split; auto; try lia. replace (j + 1) with (zlen r) by lia. now rewrite C_end.
  - replace (o s + j + 1) with (o s + (j + 1)) by lia. rewrite rd_cdf by lia. destruct (rlt p (C s (j + 1))) eqn:E.
    + exists j. apply rlt_iff in E. repeat split; auto; lia.
    + apply rlt_false in E. apply IH; auto; lia.
Qed.
Lemma filter_single (h : Z -> bool) n t : 0 <= t < n -> h t = true -> (forall i, 0 <= i < n -> h i = true -> i = t) -> filter h (zrange n) = [t].
Proof using. clear.
  intros Bt Ht HU. pose proof (NoDup_filter h (NoDup_zrange n)) as ND. assert (I : forall i, In i (filter h (zrange n)) <-> i = t).
  { intros i. rewrite filter_In, in_zrange. split; [intros (A & B); now apply HU|intros ->; auto]. }
  destruct (filter h (zrange n)) as [|a [|b l]].
  - destruct (proj2 (I t) eq_refl).
  - f_equal. apply I. now left.
  - exfalso. inversion ND as [|? ? N _]; subst. apply N. left. transitivity t; [apply I; right; now left|symmetry; apply I; now left].
Qed.
Lemma choose_ok gpu p : 0 < zlen r -> (0 <= p < 1)%R ->
  exists t, (if gpu : bool then gpu_choose cdf p (o s) (o s + zlen r) else ubound cdf p (Z.to_nat (o s + zlen r - o s - 1)) (o s)) = Some (o s + t) /\ 0 <= t < zlen r /\ (C s t <= p < C s (t + 1))%R.
Proof.
  intros L Hp. destruct (ubound_ok p ltac:(lra) (Z.to_nat (o s + zlen r - o s - 1)) 0 ltac:(lia) ltac:(lia) ltac:(rewrite CC_0; lra)) as (t & E & Bt & HC).
  replace (o s + 0) with (o s) in E by lia. exists t. split; auto. destruct gpu; auto. unfold gpu_choose. replace (o s + zlen r - o s) with (zlen r) by lia.
  set (hit := fun i => rle (C s i) p && rlt p (C s (i + 1))).
  rewrite (mapM_tab _ hit); [|lia|].
  2:{ intros i Hi. unfold gpu_hit. rewrite interval_ok by lia. cbn [fst snd]. f_equal. unfold hit. pose proof (CC_mono Ss post s i (i + 1) ltac:(lia)) as M.
      destruct (rle (C s i) p) eqn:E1; auto. apply rle_iff in E1. cbn [andb]. destruct (rlt p (C s (i + 1))) eqn:E2.
      - apply rlt_iff in E2. replace (rle p (C s (i + 1))) with true by (symmetry; apply rle_iff; lra). replace (rlt (C s i) (C s (i + 1))) with true by (symmetry; apply rlt_iff; lra).
        destruct (req p (C s (i + 1))) eqn:E3; auto. apply req_iff in E3. lra.
      - apply rlt_false in E2. destruct (rle p (C s (i + 1))) eqn:E3; auto. apply rle_iff in E3. replace (req p (C s (i + 1))) with true by (symmetry; apply req_iff; lra).
        replace (req p 1) with false; [now rewrite !andb_false_r|]. destruct (req p 1) eqn:E4; auto. apply req_iff in E4. lra. }
  rewrite (filter_single _ (zlen r) t); auto.
  - rewrite rd_tab by lia. unfold hit. apply andb_true_intro. split; [apply rle_iff|apply rlt_iff]; lra.
  - intros i Hi. rewrite rd_tab by lia. unfold hit. intros H. apply andb_prop in H as (H1 & H2). apply rle_iff in H1. apply rlt_iff in H2.
    destruct (Z.lt_trichotomy i t) as [T|[T|T]]; auto; exfalso.
    + pose proof (CC_mono Ss post s (i + 1) t ltac:(lia)). lra.
    + pose proof (CC_mono Ss post s (t + 1) i ltac:(lia)). lra.
Qed.
End Choice.

(** ** Sums over paths, by first arc *)
Lemma path_sum_or l w (P Q : list Z -> Prop) x y : (forall p, P p -> Q p -> False) -> path_sum l w P x -> path_sum l w Q y -> path_sum l w (fun p => P p \/ Q p) (splus l x y).
Proof.
  intros D (L & N1 & H1 & ->) (L' & N2 & H2 & ->). exists (L ++ L'). split; [|split].
  - apply NoDup_app_disj; auto. intros p A B. apply (D p); [now apply H1|now apply H2].
  - intros p. rewrite in_app_iff, H1, H2. reflexivity.
  - now rewrite map_app, ssum_app.
Qed.
Lemma path_sum_cons l w j (P : list Z -> Prop) x : path_sum l w P x -> path_sum l w (fun p => exists p', p = j :: p' /\ P p') (ladd (w j) x).
Proof.
  intros (L & N & H & ->). exists (map (cons j) L). split; [|split].
  - apply NoDup_map_in; auto. intros a b _ _ E. now injection E.
  - intros p. rewrite in_map_iff. split; [intros (p' & <- & I); exists p'; split; auto; now apply H|intros (p' & -> & I); exists p'; split; auto; now apply H].
  - rewrite ssum_distr_l, !map_map. reflexivity.
Qed.
Lemma path_sum_empty l w (P : list Z -> Prop) : (forall p, ~ P p) -> path_sum l w P None.
Proof. intros H. exists []. split; [constructor|]. split; [|reflexivity]. intros p. split; [intros []|intros A; exfalso; eapply H; eauto]. Qed.
Lemma sumf_pos_ex {A} (f : A -> R) l : (0 < sumf f l)%R -> exists a, In a l /\ (0 < f a)%R.
Proof.
  induction l as [|a l IH]; [rewrite sumf_nil; lra|]. rewrite sumf_cons. intros H. destruct (Rlt_dec 0 (f a)); [exists a; split; auto; now left|]. destruct (IH ltac:(lra)) as (b & I & Hb). exists b. split; auto. now right.
Qed.

Section Walk.
Variable fs : list nfsa.
Hypothesis WF : Forall well_formed fs.
Hypothesis TS : Forall p_topsorted_acyclic fs.
Variable scores : list (option R).
Variable post : list (option R).
Hypothesis LP : zlen post = zlen (concat (concat fs)).
Hypothesis HP : forall k f j a, rd fs k = Some f -> rd (all_arcs f) j = Some a -> rd post (abase fs k + j) = Some (Post fs scores true k j a).
Variables (k : Z) (f : nfsa).
Hypothesis Hk : rd fs k = Some f.
Notation w := (arc_score fs scores k).
Notation O := (off1 fs k).
Notation fin := (nstates f - 1).
Notation eF s := (expo (Fw fs scores true (O + s))).
Notation eB s := (expo (Bw fs scores true (O + s))).
Notation eT := (expo (Tot fs scores true k)).
Hypothesis TP : (0 < eT)%R.
Notation Ss := (concat fs).

Lemma WFf : well_formed f. Proof. rewrite Forall_forall in WF. apply WF. eapply rd_In; eauto. Qed.
Lemma TSf : p_topsorted_acyclic f. Proof. rewrite Forall_forall in TS. apply TS. eapply rd_In; eauto. Qed.
(** the arcs of state [s] *)
Lemma row_arc s r t : rd f s = Some r -> 0 <= t < zlen r ->
  exists a, rd r t = Some a /\ rd (all_arcs f) (off1 f s + t) = Some a /\ src a = s /\ s < dst a < zlen f /\ off1 Ss (O + s) + t = abase fs k + (off1 f s + t).
Proof.
  intros Hs Ht. destruct (rd_in_bound r t Ht) as (a & Ha). exists a. split; auto. destruct (rd_concat_off f s r t a Hs Ha) as (H1 & H2). split; auto.
  destruct WFf as (S1 & S2). assert (Ia : In a (all_arcs f)) by (eapply rd_In; eauto). specialize (S2 a Ia). unfold nstates in S2. pose proof (TSf a Ia) as U. pose proof (rd_Some_bound _ _ _ Hs).
  assert (E : src a = s).
  { destruct (arc_by_pos fs WF k f _ a Hk H1) as (_ & R2 & _). destruct (rd_concat_off fs k f s r Hk Hs) as (R3 & _). destruct (rd_concat_off Ss (O + s) r t a R3 Ha) as (_ & R4).
    replace (off1 Ss (O + s) + t) with (abase fs k + (off1 f s + t)) in R4.
    - rewrite R2 in R4. injection R4. lia.
    - unfold abase. rewrite (off1_concat fs k f s Hk) by lia. rewrite <- off1_map_concat. lia. }
  split; auto. split; [lia|]. unfold abase. rewrite (off1_concat fs k f s Hk) by lia. rewrite <- off1_map_concat. lia.
Qed.

Definition darc (s i : Z) : Z := match rd (all_arcs f) (off1 f s + i) with Some a => dst a | None => 0 end.
Definition wb (s t : Z) : R := sumf (fun i => expo (w (off1 f s + i)) * eB (darc s i))%R (zrange t).
Lemma wb_S s t : 0 <= t -> wb s (t + 1) = (wb s t + expo (w (off1 f s + t)) * eB (darc s t))%R.
Proof. intros. unfold wb. rewrite zrange_S by lia. rewrite sumf_app, sumf_cons, sumf_nil. lra. Qed.
(** paths whose first arc is one of the first [t] of state [s] *)
Definition first_in (s t : Z) (p : list Z) : Prop := exists i p', 0 <= i < t /\ p = off1 f s + i :: p' /\ apath f (darc s i) p' fin.
Lemma first_sum s r : rd f s = Some r -> forall n, Z.of_nat n <= zlen r -> exists x, path_sum true w (first_in s (Z.of_nat n)) x /\ expo x = wb s (Z.of_nat n).
Proof.
  intros Hs. pose proof (rd_Some_bound _ _ _ Hs) as BS. induction n as [|n IH]; intros Hn.
  - exists None. split; [|reflexivity]. apply path_sum_empty. intros p (i & p' & H & _). lia.
  - destruct (IH ltac:(lia)) as (x & X1 & X2). destruct (row_arc s r (Z.of_nat n) Hs ltac:(lia)) as (a & _ & A2 & A3 & A4 & _).
    assert (D : darc s (Z.of_nat n) = dst a) by (unfold darc; now rewrite A2).
    exists (splus true x (ladd (w (off1 f s + Z.of_nat n)) (Bw fs scores true (O + dst a)))). split.
    + eapply path_sum_ext; [|apply path_sum_or; [|exact X1|apply (path_sum_cons true w (off1 f s + Z.of_nat n)); apply (Bw_sum fs WF TS scores k f true (dst a) Hk); lia]].
      * intros p. split.
        -- intros [(i & p' & H & E & A)|(p' & E & A)]; [exists i, p'; split; auto; lia|]. exists (Z.of_nat n), p'. rewrite D. split; [lia|auto].
        -- intros (i & p' & H & E & A). destruct (Z.eq_dec i (Z.of_nat n)) as [->|]; [right; exists p'; rewrite <- D; auto|left; exists i, p'; split; auto; lia].
      * intros p (i & p' & H & E & _) (p2 & E2 & _). rewrite E in E2. injection E2 as E2 _. lia.
    + change (splus true) with (logadd None). rewrite logadd_exact, expo_ladd, X2. replace (Z.of_nat (S n)) with (Z.of_nat n + 1) by lia. rewrite wb_S by lia. now rewrite D.
Qed.
Lemma apath_first s r p : rd f s = Some r -> s <> fin -> apath f s p fin <-> first_in s (zlen r) p.
Proof.
  intros Hs NF. split.
  - intros H. inversion H as [|j a p' t Ha Hp E1 E2 E3]; [congruence|]. subst p t. destruct (rd_concat_inv f j a Ha) as (s' & r' & i & H1 & H2 & -> & _). pose proof (rd_Some_bound _ _ _ H2) as Bi.
    destruct (row_arc s' r' i H1 Bi) as (a' & A1 & A2 & A3 & _). rewrite H2 in A1. injection A1 as <-. assert (ES : s' = s) by congruence. rewrite ES in *. assert (ER : r' = r) by congruence. rewrite ER in *.
    rewrite ?A3. exists i, p'. split; auto. split; [congruence|]. unfold darc. now rewrite A2.
  - intros (i & p' & Bi & -> & Hp). destruct (row_arc s r i Hs Bi) as (a & A1 & A2 & A3 & _). unfold darc in Hp. rewrite A2 in Hp. rewrite <- A3 at 1. now apply (ap_cons f _ a).
Qed.
Lemma Bw_first s r : rd f s = Some r -> s <> fin -> eB s = wb s (zlen r).
Proof.
  intros Hs NF. pose proof (rd_Some_bound _ _ _ Hs). pose proof (zlen_nonneg r). destruct (first_sum s r Hs (Z.to_nat (zlen r)) ltac:(lia)) as (x & X1 & X2). replace (Z.of_nat (Z.to_nat (zlen r))) with (zlen r) in * by lia.
  rewrite <- X2. f_equal. eapply path_sum_unique; [apply (Bw_sum fs WF TS scores k f true s Hk); lia|]. eapply path_sum_ext; [|exact X1]. intros p. symmetry. now apply apath_first.
Qed.
Lemma final_paths p : apath f fin p fin -> p = [].
Proof.
  intros H. destruct p as [|j p]; auto. exfalso. apply (apath_gp fs WF k f Hk) in H. pose proof (gpath_rank _ _ _ rk (RK fs WF TS) _ _ _ H) as (_ & G). specialize (G ltac:(discriminate)). lia.
Qed.
Lemma Bw_final : 0 < zlen f -> eB fin = 1%R.
Proof.
  intros L. rewrite <- expo_zero. f_equal. unfold nstates. eapply path_sum_unique; [apply (Bw_sum fs WF TS scores k f true (nstates f - 1) Hk); unfold nstates; lia|].
  exists [[]]. split; [repeat constructor; intros []|]. split.
  - intros p. cbn. split; [intros [<-|[]]; constructor|]. intros H. left. symmetry. now apply final_paths.
  - reflexivity.
Qed.

(** the posteriors of the arcs of state [s] *)
Lemma EE_row s r t : rd f s = Some r -> 0 <= t < zlen r ->
  EE post (off1 Ss (O + s) + t) = (eF s * / eT * (expo (w (off1 f s + t)) * eB (darc s t)))%R.
Proof.
  intros Hs Ht. destruct (row_arc s r t Hs Ht) as (a & A1 & A2 & A3 & A4 & ->). unfold EE, pq. rewrite (HP k f _ a Hk A2). unfold Post, darc. rewrite A2, A3, !expo_ladd.
  replace (expo (lneg (Tot fs scores true k))) with (/ eT)%R; [lra|]. destruct (Tot fs scores true k) as [x|]; cbn [lneg option_map expo]; [now rewrite exp_Ropp|]. cbn in TP. lra.
Qed.
Lemma rd_Ss s r : rd f s = Some r -> rd Ss (O + s) = Some r.
Proof. intros H. now destruct (rd_concat_off fs k f s r Hk H). Qed.
Lemma pre_row s r t : rd f s = Some r -> 0 <= t <= zlen r -> pre Ss post (O + s) t = (eF s * / eT * wb s t)%R.
Proof. intros Hs Ht. unfold pre, wb. rewrite <- sumf_scale. apply sumf_ext. intros i Hi. apply in_zrange in Hi. apply (EE_row s r); auto; lia. Qed.
Lemma PP_row s r : rd f s = Some r -> s <> fin -> PP Ss post (O + s) = (eF s * / eT * eB s)%R.
Proof. intros Hs NF. rewrite (Bw_first s r Hs NF). unfold PP, rowlen. rewrite (rd_Ss s r Hs). apply (pre_row s r); auto. pose proof (zlen_nonneg r). lia. Qed.
Lemma CC_row s r t : rd f s = Some r -> s <> fin -> (0 < eF s)%R -> (0 < eB s)%R -> 0 <= t <= zlen r -> (CC Ss post (O + s) t * eB s = wb s t)%R.
Proof.
  intros Hs NF PF PB Ht. unfold CC. rewrite (PP_row s r Hs NF), (pre_row s r t Hs Ht). field. repeat split; lra.
Qed.
Lemma eF_next s r t : rd f s = Some r -> 0 <= t < zlen r -> (0 < eF s)%R -> (0 < expo (w (off1 f s + t)))%R -> (0 < eF (darc s t))%R.
Proof.
  intros Hs Ht PF PW. destruct (row_arc s r t Hs Ht) as (a & _ & A2 & A3 & A4 & _). unfold darc. rewrite A2. pose proof (rd_Some_bound _ _ _ Hs).
  destruct (Fw_sum fs WF TS scores k f true s Hk ltac:(lia)) as (L & _ & HL & E). rewrite E, expo_ssum, sumf_map in PF. apply sumf_pos_ex in PF as (p & Ip & Pp). apply HL in Ip. apply expo_pos_Some in Pp as (x & Hx). apply expo_pos_Some in PW as (y & Hy).
  assert (W' : pweight w (p ++ [off1 f s + t]) = Some (x + y)%R) by now rewrite pweight_app, pweight_1, Hx, Hy.
  assert (PA : apath f 0 (p ++ [off1 f s + t]) (dst a)).
  { apply apath_app. exists s. split; auto. rewrite <- A3 at 1. apply (ap_cons f _ a); auto. constructor. }
  destruct (path_sum_In _ _ _ _ _ _ (Fw_sum fs WF TS scores k f true (dst a) Hk ltac:(lia)) PA W') as (z & -> & _). cbn [expo]. apply exp_pos.
Qed.

Variables (bn : Z -> Z) (nb : Z).
Hypothesis BN : forall s, 0 <= s < zlen f -> 0 <= bn s < nb.
Hypothesis BU : forall a, In a (all_arcs f) -> bn (src a) < bn (dst a).

Lemma walk_ok gpu fuel : forall s p, 0 <= s < zlen f -> (0 < eF s)%R -> (0 < eB s)%R -> (0 <= p < 1)%R -> nb - bn s <= Z.of_nat fuel ->
  exists pi lo, rp_walk gpu (flat_vec fs) (tab (zlen (concat Ss)) (cd Ss post)) O (O + zlen f - 1) fuel (O + s) p = Some (map (fun j => abase fs k + j) pi) /\
    apath f s pi fin /\ path_sum true w (fun p' => apath f s p' fin /\ lex_lt p' pi) lo /\ (expo lo <= p * eB s < expo lo + expo (pweight w pi))%R /\ zlen pi <= nb - 1 - bn s.
Proof.
  induction fuel as [|fuel IH]; intros s p Hs PF PB Pp HF; [specialize (BN s Hs); lia|]. cbn [rp_walk].
  change (v_rs2 (flat_vec fs)) with (splits_of Ss). change (v_arcs (flat_vec fs)) with (concat Ss). destruct (rd_in_bound f s Hs) as (r & Hr). pose proof (rd_Ss s r Hr) as HS.
  destruct (row_splits_at Ss (O + s) r HS) as (RS1 & RS2). specialize (BN s Hs). destruct (Z.eq_dec s fin) as [EF|NF].
  - (* final *)
    assert (RN : r = []).
    { destruct r as [|a r]; auto. exfalso. destruct (row_arc s (a :: r) 0 Hr ltac:(rewrite zlen_cons; pose proof (zlen_nonneg r); lia)) as (a' & _ & A2 & A3 & A4 & _). unfold nstates in *. lia. }
    assert (G : apath f s [] fin /\ path_sum true w (fun p' => apath f s p' fin /\ lex_lt p' []) None /\ (expo None <= p * eB s < expo None + expo (pweight w []))%R /\ zlen (@nil Z) <= nb - 1 - bn s).
    { split; [rewrite EF; constructor|]. split; [apply path_sum_empty; intros p' (_ & H); destruct p'; exact H|]. split; [|change (zlen (@nil Z)) with 0; lia]. rewrite EF, Bw_final by lia. cbn [expo pweight fold_right lzero]. rewrite exp_0. lra. }
    exists [], None. split; auto. destruct gpu; cbn [negb andb].
    + rewrite RS1, RS2. subst r. change (zlen (@nil arc)) with 0. replace (off1 Ss (O + s) + 0 - off1 Ss (O + s) =? 0) with true by lia. replace (O + zlen f - 1) with (O + s) by (unfold nstates in *; lia). now rewrite RS1, Z.eqb_refl.
    + unfold nstates in EF. now replace (O + s =? O + zlen f - 1) with true by lia.
  - assert (LR : 0 < zlen r).
    { pose proof (zlen_nonneg r). destruct (Z.eq_dec (zlen r) 0) as [Z0|]; [|lia]. exfalso. rewrite (Bw_first s r Hr NF) in PB. rewrite Z0 in PB. unfold wb in PB. change (zrange 0) with (@nil Z) in PB. rewrite sumf_nil in PB. lra. }
    assert (NZ : PP Ss post (O + s) <> 0%R).
    { rewrite (PP_row s r Hr NF). apply Rgt_not_eq. apply Rmult_lt_0_compat; auto. apply Rmult_lt_0_compat; auto. now apply Rinv_0_lt_compat. }
    replace (negb gpu && (O + s =? O + zlen f - 1)) with false by (unfold nstates in *; lia). rewrite RS1, RS2. replace (gpu && (off1 Ss (O + s) + zlen r - off1 Ss (O + s) =? 0)) with false by lia.
    replace (off1 Ss (O + s) <? off1 Ss (O + s) + zlen r) with true by lia.
    destruct (choose_ok Ss post (O + s) r HS NZ gpu p LR Pp) as (t & -> & Bt & HC). rewrite (interval_ok Ss post (O + s) r HS NZ t Bt). cbn [fst snd].
    destruct (row_arc s r t Hr Bt) as (a & A1 & A2 & A3 & A4 & A5). destruct (rd_concat_off Ss (O + s) r t a HS A1) as (-> & _).
    assert (D : darc s t = dst a) by (unfold darc; now rewrite A2).
    pose proof (CC_row s r t Hr NF PF PB ltac:(lia)) as C1. pose proof (CC_row s r (t + 1) Hr NF PF PB ltac:(lia)) as C2. rewrite wb_S, D in C2 by lia.
    set (c0 := CC Ss post (O + s) t) in *. set (c1 := CC Ss post (O + s) (t + 1)) in *. set (W := expo (w (off1 f s + t))) in *.
    assert (DW : ((c1 - c0) * eB s = W * eB (dst a))%R) by lra.
    assert (PW : (0 < W * eB (dst a))%R) by (rewrite <- DW; apply Rmult_lt_0_compat; lra).
    assert (W0 : (0 < W)%R). { pose proof (expo_nonneg (w (off1 f s + t))) as N1. fold W in N1. destruct (Req_EM_T W 0) as [Z0|]; [rewrite Z0 in PW; lra|lra]. }
    assert (B0 : (0 < eB (dst a))%R). { pose proof (expo_nonneg (Bw fs scores true (O + dst a))) as N1. destruct (Req_EM_T (eB (dst a)) 0) as [Z0|]; [rewrite Z0 in PW; lra|lra]. }
    assert (F0 : (0 < eF (dst a))%R) by (rewrite <- D; now apply (eF_next s r t)).
    set (p2 := ((p - c0) / (c1 - c0))%R). assert (P2 : (0 <= p2 < 1)%R).
    { unfold p2. split; [apply Rmult_le_pos; [lra|left; apply Rinv_0_lt_compat; lra]|]. apply (Rmult_lt_reg_r (c1 - c0)); [lra|]. replace ((p - c0) / (c1 - c0) * (c1 - c0))%R with (p - c0)%R by (field; lra). lra. }
    pose proof (BU a (rd_In _ _ _ A2)) as BA. rewrite A3 in BA.
    destruct (IH (dst a) p2 ltac:(lia) F0 B0 P2 ltac:(lia)) as (pi & lo & E & PA & PS & (L1 & L2) & LN). replace (dst a + O) with (O + dst a) by lia. rewrite E.
    destruct (first_sum s r Hr (Z.to_nat t) ltac:(lia)) as (x & X1 & X2). replace (Z.of_nat (Z.to_nat t)) with t in * by lia.
    exists (off1 f s + t :: pi), (splus true x (ladd (w (off1 f s + t)) lo)). split; [cbn [map]; now rewrite A5|]. split; [rewrite <- A3 at 1; now apply (ap_cons f _ a)|]. split; [|split].
    + eapply path_sum_ext; [|apply path_sum_or; [|exact X1|apply (path_sum_cons true w (off1 f s + t)); exact PS]].
      * intros p'. rewrite (apath_first s r p' Hr NF). split.
        -- intros [(i & p3 & Bi & -> & H)|(p3 & -> & H & HL)]; (split; [eexists _, _; split; [|split; [reflexivity|]]; [lia|rewrite ?D; eauto]|]); cbn [lex_lt]; [left; lia|right; auto].
        -- intros ((i & p3 & Bi & -> & H) & HL). cbn [lex_lt] in HL. destruct HL as [HL | (HE & HL)]; [left; exists i, p3; split; auto; lia|]. right. exists p3. replace i with t in * by lia. rewrite D in H. auto.
      * intros p' (i & p3 & Bi & -> & _) (p4 & E4 & _). injection E4. lia.
    + change (splus true) with (logadd None). rewrite logadd_exact, expo_ladd, X2. cbn [pweight fold_right]. fold (pweight w pi). rewrite expo_ladd. fold W. rewrite <- C1.
      assert (Q : ((p - c0) * eB s = W * (p2 * eB (dst a)))%R).
      { unfold p2. apply (Rmult_eq_reg_r (c1 - c0)); [|lra]. transitivity ((p - c0) * ((c1 - c0) * eB s))%R; [lra|]. rewrite DW. field. lra. }
      assert (Q1 : (W * expo lo <= W * (p2 * eB (dst a)))%R) by (apply Rmult_le_compat_l; lra). assert (Q2 : (W * (p2 * eB (dst a)) < W * (expo lo + expo (pweight w pi)))%R) by (apply Rmult_lt_compat_l; lra). lra.
    + rewrite zlen_cons. lia.
Qed.
End Walk.
