(** * Proofs: the forward and backward passes compute sums over paths. *)
From Coq Require Import ZArith List Lia Lra Bool Reals Permutation.
From Coq Require Import ZifyBool ZifyNat.
From Verif Require Import Base RaggedModel RaggedSpec RaggedProofs FsaSpec FsaLemmas EpsLoopProofs RaggedOpsModel RaggedOpsSpec RaggedOpsProofs RaggedCatProofs
  GraphProofs PropsSpec PropsProofs PropsProps ReverseModel ReverseProofs ReverseProps ConnectSpec ConnectProofs ExtractProofs ConnectRun TopSortProofs TopSortRun LogReal
  BatchModel TransposeProofs BatchProps ScoreModel ScoreSpec PathSums ScoreProofs.
Import ListNotations.
Open Scope Z_scope.

Lemma zrange_split n pre m post : zrange n = pre ++ m :: post -> m = zlen pre /\ (forall x, In x pre <-> 0 <= x < m).
Proof.
  intros E. assert (B : 0 <= zlen pre < n).
  { assert (zlen (zrange n) = zlen pre + (1 + zlen post)) by now rewrite E, zlen_app, zlen_cons. pose proof (zlen_nonneg pre). pose proof (zlen_nonneg post). destruct (Z.le_gt_cases 0 n).
    - rewrite zlen_zrange in H by lia. lia.
    - unfold zrange in H. replace (Z.to_nat n) with 0%nat in H by lia. change (zlen (map Z.of_nat (seq 0 0))) with 0 in H. lia. }
  assert (M : m = zlen pre).
  { pose proof (rd_zrange n (zlen pre) B) as H. rewrite E in H. rewrite rd_app_r in H by lia. rewrite Z.sub_diag, rd_cons_0 in H. congruence. }
  split; auto. rewrite M. intros x. split.
  - intros H. apply In_rd in H as (i & Bi & Hi). assert (H : rd (zrange n) i = Some x) by (rewrite E, rd_app_l by lia; auto). rewrite rd_zrange in H by lia. injection H as <-. lia.
  - intros H. pose proof (rd_zrange n x ltac:(lia)) as R. rewrite E, rd_app_l in R by lia. eapply rd_In; eauto.
Qed.

Lemma argmax_loop_fst vals : forall qs v i, length vals = length qs -> fst (argmax_loop vals qs v i) = fold_left lmax vals v.
Proof.
  induction vals as [|e vals IH]; intros [|q qs] v i H; try discriminate; [reflexivity|]. injection H as H. cbn [argmax_loop fold_left].
  assert (E : lmax v e = if lge e v then e else v).
  { destruct v as [a|], e as [b|]; cbn; auto. destruct (Rle_dec a b); f_equal; [now apply Rmax_right|apply Rmax_left; lra]. }
  rewrite E. destruct (lge e v); now apply IH.
Qed.
Lemma reduce_fw_sum l vals qs : length vals = length qs -> fst (reduce_fw l vals qs) = ssum l vals.
Proof.
  intros H. unfold reduce_fw. destruct l.
  - cbn [fst]. change (logadd None) with (splus true). now rewrite fold_left_ssum, splus_None.
  - rewrite argmax_loop_fst by auto. change lmax with (splus false). now rewrite fold_left_ssum, splus_None.
Qed.
Lemma reduce_bw_sum l vals qs : fst (reduce_bw l vals qs) = ssum l vals.
Proof. unfold reduce_bw. destruct l; cbn [fst]; [change (logadd None) with (splus true)|change lmax with (splus false)]; now rewrite fold_left_ssum, splus_None. Qed.

Section Run.
Variable fs : list nfsa.
Hypothesis WF : Forall well_formed fs.
Hypothesis TS : Forall p_topsorted_acyclic fs.
Hypothesis SM : zlen (concat fs) <= int_max - 1.
Notation Sn := (zlen (concat fs)).
Notation An := (zlen (concat (concat fs))).
Notation B := (sbatches fs).
Notation v := (flat_vec fs).
Variable scores : list (option R).

Definition sw (q : Z) : option R := match rd scores q with Some x => x | None => None end.
Definition is_start (s : Z) : bool := existsb (fun k => match rd fs k with Some f => (0 <? zlen f) && (s =? off1 fs k) | None => false end) (zrange (zlen fs)).
Definition is_final (s : Z) : bool := existsb (fun k => match rd fs k with Some f => (0 <? zlen f) && (s =? off1 fs k + zlen f - 1) | None => false end) (zrange (zlen fs)).

Lemma is_start_iff s : is_start s = true <-> exists k f, rd fs k = Some f /\ 0 < zlen f /\ s = off1 fs k.
Proof using. clear.
  unfold is_start. rewrite existsb_exists. split.
  - intros (k & _ & H). destruct (rd fs k) as [f|] eqn:E; [|discriminate]. exists k, f. repeat split; auto; lia.
  - intros (k & f & H & L & ->). exists k. split; [apply in_zrange; now apply rd_Some_bound in H|]. rewrite H. lia.
Qed.
Lemma is_final_iff s : is_final s = true <-> exists k f, rd fs k = Some f /\ 0 < zlen f /\ s = off1 fs k + zlen f - 1.
Proof using. clear.
  unfold is_final. rewrite existsb_exists. split.
  - intros (k & _ & H). destruct (rd fs k) as [f|] eqn:E; [|discriminate]. exists k, f. repeat split; auto; lia.
  - intros (k & f & H & L & ->). exists k. split; [apply in_zrange; now apply rd_Some_bound in H|]. rewrite H. lia.
Qed.
Lemma is_start_at k f i : rd fs k = Some f -> 0 <= i < zlen f -> is_start (off1 fs k + i) = (i =? 0).
Proof using. clear.
  intros Hk Hi. destruct (is_start (off1 fs k + i)) eqn:E.
  - apply is_start_iff in E as (k' & f' & Hk' & L & E). destruct (row_unique fs k f i k' f' 0 Hk Hk' Hi ltac:(lia) ltac:(lia)) as (_ & E' & _). lia.
  - destruct (Z.eq_dec i 0) as [->|]; [|lia]. assert (H : is_start (off1 fs k + 0) = true) by (apply is_start_iff; exists k, f; repeat split; auto; lia). congruence.
Qed.
Lemma is_final_at k f i : rd fs k = Some f -> 0 <= i < zlen f -> is_final (off1 fs k + i) = (i =? zlen f - 1).
Proof using. clear.
  intros Hk Hi. destruct (is_final (off1 fs k + i)) eqn:E.
  - apply is_final_iff in E as (k' & f' & Hk' & L & E). destruct (row_unique fs k f i k' f' (zlen f' - 1) Hk Hk' Hi ltac:(lia) ltac:(lia)) as (_ & E' & <-). lia.
  - destruct (Z.eq_dec i (zlen f - 1)) as [->|]; [|lia]. assert (H : is_final (off1 fs k + (zlen f - 1)) = true) by (apply is_final_iff; exists k, f; repeat split; auto; lia). congruence.
Qed.

(** forward: arcs go up *)
Lemma q_up q : 0 <= q < An -> 0 <= srcq fs q < dstq fs q /\ dstq fs q < Sn.
Proof using WF TS. clear SM.
  intros Hq. destruct (arc_q fs WF q Hq) as (k & f & j & a & Hk & Ha & -> & B1 & B2 & -> & -> & _ & _ & R1 & R2). rewrite Forall_forall in TS.
  pose proof (TS f (rd_In _ _ _ Hk) a (rd_In _ _ _ Ha)). lia.
Qed.
Lemma SO : Forall src_ok fs.
Proof. eapply Forall_impl; [|exact WF]. now intros f (H & _). Qed.
Lemma DO : Forall (fun f => forall a, In a (all_arcs f) -> 0 <= dst a < nstates f) fs.
Proof. eapply Forall_impl; [|exact WF]. now intros f (_ & H). Qed.

Definition rk (s : Z) : nat := Z.to_nat s.
Definition rk' (s : Z) : nat := Z.to_nat (Sn - s).
Lemma RK q : 0 <= q < An -> (rk (srcq fs q) < rk (dstq fs q))%nat.
Proof using WF TS. clear SM. intros H. pose proof (q_up q H). unfold rk. lia. Qed.
Lemma RK' q : 0 <= q < An -> (rk' (dstq fs q) < rk' (srcq fs q))%nat.
Proof using WF TS. clear SM. intros H. pose proof (q_up q H). unfold rk'. lia. Qed.
Definition Fw (l : bool) : Z -> option R := tot_to An (srcq fs) (dstq fs) rk is_start l sw.
Definition Bw (l : bool) : Z -> option R := tot_to An (dstq fs) (srcq fs) rk' is_final l sw.

Lemma bucket_inarcs s : bucket (gdest fs) s (zlen (gdest fs)) = inarcs An (dstq fs) s.
Proof.
  unfold bucket, inarcs. rewrite zlen_gdest. apply filter_ext_in. intros q Hq. apply in_zrange in Hq. destruct (arc_q fs WF q Hq) as (k & f & j & a & H). now replace (rd (gdest fs) q) with (Some (dstq fs q)) by (symmetry; apply H).
Qed.
Lemma start_no_arcs s : 0 <= s < Sn -> is_start s = true -> inarcs An (dstq fs) s = [].
Proof.
  intros Hs H. destruct (inarcs An (dstq fs) s) as [|q l] eqn:E; auto. exfalso. assert (I : In q (inarcs An (dstq fs) s)) by (rewrite E; now left). apply in_inarcs in I as (Hq & D).
  apply is_start_iff in H as (k & f & Hk & L & ->). destruct (arc_q fs WF q Hq) as (k' & f' & j & a & Hk' & Ha & -> & B1 & B2 & S1 & S2 & _).
  rewrite S2 in D. destruct (row_unique fs k' f' (dst a) k f 0 Hk' Hk ltac:(lia) ltac:(lia) ltac:(lia)) as (-> & E0 & ->). rewrite Forall_forall in TS. pose proof (TS f (rd_In _ _ _ Hk) a (rd_In _ _ _ Ha)). lia.
Qed.
Lemma final_no_arcs s : 0 <= s < Sn -> is_final s = true -> inarcs An (srcq fs) s = [].
Proof.
  intros Hs H. destruct (inarcs An (srcq fs) s) as [|q l] eqn:E; auto. exfalso. assert (I : In q (inarcs An (srcq fs) s)) by (rewrite E; now left). apply in_inarcs in I as (Hq & D).
  apply is_final_iff in H as (k & f & Hk & L & ->). destruct (arc_q fs WF q Hq) as (k' & f' & j & a & Hk' & Ha & -> & B1 & B2 & S1 & S2 & _).
  rewrite S1 in D. destruct (row_unique fs k' f' (src a) k f (zlen f - 1) Hk' Hk ltac:(lia) ltac:(lia) ltac:(lia)) as (-> & E0 & ->). rewrite Forall_forall in TS. pose proof (TS f (rd_In _ _ _ Hk) a (rd_In _ _ _ Ha)). lia.
Qed.

Lemma arow_inarcs s : 0 <= s < Sn -> Permutation (arow fs s) (inarcs An (srcq fs) s).
Proof.
  intros Hs. apply NoDup_Permutation.
  - destruct (state_pos fs s Hs) as (k & f & i & st & Hk & Hf & -> & _). rewrite (arow_at fs k f i st Hk Hf). apply FinFun.Injective_map_NoDup; [intros x y; lia|apply NoDup_zrange].
  - apply NoDup_filter, NoDup_zrange.
  - intros q. rewrite in_inarcs. destruct (state_pos fs s Hs) as (k & f & i & st & Hk & Hf & -> & Bi). rewrite (arow_at fs k f i st Hk Hf), in_map_iff. split.
    + intros (j & <- & Hj). apply in_zrange in Hj. destruct (rd_in_bound st j Hj) as (a & Ha). destruct (rd_concat_off f i st j a Hf Ha) as (C1 & _).
      destruct (arc_kj fs WF k f (off1 f i + j) a Hk C1) as (A1 & A2 & _). replace (abase fs k + off1 f i + j) with (abase fs k + (off1 f i + j)) by lia. split; auto. rewrite A2.
      pose proof SO as SO'. rewrite Forall_forall in SO'. now rewrite (SO' f (rd_In _ _ _ Hk) i st a Hf (rd_In _ _ _ Ha)).
    + intros (Hq & E). destruct (arc_q fs WF q Hq) as (k' & f' & j & a & Hk' & Ha & -> & B1 & B2 & S1 & S2 & _). rewrite S1 in E.
      destruct (row_unique fs k' f' (src a) k f i Hk' Hk ltac:(lia) ltac:(lia) ltac:(lia)) as (-> & E0 & ->).
      destruct (rd_concat_inv _ _ _ Ha) as (r & st' & j' & R1 & R2 & -> & _). pose proof SO as SO'. rewrite Forall_forall in SO'. pose proof (SO' f (rd_In _ _ _ Hk) r st' a R1 (rd_In _ _ _ R2)).
      replace r with i in * by lia. replace st' with st in * by congruence. exists j'. split; [lia|]. apply in_zrange. now apply rd_Some_bound in R2.
Qed.

Lemma state_batch k f i : rd fs k = Some f -> 0 <= i < zlen f -> exists m, 0 <= m < zlen B /\ in_batch B m k (off1 fs k + i) /\ In (off1 fs k + i) (row_states B m).
Proof.
  intros Hk Hi. pose proof (state_range fs k f i Hk Hi) as R. assert (I : In (off1 fs k + i) (concat (concat B))) by (apply (Permutation_in _ (Permutation_sym (sbatches_perm fs WF TS SM))), in_zrange; exact R).
  apply in_concat in I as (c & Hc & I). apply in_concat in Hc as (row & Hr & Hc). apply In_rd in Hr as (m & Bm & Hm). apply In_rd in Hc as (k' & Bk & Hk').
  assert (IB : in_batch B m k' (off1 fs k + i)) by (exists row; split; auto; unfold pick; now rewrite Hk').
  destruct (sbatches_range fs WF TS SM m k' _ IB) as (f' & Hf' & Rg). destruct (row_unique fs k f i k' f' (off1 fs k + i - off1 fs k') Hk Hf' Hi ltac:(lia) ltac:(lia)) as (<- & _ & _).
  exists m. repeat split; auto; try lia. unfold row_states, pick. rewrite Hm. apply in_concat. exists c. split; auto. eapply rd_In; eauto.
Qed.
Lemma row_states_batch m k f i : rd fs k = Some f -> 0 <= i < zlen f -> In (off1 fs k + i) (row_states B m) -> in_batch B m k (off1 fs k + i).
Proof.
  intros Hk Hi H. unfold row_states in H. unfold pick in H. destruct (rd B m) as [row|] eqn:Hm; [|now destruct H]. apply in_concat in H as (c & Hc & I). apply In_rd in Hc as (k' & Bk & Hk').
  assert (IB : in_batch B m k' (off1 fs k + i)) by (exists row; split; auto; unfold pick; now rewrite Hk').
  destruct (sbatches_range fs WF TS SM m k' _ IB) as (f' & Hf' & Rg). destruct (row_unique fs k f i k' f' (off1 fs k + i - off1 fs k') Hk Hf' Hi ltac:(lia) ltac:(lia)) as (<- & _ & _). exact IB.
Qed.
Lemma batch_lt q m : 0 <= q < An -> In (dstq fs q) (row_states B m) -> exists m', 0 <= m' < m /\ In (srcq fs q) (row_states B m').
Proof.
  intros Hq H. destruct (arc_q fs WF q Hq) as (k & f & j & a & Hk & Ha & -> & B1 & B2 & S1 & S2 & _). rewrite S1. rewrite S2 in H. apply (row_states_batch m k f) in H; auto.
  destruct (state_batch k f (src a) Hk B1) as (m' & Bm' & IB & IR). exists m'. split; auto. split; [lia|]. eapply (sbatches_order fs WF TS SM k f a); eauto. eapply rd_In; eauto.
Qed.
Lemma batch_gt q m : 0 <= q < An -> In (srcq fs q) (row_states B m) -> exists m', m < m' < zlen B /\ In (dstq fs q) (row_states B m').
Proof.
  intros Hq H. destruct (arc_q fs WF q Hq) as (k & f & j & a & Hk & Ha & -> & B1 & B2 & S1 & S2 & _). rewrite S2. rewrite S1 in H. apply (row_states_batch m k f) in H; auto.
  destruct (state_batch k f (dst a) Hk B2) as (m' & Bm' & IB & IR). exists m'. split; auto. split; [|lia]. eapply (sbatches_order fs WF TS SM k f a); eauto. eapply rd_In; eauto.
Qed.
Lemma all_done s ms : 0 <= s < Sn -> (forall m, 0 <= m < zlen B -> In m ms) -> done B ms s = true.
Proof.
  intros Hs H. destruct (state_pos fs s Hs) as (k & f & i & st & Hk & Hf & -> & Bi). destruct (state_batch k f i Hk Bi) as (m & Bm & _ & I). unfold done. apply existsb_exists. exists m. split; auto.
  destruct (in_dec Z.eq_dec (off1 fs k + i) (row_states B m)); auto.
Qed.

Lemma states_in_range s : In s (concat (concat B)) -> 0 <= s < Sn.
Proof. intros H. apply in_zrange. apply (Permutation_in _ (sbatches_perm fs WF TS SM)). exact H. Qed.
Lemma states_perm_pick (Rw : list (list Z)) (g : Z -> list Z) : zlen Rw = Sn -> (forall s, 0 <= s < Sn -> pick Rw s = g s) -> map (pick Rw) (concat (concat B)) = map g (concat (concat B)).
Proof. intros L H. apply map_ext_in. intros s Hs. apply H. now apply states_in_range. Qed.

Hypothesis LS : zlen scores = An.
Variables (lp : nat) (sched : list Z) (ord : Z -> list Z).
Hypothesis SC : is_sched (zlen fs * 2 ^ Z.of_nat lp) sched.
Hypothesis FO : fair ord.

Definition went (l : bool) (s : Z) : Z := snd (reduce_fw l (map (fun q => ladd (Fw l (srcq fs q)) (sw q)) (inarcs An (dstq fs) s)) (inarcs An (dstq fs) s)).

Theorem forward_run l : get_forward_scores l lp sched ord v scores = Some (tab Sn (Fw l), tab Sn (went l)).
Proof.
  unfold get_forward_scores. rewrite (sbatches_run fs WF TS SM lp sched SC).
  change (v_rs1 v) with (splits_of fs). change (v_rs2 v) with (splits_of (concat fs)). change (v_arcs v) with (concat (concat fs)).
  rewrite !zlen_splits_of. replace (Sn + 1 - 1) with Sn by lia. rewrite !row_ids_of_splits. rewrite (dest_states_ok fs SO DO).
  rewrite (incoming_arcs_ok Sn (gdest fs)) by (apply zlen_nonneg || apply (gdest_range fs SO DO)).
  set (Rw := buckets (gdest fs) Sn). assert (LR : zlen Rw = Sn) by (unfold Rw, buckets; rewrite zlen_tab; auto; apply zlen_nonneg).
  assert (PB : Permutation (concat (concat B)) (zrange (zlen Rw))) by (rewrite LR; apply (sbatches_perm fs WF TS SM)).
  assert (PK : forall s, 0 <= s < Sn -> pick Rw s = inarcs An (dstq fs) s).
  { intros s Hs. unfold pick, Rw, buckets. rewrite rd_tab by lia. apply bucket_inarcs. }
  rewrite (entering_arc_batches_ok v Rw); auto.
  2:{ change (v_rs2 v) with (splits_of (concat fs)). rewrite zlen_splits_of. lia. }
  2:{ change (v_arcs v) with (concat (concat fs)). symmetry. exact (zlen_concat_B fs SO DO). }
  rewrite (states_perm_pick Rw _ LR PK).
  rewrite (init_scores_ok fs ord (fun b _ => b) is_start FO).
  2:{ intros. lia. }
  2:{ intros s Hs. apply is_start_iff. }
  change (l_rs (lay B)) with (splits_of B). change (l_rs (lay (concat B))) with (splits_of (concat B)). rewrite zlen_splits_of. replace (zlen B + 1 - 1) with (zlen B) by lia.
  pose proof (zlen_nonneg (concat fs)) as N0.
  set (g := inarcs An (dstq fs)).
  assert (IR : forall s q, In q (g s) -> 0 <= q < An /\ dstq fs q = s) by (intros s q H; now apply in_inarcs).
  pose proof (pass_ok Sn B g (reduce_fw l) ord (rd (ids_of (concat fs))) (fun s => k <- rd (ids_of fs) s;; b <- rd (splits_of fs) k;; Some (s =? b)) (srcq fs) is_start scores sw N0 states_in_range FO) as P.
  specialize (P ltac:(intros s Hs; destruct (state_pos fs s Hs) as (k & f & i & st & Hk & Hf & -> & Bi); destruct (rd_concat_off fs k f i st Hk Hf) as (_ & ->); rewrite rd_splits_off by (apply rd_Some_bound in Hk; lia);
    rewrite (is_start_at k f i Hk Bi); f_equal; lia)).
  specialize (P ltac:(intros s q Hs H; apply IR in H as (Hq & _); destruct (arc_q fs WF q Hq) as (k & f & j & a & _ & _ & _ & _ & _ & _ & _ & E1 & _ & E2 & _); split; [exact E1|]; split; [exact E2|];
    unfold sw; destruct (rd_in_bound scores q ltac:(lia)) as (x & ->); reflexivity)).
  specialize (P (Fw l)).
  assert (RGE : forall s, fst (RG g (reduce_fw l) (srcq fs) sw (Fw l) s) = ssum l (map (fun q => ladd (Fw l (srcq fs q)) (sw q)) (g s))) by (intros s; unfold RG; apply reduce_fw_sum; now rewrite map_length).
  assert (FR : forall s, Fw l s = splus l (if is_start s then lzero else None) (ssum l (map (fun q => ladd (Fw l (srcq fs q)) (sw q)) (g s)))) by (intros s; unfold Fw at 1; now rewrite (tot_to_rec An (srcq fs) (dstq fs) rk is_start RK)).
  specialize (P ltac:(intros s Hs H; rewrite RGE, FR, H; unfold g; rewrite start_no_arcs by auto; cbn [map ssum fold_right]; split; [now destruct l|reflexivity])).
  specialize (P ltac:(intros s Hs H; rewrite RGE, FR, H; apply splus_None)).
  specialize (P (zrange (zlen B)) ltac:(intros m Hm; now apply in_zrange)).
  specialize (P ltac:(intros pre m post s q E Hs Hq; apply zrange_split in E as (_ & E); apply IR in Hq as (Hq & <-); destruct (batch_lt q m Hq Hs) as (m' & Bm & I);
    unfold done; apply existsb_exists; exists m'; split; [now apply E|]; destruct (in_dec Z.eq_dec (srcq fs q) (row_states B m')); auto)).
  assert (D : forall s, 0 <= s < Sn -> done B (zrange (zlen B)) s = true) by (intros s Hs; apply all_done; auto; intros; now apply in_zrange).
  rewrite (tab_ext Sn (stv_of B is_start (Fw l) (zrange (zlen B))) (Fw l)) in P by (intros s Hs; unfold stv_of; now rewrite D).
  rewrite (tab_ext Sn (env_of B g (reduce_fw l) (srcq fs) sw (Fw l) (zrange (zlen B))) (went l)) in P by (intros s Hs; unfold env_of; now rewrite D).
  rewrite <- P. f_equal. f_equal. unfold env_of. cbn [done existsb]. symmetry. apply list_ext_rd; [rewrite zlen_tab, zlen_repeat by lia; lia|]. intros s Hs. rewrite zlen_tab in Hs by lia. rewrite rd_tab by lia. symmetry. apply rd_repeat. lia.
Qed.

Theorem backward_run l : get_backward_scores l lp sched ord v scores = Some (tab Sn (Bw l)).
Proof.
  unfold get_backward_scores. rewrite (sbatches_run fs WF TS SM lp sched SC).
  change (v_rs1 v) with (splits_of fs). change (v_rs2 v) with (splits_of (concat fs)). change (v_arcs v) with (concat (concat fs)).
  rewrite !zlen_splits_of. replace (Sn + 1 - 1) with Sn by lia. rewrite !row_ids_of_splits.
  set (Rw := idx_rows (concat fs)). assert (LR : zlen Rw = Sn) by (unfold Rw; rewrite <- (zlen_map zlen), zlen_idx_rows; apply zlen_map).
  assert (PB : Permutation (concat (concat B)) (zrange (zlen Rw))) by (rewrite LR; apply (sbatches_perm fs WF TS SM)).
  assert (PK : forall s, 0 <= s < Sn -> pick Rw s = arow fs s) by reflexivity.
  rewrite (leaving_arc_batches_ok v Rw); auto.
  2:{ change (v_rs2 v) with (splits_of (concat fs)). unfold splits_of, Rw. now rewrite zlen_idx_rows. }
  2:{ apply splits_concat_zrange. }
  rewrite (states_perm_pick Rw _ LR PK).
  rewrite (init_scores_ok fs ord (fun _ e => e - 1) is_final FO).
  2:{ intros. lia. }
  2:{ intros s Hs. apply is_final_iff. }
  change (l_rs (lay B)) with (splits_of B). change (l_rs (lay (concat B))) with (splits_of (concat B)). rewrite zlen_splits_of. replace (zlen B + 1 - 1) with (zlen B) by lia.
  pose proof (zlen_nonneg (concat fs)) as N0.
  set (g := arow fs).
  assert (IR : forall s q, 0 <= s < Sn -> In q (g s) -> 0 <= q < An /\ srcq fs q = s) by (intros s q Hs H; apply in_inarcs; eapply Permutation_in; [now apply arow_inarcs|exact H]).
  pose proof (pass_ok Sn B g (reduce_bw l) ord (fun q => a <- rd (concat (concat fs)) q;; s01 <- rd (ids_of (concat fs)) q;; Some (s01 - src a + dst a))
     (fun s => k <- rd (ids_of fs) s;; e <- rd (splits_of fs) (k + 1);; Some (s + 1 =? e)) (dstq fs) is_final scores sw N0 states_in_range FO) as P.
  specialize (P ltac:(intros s Hs; destruct (state_pos fs s Hs) as (k & f & i & st & Hk & Hf & -> & Bi); destruct (rd_concat_off fs k f i st Hk Hf) as (_ & ->); rewrite rd_splits_off by (apply rd_Some_bound in Hk; lia);
    rewrite (is_final_at k f i Hk Bi), (off1_next _ _ _ Hk); f_equal; lia)).
  specialize (P ltac:(intros s q Hs H; apply IR in H as (Hq & _); auto; destruct (arc_q fs WF q Hq) as (k & f & j & a & Hk & Ha & -> & _ & _ & S1 & S2 & E1 & _ & _ & E2);
    destruct (arc_by_pos fs WF k f j a Hk Ha) as (-> & -> & _); split; [f_equal; lia|]; split; [exact E2|];
    unfold sw; destruct (rd_in_bound scores (abase fs k + j) ltac:(lia)) as (x & ->); reflexivity)).
  specialize (P (Bw l)).
  assert (RGE : forall s, fst (RG g (reduce_bw l) (dstq fs) sw (Bw l) s) = ssum l (map (fun q => ladd (Bw l (dstq fs q)) (sw q)) (g s))) by (intros s; unfold RG; apply reduce_bw_sum).
  assert (FR : forall s, 0 <= s < Sn -> Bw l s = splus l (if is_final s then lzero else None) (ssum l (map (fun q => ladd (Bw l (dstq fs q)) (sw q)) (g s)))).
  { intros s Hs. unfold Bw at 1. rewrite (tot_to_rec An (dstq fs) (srcq fs) rk' is_final RK'). f_equal. apply ssum_perm. apply Permutation_map, Permutation_sym. now apply arow_inarcs. }
  specialize (P ltac:(intros s Hs H; rewrite RGE, FR, H by auto; assert (g s = []) as -> by (apply Permutation_nil; rewrite <- (final_no_arcs s Hs H); apply Permutation_sym; now apply arow_inarcs); cbn [map ssum fold_right]; split; [now destruct l|reflexivity])).
  specialize (P ltac:(intros s Hs H; rewrite RGE, FR, H by auto; apply splus_None)).
  specialize (P (rev (zrange (zlen B))) ltac:(intros m Hm; apply in_rev in Hm; now apply in_zrange)).
  specialize (P ltac:(intros pre m post s q E Hs Hq;
    assert (Rs : 0 <= s < Sn) by (apply states_in_range; unfold row_states, pick in Hs; destruct (rd B m) as [row|] eqn:Hm; [|now destruct Hs]; apply in_concat in Hs as (c & Hc & I); apply in_concat; exists c; split; auto; apply in_concat; exists row; split; auto; eapply rd_In; eauto);
    apply IR in Hq as (Hq & <-); auto; destruct (batch_gt q m Hq Hs) as (m' & Bm & I);
    unfold done; apply existsb_exists; exists m'; split; [|destruct (in_dec Z.eq_dec (dstq fs q) (row_states B m')); auto];
    assert (E' : zrange (zlen B) = rev post ++ m :: rev pre) by (rewrite <- (rev_involutive (zrange (zlen B))), E, rev_app_distr; cbn [rev]; now rewrite <- app_assoc);
    pose proof (zrange_split _ _ _ _ E') as (_ & E2); assert (I' : In m' (zrange (zlen B))) by (apply in_zrange; assert (In m (zrange (zlen B))) by (rewrite E'; apply in_or_app; right; now left); rewrite in_zrange in *; lia);
    rewrite E' in I'; apply in_app_or in I' as [I' | [I' | I']]; [apply E2 in I'; lia|lia|now apply in_rev])).
  assert (D : forall s, 0 <= s < Sn -> done B (rev (zrange (zlen B))) s = true) by (intros s Hs; apply all_done; auto; intros; rewrite <- in_rev; now apply in_zrange).
  rewrite (tab_ext Sn (stv_of B is_final (Bw l) (rev (zrange (zlen B)))) (Bw l)) in P by (intros s Hs; unfold stv_of; now rewrite D).
  assert (RE : repeat (-1) (Z.to_nat Sn) = tab Sn (env_of B g (reduce_bw l) (dstq fs) sw (Bw l) [])).
  { symmetry. apply list_ext_rd; [rewrite zlen_tab, zlen_repeat by lia; lia|]. intros s Hs. rewrite zlen_tab in Hs by lia. rewrite rd_tab by lia. symmetry. apply rd_repeat. lia. }
  rewrite RE. change (fun s : Z => if is_final s then lzero else None) with (stv_of B is_final (Bw l) []).
  exact (f_equal (fun o : option (list (option R) * list Z) => r <- o;; Some (fst r)) P).
Qed.
End Run.
