(** * C32: batches of states for the forward and backward passes. *)
From Coq Require Import ZArith List Lia Bool Permutation.
From Coq Require Import ZifyBool ZifyNat.
From Verif Require Import Base RaggedModel RaggedSpec RaggedProofs FsaSpec FsaLemmas FsaOpsModel FsaOpsProofs EpsLoopProofs RaggedOpsModel RaggedOpsSpec
  RaggedOpsProofs RaggedCatProofs OpsModel PropsModel PropsSpec PropsProofs PropsProps ReverseModel ReverseProofs ReverseProps ConnectSpec ConnectProofs ExtractProofs ConnectProps TopSortProofs TopSortRun
  BatchModel TransposeProofs BatchProofs BatchRun.
Import ListNotations.
Open Scope Z_scope.

(** states of FSA k in batch m *)
Definition in_batch (B : list (list (list Z))) (m k s : Z) : Prop := exists row, rd B m = Some row /\ In s (pick row k).

Lemma column_ok {A} (x : list (list (list A))) d k r : (forall row, In row x -> zlen row = d) -> 0 <= d -> rd x k = Some r ->
  concat (map (fun row => pick row k) (transposed d x)) = concat r.
Proof.
  intros U Hd Hr. f_equal. apply list_ext_rd; [unfold transposed; rewrite zlen_map, zlen_tab by lia; symmetry; apply U; eapply rd_In; eauto|].
  intros m Hm. unfold transposed in *. rewrite zlen_map, zlen_tab in Hm by lia. rewrite rd_map, rd_tab by lia. cbn [option_map]. unfold pick at 1. rewrite rd_map, Hr. cbn [option_map].
  unfold pick. destruct (rd_in_bound r m) as (c & ->); auto. rewrite (U r); auto. eapply rd_In; eauto.
Qed.
Lemma concat_map_app {A B} (f g : A -> list B) l : Permutation (concat (map (fun k => f k ++ g k) l)) (concat (map f l) ++ concat (map g l)).
Proof.
  induction l as [|a l IH]; [constructor|]. cbn [map concat]. rewrite <- !app_assoc. apply Permutation_app_head. rewrite IH. rewrite !app_assoc. apply Permutation_app_tail. apply Permutation_app_comm.
Qed.
Lemma transposed_perm {A} (x : list (list (list A))) d : (forall row, In row x -> zlen row = d) -> 0 <= d ->
  Permutation (concat (concat (transposed d x))) (concat (concat x)).
Proof.
  intros U Hd. rewrite <- concat_map_concat. unfold transposed. rewrite map_tab.
  assert (G : Permutation (concat (map (fun m => concat (map (fun row => pick row m) x)) (zrange d))) (concat (concat x))).
  { induction x as [|r x IH]; [cbn; induction (zrange d); cbn; auto|]. cbn [map concat]. rewrite concat_app. rewrite concat_map_app. apply Permutation_app.
    - rewrite <- (U r (or_introl eq_refl)). apply Permutation_refl'. f_equal. apply list_ext_rd; [rewrite zlen_map, zlen_zrange; auto; apply zlen_nonneg|].
      intros m Hm. rewrite zlen_map, zlen_zrange in Hm by apply zlen_nonneg. rewrite rd_map, rd_zrange by lia. cbn [option_map]. unfold pick. now destruct (rd_in_bound r m Hm) as (c & ->).
    - apply IH. intros row Hr. apply U. now right. }
  exact G.
Qed.

Section P.
Variable fs : list nfsa.
Hypothesis WF : Forall well_formed fs.
Hypothesis TS : Forall p_topsorted_acyclic fs.
Hypothesis SM : zlen (concat fs) <= int_max - 1.
Let Sn := zlen (concat fs).
Notation X := (batches_of fs).
Definition sbatches : list (list (list Z)) := transposed (max_len X) (pad_rows X).

Lemma pad_pick k m : pick (pick (pad_rows X) k) m = pick (pick X k) m.
Proof.
  unfold pick at 2 4, pad_rows. rewrite rd_map. destruct (rd X k) as [r|]; [|reflexivity]. cbn [option_map]. unfold padded, pick.
  destruct (Z_lt_le_dec m (zlen r)) as [L|L].
  - destruct (Z_lt_le_dec m 0); [now rewrite !(proj2 (rd_None _ _)) by lia|]. now rewrite rd_app_l by lia.
  - rewrite rd_app_r by lia. rewrite (proj2 (rd_None r m)) by lia. destruct (Z_lt_le_dec (m - zlen r) (zlen (repeat (@nil Z) (Z.to_nat (max_len X - zlen r))))) as [L2|L2].
    + rewrite zlen_repeat in L2. rewrite rd_repeat by lia. reflexivity.
    + now rewrite (proj2 (rd_None _ _)) by lia.
Qed.
Lemma max_nonneg : 0 <= max_len X.
Proof. unfold max_len. destruct (RnntProps.fold_max (map zlen X) 0) as (y & _ & <- & H). apply H. now left. Qed.

Lemma in_batch_X m k s : in_batch sbatches m k s <-> exists r st, rd X k = Some r /\ rd r m = Some st /\ In s st.
Proof.
  pose proof max_nonneg as M0. unfold in_batch, sbatches, transposed. split.
  - intros (row & R1 & R2). pose proof (rd_Some_bound _ _ _ R1) as Bm. rewrite zlen_tab in Bm by lia. rewrite rd_tab in R1 by lia. injection R1 as <-.
    assert (E : pick (map (fun row => pick row m) (pad_rows X)) k = pick (pick (pad_rows X) k) m).
    { unfold pick at 1 4. rewrite rd_map. destruct (rd (pad_rows X) k); auto. cbn. unfold pick. now rewrite rd_nil. }
    rewrite E, pad_pick in R2. unfold pick at 2 in R2. destruct (rd X k) as [r|]; [|unfold pick in R2; rewrite rd_nil in R2; destruct R2]. unfold pick in R2.
    destruct (rd r m) as [st|] eqn:Er; [|destruct R2]. eauto.
  - intros (r & st & R1 & R2 & R3). pose proof (rd_Some_bound _ _ _ R2) as Bm. pose proof (max_len_ge X r (rd_In _ _ _ R1)).
    rewrite rd_tab by lia. eexists. split; [reflexivity|].
    assert (E : pick (map (fun row => pick row m) (pad_rows X)) k = pick (pick (pad_rows X) k) m).
    { unfold pick at 1 4. rewrite rd_map. destruct (rd (pad_rows X) k); auto. cbn. unfold pick. now rewrite rd_nil. }
    rewrite E, pad_pick. unfold pick at 2. rewrite R1. unfold pick. now rewrite R2.
Qed.

Lemma sbatches_run lp sched : is_sched (zlen fs * 2 ^ Z.of_nat lp) sched ->
  get_state_batches lp sched (flat_vec fs) = Some (lay sbatches, lay (concat sbatches), concat (concat sbatches)).
Proof.
  intros SC. pose proof max_nonneg as M0. unfold get_state_batches. rewrite (state_batches0_ok fs WF TS SM lp sched SC). rewrite make_transposable_ok. cbn [fst snd].
  rewrite <- (X_values fs WF TS SM), <- pad_rows_values. unfold sbatches. apply transpose3_ok; auto.
  - intros row Hr. now apply pad_rows_len.
  - intros H. apply (f_equal zlen) in H. rewrite zlen_pad_rows in H. change (zlen (@nil (list (list Z)))) with 0 in H. apply zlen_0_nil in H. rewrite H. reflexivity.
Qed.
Lemma sbatches_perm : Permutation (concat (concat sbatches)) (zrange Sn).
Proof.
  unfold sbatches. rewrite transposed_perm; [|intros; now apply pad_rows_len|apply max_nonneg]. rewrite pad_rows_values. unfold Sn. rewrite (X_values fs WF TS SM). reflexivity.
Qed.
Lemma sbatches_row row : In row sbatches -> zlen row = zlen fs.
Proof.
  intros H. unfold sbatches, transposed in H. apply In_rd in H as (m & Bm & Hm). rewrite zlen_tab in Bm by apply max_nonneg. rewrite rd_tab in Hm by lia. injection Hm as <-.
  rewrite zlen_map, zlen_pad_rows. apply zlen_X.
Qed.
Lemma sbatches_column k f : rd fs k = Some f -> concat (map (fun row => pick row k) sbatches) = map (fun i => off1 fs k + i) (zrange (zlen f)).
Proof.
  intros Hk. unfold sbatches. rewrite (column_ok (pad_rows X) (max_len X) k (padded (max_len X) (ivs fs k f))).
  - unfold padded. rewrite concat_app. replace (concat (repeat (@nil Z) (Z.to_nat (max_len X - zlen (ivs fs k f))))) with (@nil Z); [rewrite app_nil_r; now apply ivs_concat|].
    induction (Z.to_nat (max_len X - zlen (ivs fs k f))); auto.
  - intros; now apply pad_rows_len.
  - apply max_nonneg.
  - unfold pad_rows. now rewrite rd_map, (rd_X fs k f Hk).
Qed.
Lemma sbatches_range m k s : in_batch sbatches m k s -> exists f, rd fs k = Some f /\ off1 fs k <= s < off1 fs k + zlen f.
Proof.
  intros H. pose proof (proj1 (in_batch_X m k s) H) as (r & st & R1 & R2 & R3). pose proof (rd_Some_bound _ _ _ R1) as Bk. rewrite zlen_X in Bk. destruct (rd_in_bound fs k Bk) as (f & Hf). exists f. split; auto.
  assert (I : In s (map (fun i => off1 fs k + i) (zrange (zlen f)))).
  { rewrite <- (ivs_concat fs WF TS SM k f Hf). rewrite (rd_X fs k f Hf) in R1. injection R1 as <-. apply in_concat. exists st. split; auto. eapply rd_In; eauto. }
  apply in_map_iff in I as (i & <- & I). apply in_zrange in I. lia.
Qed.
Lemma sbatches_order k f a m m' : rd fs k = Some f -> In a (all_arcs f) -> in_batch sbatches m k (off1 fs k + src a) -> in_batch sbatches m' k (off1 fs k + dst a) -> m < m'.
Proof.
  intros Hk Ha H1 H2. apply in_batch_X in H1 as (r & st & R1 & R2 & R3). apply in_batch_X in H2 as (r' & st' & R1' & R2' & R3').
  rewrite R1 in R1'. injection R1' as <-. rewrite (rd_X fs k f Hk) in R1. injection R1 as <-.
  destruct (ivs_len fs WF TS SM k f Hk) as (L & _). pose proof (rd_Some_bound _ _ _ R2). pose proof (rd_Some_bound _ _ _ R2').
  destruct (L m ltac:(lia)) as (L1 & L2 & _). destruct (L m' ltac:(lia)) as (L1' & L2' & _). rewrite L2 in R2. injection R2 as <-. rewrite L2' in R2'. injection R2' as <-.
  apply in_interval in R3. apply in_interval in R3'. destruct (fbounds fs k f Hk) as (F1 & F2 & F3).
  apply In_rd in Ha as (j & Bj & Ha). destruct (arc_kj fs WF k f j a Hk Ha) as (Bq & E1 & E2).
  set (b := off1 fs k) in *. assert (N0 : 0 <= Sn <= int_max) by (pose proof (zlen_nonneg (concat fs)); unfold Sn; lia).
  assert (U : b <= it (fd fs) Sn m b) by (apply (it_up (fd fs) Sn); [apply fd_up; auto|lia|unfold Sn in *; lia]).
  pose proof (fd_le fs WF _ (it (fd fs) Sn m b) Bq ltac:(unfold Sn in *; lia)) as FD. rewrite E2 in FD.
  assert (EN : it (fd fs) Sn (m + 1) b = fd fs (it (fd fs) Sn m b)).
  { rewrite (it_S (fd fs) Sn (fd_up fs WF TS SM) m b) by lia. unfold Dx at 1. unfold Sn in *. replace (it (fd fs) (zlen (concat fs)) m b <? zlen (concat fs)) with true by lia. reflexivity. }
  destruct (Z_lt_le_dec m m'); auto. exfalso.
  assert (it (fd fs) Sn (m' + 1) b <= it (fd fs) Sn (m + 1) b) by (apply it_mono; [apply fd_up; auto|lia|unfold Sn in *; lia]).
  unfold Sn in *. fold b in FD. lia.
Qed.
End P.

(** C32.  For any batch of topologically sorted acyclic FSAs, any number of
    tasks per FSA and any order of the tasks, the call returns a ragged list of
    batches with axes [batch][fsa][state]; every batch has one (possibly empty)
    list per FSA, which holds states of that FSA; the lists of an FSA, read
    batch after batch, are all its states in order, so each state appears in
    exactly one batch; and every arc goes from a batch to a later one. *)
Theorem C32_state_batches (fs : list nfsa) (log_power : nat) (sched : list Z) :
  Forall well_formed fs -> Forall p_topsorted_acyclic fs -> zlen (concat fs) < int_max ->
  is_sched (zlen fs * 2 ^ Z.of_nat log_power) sched ->
  exists B : list (list (list Z)),
    get_state_batches log_power sched (flat_vec fs) = Some (lay B, lay (concat B), concat (concat B)) /\
    (forall row, In row B -> zlen row = zlen fs) /\
    Permutation (concat (concat B)) (zrange (zlen (concat fs))) /\
    (forall k f, rd fs k = Some f -> concat (map (fun row => pick row k) B) = map (fun i => off1 fs k + i) (zrange (zlen f))) /\
    (forall k f a m m', rd fs k = Some f -> In a (all_arcs f) ->
       in_batch B m k (off1 fs k + src a) -> in_batch B m' k (off1 fs k + dst a) -> m < m').
Proof.
  intros WF TS SM SC. exists (sbatches fs). split; [apply sbatches_run; auto; lia|]. split; [apply sbatches_row|]. split; [apply sbatches_perm; auto; lia|].
  split; [intros; apply sbatches_column; auto; lia|]. intros k f a m m'. apply sbatches_order; auto. lia.
Qed.
Print Assumptions C32_state_batches.

(** every schedule gives the same batches *)
Theorem C32_schedule_independent (fs : list nfsa) (lp lp' : nat) (sched sched' : list Z) :
  Forall well_formed fs -> Forall p_topsorted_acyclic fs -> zlen (concat fs) < int_max ->
  is_sched (zlen fs * 2 ^ Z.of_nat lp) sched -> is_sched (zlen fs * 2 ^ Z.of_nat lp') sched' ->
  get_state_batches lp sched (flat_vec fs) = get_state_batches lp' sched' (flat_vec fs).
Proof. intros WF TS SM S1 S2. rewrite !(sbatches_run fs WF TS) by (auto; lia). reflexivity. Qed.
Print Assumptions C32_schedule_independent.

(** an arc that does not go forward makes the call fail *)
Theorem C32_unsorted_refused (fs : list nfsa) k f a lp sched : Forall well_formed fs -> rd fs k = Some f -> In a (all_arcs f) -> dst a <= src a ->
  get_state_batches lp sched (flat_vec fs) = None.
Proof. intros WF Hk Ha Hd. unfold get_state_batches. now rewrite (sb_refuses fs WF k f a lp sched Hk Ha Hd). Qed.
Print Assumptions C32_unsorted_refused.

(** Two FSAs of different depths and one without states; 4 tasks per FSA run
    in reverse order. *)
Definition f32a : nfsa := [[mkArc 0 1 1 0; mkArc 0 2 2 0]; [mkArc 1 3 3 0]; [mkArc 2 3 4 0]; [mkArc 3 4 (-1) 0]; []].
Definition f32b : nfsa := [[mkArc 0 1 (-1) 0]; []].
Example C32_ex :
  Forall well_formed [f32a; []; f32b] /\ Forall p_topsorted_acyclic [f32a; []; f32b] /\ is_sched (3 * 2 ^ Z.of_nat 2) (rev (zrange 12)) /\
  option_map snd (get_state_batches 2 (rev (zrange 12)) (flat_vec [f32a; []; f32b])) = Some [0; 5; 1; 2; 6; 3; 4] /\
  option_map (fun r => l_rs (fst (fst r))) (get_state_batches 2 (rev (zrange 12)) (flat_vec [f32a; []; f32b])) = Some [0; 3; 6; 9; 12].
Proof.
  split; [apply Forall_forall; intros f Hf; repeat (destruct Hf as [<-|Hf]; [apply wfb_ok; reflexivity|]); destruct Hf|]. split.
  { apply Forall_forall; intros f Hf. repeat (destruct Hf as [<-|Hf]; [|]); [| | |destruct Hf]; intros a Ha; cbn in Ha; repeat (destruct Ha as [<-|Ha]; [cbn; lia|]); destruct Ha. }
  split; [apply Permutation_sym, Permutation_rev|]. split; vm_compute; reflexivity.
Qed.
