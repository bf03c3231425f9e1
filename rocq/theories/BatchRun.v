(** * GetStateBatches computes the intervals of states, for every schedule. *)
From Coq Require Import ZArith List Lia Bool Permutation.
From Coq Require Import ZifyBool ZifyNat.
From Verif Require Import Base RaggedModel RaggedSpec RaggedProofs FsaSpec FsaLemmas FsaOpsModel FsaOpsProofs EpsLoopProofs RaggedOpsModel RaggedOpsSpec
  RaggedOpsProofs RaggedCatProofs OpsModel PropsModel PropsSpec PropsProofs PropsProps ReverseModel ReverseProofs ConnectSpec ConnectProofs ExtractProofs TopSortProofs TopSortRun
  BatchModel TransposeProofs BatchProofs.
Import ListNotations.
Open Scope Z_scope.

Section B.
Variable fs : list nfsa.
Hypothesis WF : Forall well_formed fs.
Let SO : Forall src_ok fs.
Proof. eapply Forall_impl; [|exact WF]. now intros f (H & _). Qed.
Let DO : Forall (fun f : nfsa => forall a, In a (all_arcs f) -> 0 <= dst a < nstates f) fs.
Proof. eapply Forall_impl; [|exact WF]. now intros f (_ & H). Qed.
Let Sn := zlen (concat fs).
Let An := zlen (concat (concat fs)).
Let v := flat_vec fs.

(** first destination among the arcs leaving states >= s *)
Definition fd (s : Z) : Z := match rd (min_after (gdest fs)) (off1 (concat fs) s) with Some x => x | None => int_max end.

Lemma src_off q s : 0 <= q < An -> 0 <= s <= Sn -> off1 (concat fs) s <= q <-> s <= srcq fs q.
Proof.
  intros Hq Hs. destruct (arc_q fs WF q Hq) as (_ & _ & _ & _ & _ & _ & _ & _ & _ & _ & _ & R & _ & BS & _).
  unfold An in Hq. destruct (rd_in_bound (concat (concat fs)) q Hq) as (a & Ha). destruct (rd_concat_inv _ _ _ Ha) as (r & l & j & H1 & H2 & E & H3).
  rewrite R in H3. injection H3 as <-. pose proof (off1_next _ _ _ H1). pose proof (rd_Some_bound _ _ _ H2). split; intros H5.
  - destruct (Z_le_gt_dec s (srcq fs q)); auto. pose proof (off1_mono (concat fs) (srcq fs q + 1) s ltac:(lia)). lia.
  - pose proof (off1_mono (concat fs) s (srcq fs q) H5). lia.
Qed.
Lemma fd_le q s : 0 <= q < An -> 0 <= s <= srcq fs q -> fd s <= dstq fs q.
Proof.
  intros Hq Hs. destruct (arc_q fs WF q Hq) as (_ & _ & _ & _ & _ & _ & _ & _ & _ & _ & _ & _ & RD & BS & _).
  assert (off1 (concat fs) s <= q) by (apply src_off; unfold Sn; auto; lia). unfold fd. destruct (rd (min_after (gdest fs)) (off1 (concat fs) s)) as [x|] eqn:E.
  - destruct (min_after_ok _ _ _ E) as (_ & M & _). now apply (M q).
  - exfalso. pose proof (off1_nonneg (concat fs) s). destruct (rd_in_bound (min_after (gdest fs)) (off1 (concat fs) s)) as (x & Hx); [|congruence].
    rewrite zlen_min_after, zlen_gdest. fold An. lia.
Qed.
Lemma fd_cases s : 0 <= s <= Sn -> fd s = int_max \/ exists q, 0 <= q < An /\ s <= srcq fs q /\ fd s = dstq fs q.
Proof.
  intros Hs. unfold fd. destruct (rd (min_after (gdest fs)) (off1 (concat fs) s)) as [x|] eqn:E; [|now left].
  destruct (min_after_ok _ _ _ E) as (_ & _ & [->|(q & Q1 & Q2)]); [now left|]. right. exists q. pose proof (rd_Some_bound _ _ _ Q2) as B. rewrite zlen_gdest in B. fold An in B.
  split; auto. split; [now apply src_off|]. unfold dstq, at0. now rewrite Q2.
Qed.
Lemma fd_max s : fd s <= int_max.
Proof. unfold fd. destruct (rd (min_after (gdest fs)) (off1 (concat fs) s)) as [x|] eqn:E; [|lia]. now destruct (min_after_ok _ _ _ E). Qed.

Lemma sb_dest_ok s : 0 <= s < Sn -> sb_dest (splits_of (concat fs)) (min_after (gdest fs)) An s = if s <? fd s then Some (fd s) else None.
Proof.
  intros Hs. unfold sb_dest. unfold Sn in Hs. rewrite rd_splits_off by lia. unfold fd. pose proof (off1_nonneg (concat fs) s). destruct (off1 (concat fs) s <? An) eqn:E.
  - destruct (rd_in_bound (min_after (gdest fs)) (off1 (concat fs) s)) as (x & ->); [rewrite zlen_min_after, zlen_gdest; fold An; lia|]. reflexivity.
  - destruct (rd (min_after (gdest fs)) (off1 (concat fs) s)) eqn:E2; [|reflexivity]. apply rd_Some_bound in E2. rewrite zlen_min_after, zlen_gdest in E2. fold An in E2. lia.
Qed.

(** an arc that does not go forward is detected *)
Lemma sb_refuses k f a lp sched : rd fs k = Some f -> In a (all_arcs f) -> dst a <= src a -> state_batches0 lp sched v = None.
Proof.
  intros Hk Ha Hd. apply In_rd in Ha as (j & Bj & Ha). destruct (arc_kj fs WF k f j a Hk Ha) as (Bq & E1 & E2).
  destruct (arc_q fs WF _ Bq) as (_ & _ & _ & _ & _ & _ & _ & _ & _ & _ & _ & _ & _ & BS & _).
  unfold state_batches0. change (v_rs2 v) with (splits_of (concat fs)). change (v_rs1 v) with (splits_of fs). change (v_arcs v) with (concat (concat fs)). rewrite row_ids_of_splits. unfold v.
  rewrite (dest_states_ok fs SO DO). rewrite zlen_splits_of. replace (zlen (concat fs) + 1 - 1) with Sn by (unfold Sn; lia). fold An.
  erewrite mapM_fail; [reflexivity|apply in_zrange; exact BS|]. fold Sn in BS. rewrite sb_dest_ok by exact BS.
  pose proof (fd_le _ (srcq fs (abase fs k + j)) Bq ltac:(lia)). now replace (srcq fs (abase fs k + j) <? fd (srcq fs (abase fs k + j))) with false by lia.
Qed.

Hypothesis TS : Forall p_topsorted_acyclic fs.
Hypothesis SM : zlen (concat fs) <= int_max - 1.

Lemma fd_up s : 0 <= s < Sn -> s < fd s <= int_max.
Proof.
  intros Hs. split; [|apply fd_max]. unfold Sn in Hs. destruct (fd_cases s ltac:(unfold Sn; lia)) as [->|(q & Q1 & Q2 & ->)]; [lia|].
  destruct (arc_q fs WF q Q1) as (k & f & j & a & Hk & Ha & _ & _ & _ & E1 & E2 & _). rewrite Forall_forall in TS. pose proof (TS f (rd_In _ _ _ Hk) a (rd_In _ _ _ Ha)). lia.
Qed.
Let N0 : 0 <= Sn <= int_max.
Proof. unfold Sn. pose proof (zlen_nonneg (concat fs)). lia. Qed.
Notation itf := (it fd Sn).

Definition ivs (k : Z) (f : nfsa) : list (list Z) := ivals fd Sn (length f) (off1 fs k) (off1 fs k + zlen f).
Definition batches_of : list (list (list Z)) := imap ivs 0 fs.
Notation X := batches_of.

Lemma rd_X k f : rd fs k = Some f -> rd X k = Some (ivs k f).
Proof. intros H. unfold batches_of. rewrite rd_imap, H. reflexivity. Qed.
Lemma zlen_X : zlen X = zlen fs. Proof. apply zlen_imap. Qed.
Lemma fbounds k f : rd fs k = Some f -> 0 <= off1 fs k /\ 0 <= zlen f /\ off1 fs k + zlen f <= Sn.
Proof. intros H. pose proof (off1_next _ _ _ H). pose proof (off1_bound fs (k + 1)). pose proof (off1_nonneg fs k). pose proof (zlen_nonneg f). unfold Sn. lia. Qed.
Lemma ivs_concat k f : rd fs k = Some f -> concat (ivs k f) = map (fun i => off1 fs k + i) (zrange (zlen f)).
Proof.
  intros H. destruct (fbounds k f H) as (F1 & F2 & F3). unfold ivs. rewrite (ivals_concat fd Sn N0 fd_up) by (first [lia | unfold zlen; lia]).
  unfold interval. do 2 f_equal. lia.
Qed.
Lemma ivs_len k f : rd fs k = Some f -> let b := off1 fs k in let nb := zlen (ivs k f) in
  (forall i, 0 <= i < nb -> itf i b < b + zlen f /\ rd (ivs k f) i = Some (interval (itf i b) (Z.min (itf (i + 1) b) (b + zlen f))) /\ off1 (ivs k f) i = itf i b - b) /\ b + zlen f <= itf nb b.
Proof. intros H. cbv zeta. destruct (fbounds k f H) as (F1 & F2 & F3). apply (ivals_len fd Sn N0 fd_up); first [lia | unfold zlen; lia]. Qed.
Lemma X_concat : map (@concat Z) X = idx_rows fs.
Proof.
  apply list_ext_rd; [unfold idx_rows; now rewrite zlen_map, zlen_X, zlen_imap|]. intros k Hk. rewrite zlen_map, zlen_X in Hk. destruct (rd_in_bound fs k Hk) as (f & Hf).
  rewrite rd_map, (rd_X k f Hf), (rd_idx_rows fs k f Hf). cbn [option_map]. now rewrite ivs_concat.
Qed.
Lemma X_values : concat (concat X) = zrange Sn.
Proof. rewrite <- concat_map_concat, X_concat. apply splits_concat_zrange. Qed.
Lemma X_start k f i : rd fs k = Some f -> 0 <= i < zlen (ivs k f) -> off1 (concat X) (off1 X k + i) = itf i (off1 fs k).
Proof.
  intros H Hi. rewrite (off1_concat X k (ivs k f) i (rd_X k f H)) by lia. rewrite <- off1_map_concat, X_concat.
  destruct (ivs_len k f H) as (L & _). destruct (L i Hi) as (_ & _ & ->). replace (off1 (idx_rows fs) k) with (off1 fs k); [lia|].
  pose proof (rd_Some_bound _ _ _ H). assert (E : rd (splits_of (idx_rows fs)) k = rd (splits_of fs) k) by (unfold splits_of; now rewrite zlen_idx_rows).
  rewrite !rd_splits_off in E by (unfold idx_rows; rewrite ?zlen_imap; lia). congruence.
Qed.

Section Run.
Variable lp : nat.
Variable sched : list Z.
Let J := 2 ^ Z.of_nat lp.
Hypothesis SC : is_sched (zlen fs * J) sched.
Let J1 : 1 <= J. Proof. unfold J. lia. Qed.

Definition cell (j : Z) : Z :=
  if j <? Sn + 1 then let k := at0 (ids_of fs) j in itf (j - off1 fs k) (off1 fs k)
  else match rd X (j - (Sn + 1)) with Some r => zlen r | None => 0 end.
Lemma cell_start k f i : rd fs k = Some f -> 0 <= i < zlen f -> cell (off1 fs k + i) = itf i (off1 fs k).
Proof.
  intros H Hi. unfold cell. pose proof (state_range fs k f i H Hi) as R. fold Sn in R. replace (off1 fs k + i <? Sn + 1) with true by lia.
  destruct (rd_in_bound f i Hi) as (st & Hst). destruct (rd_concat_off fs k f i st H Hst) as (_ & ID). cbv zeta. unfold at0. rewrite ID. f_equal. lia.
Qed.
Lemma cell_num k f : rd fs k = Some f -> cell (Sn + 1 + k) = zlen (ivs k f).
Proof.
  intros H. pose proof (rd_Some_bound _ _ _ H). unfold cell. replace (Sn + 1 + k <? Sn + 1) with false by lia. replace (Sn + 1 + k - (Sn + 1)) with k by lia. now rewrite (rd_X k f H).
Qed.
Lemma nb_unique k f x : rd fs k = Some f -> 0 < x -> itf (x - 1) (off1 fs k) < off1 fs k + zlen f -> off1 fs k + zlen f <= itf x (off1 fs k) -> x = zlen (ivs k f).
Proof.
  intros H Hx H1 H2. destruct (ivs_len k f H) as (L & G). destruct (fbounds k f H) as (F1 & F2 & F3). pose proof (zlen_nonneg (ivs k f)).
  destruct (Z.lt_trichotomy x (zlen (ivs k f))) as [T|[T|T]]; auto; exfalso.
  - destruct (L x ltac:(lia)) as (Q & _). lia.
  - pose proof (it_mono fd Sn fd_up (zlen (ivs k f)) (x - 1) (off1 fs k) ltac:(lia) ltac:(lia)). lia.
Qed.

Variable powers : list (list Z).
Hypothesis HP : forall i, 0 <= i <= Z.of_nat lp -> rd powers i = Some (tab Sn (itf (2 ^ i))).

Lemma job_ok k f t : rd fs k = Some f -> 0 <= t < J -> exists ws, sb_job (splits_of fs) Sn powers lp k t = Some ws /\
  Forall (agrees (Sn + 1 + zlen fs) cell) ws /\
  (forall i, 0 <= i < zlen (ivs k f) -> i mod J = t -> In (off1 fs k + i) (map fst ws)) /\
  (0 < zlen (ivs k f) -> (zlen (ivs k f) - 1) mod J = t -> In (Sn + 1 + k) (map fst ws)).
Proof.
  intros Hk Ht. pose proof (rd_Some_bound _ _ _ Hk) as Bk. destruct (fbounds k f Hk) as (F1 & F2 & F3). destruct (ivs_len k f Hk) as (L & G).
  set (b := off1 fs k) in *. unfold sb_job. rewrite !rd_splits_off by lia. rewrite (off1_next _ _ _ Hk). fold b.
  assert (NB : forall i, 0 <= i < zlen (ivs k f) -> i mod J = t -> t <= i /\ itf t b < b + zlen f /\ b + t <= itf t b).
  { intros i Hi Hm. assert (t <= i) by (rewrite <- Hm; apply Z.mod_le; lia). split; auto. destruct (L i Hi) as (Q & _).
    pose proof (it_mono fd Sn fd_up t i b ltac:(lia) ltac:(lia)). split; [lia|]. apply (it_grow fd Sn N0 fd_up t b (b + zlen f)); lia. }
  destruct (b + zlen f - b <=? t) eqn:E.
  { exists []. split; auto. split; [constructor|]. split.
    - intros i Hi Hm. destruct (NB i Hi Hm). lia.
    - intros H0 Hm. destruct (NB (zlen (ivs k f) - 1) ltac:(lia) Hm). lia. }
  pose proof (advance_ok fd Sn N0 fd_up powers (Z.of_nat lp) t b (b + zlen f) HP ltac:(lia) ltac:(lia) lp 0 0 ltac:(lia) ltac:(lia) ltac:(lia)) as AD.
  change (itf 0 b) with b in AD. rewrite AD by lia. cbv zeta. rewrite bits_from_ok by lia. change (2 ^ 0) with 1. rewrite Z.div_1_r. fold J. rewrite Z.mod_small by lia. rewrite Z.mul_1_l, Z.add_0_l.
  destruct (itf t b <? b + zlen f) eqn:E2.
  2:{ exists []. split; auto. split; [constructor|]. split.
      - intros i Hi Hm. destruct (NB i Hi Hm). lia.
      - intros H0 Hm. destruct (NB (zlen (ivs k f) - 1) ltac:(lia) Hm). lia. }
  rewrite Z.eqb_refl. rewrite HP by lia. rewrite HP by lia. fold J. change (2 ^ 0) with 1.
  destruct (loop_ok fd Sn N0 fd_up (tab Sn (itf 1)) (tab Sn (itf J)) J b (b + zlen f) eq_refl eq_refl ltac:(lia) ltac:(lia) ltac:(lia) (Z.to_nat (b + zlen f - b)) t ltac:(lia) ltac:(lia) ltac:(lia))
    as (ws & nb & -> & W1 & W2 & W3 & W4). cbn [fst snd].
  eexists. split; [reflexivity|]. split; [|split].
  - apply Forall_forall. intros w Hw. apply in_app_or in Hw as [Hw|Hw].
    + apply in_map_iff in Hw as (x & <- & Hx). destruct (W1 x Hx) as (A1 & A2 & A3). unfold agrees. cbn [fst snd].
      assert (b + fst x <= itf (fst x) b) by (apply (it_grow fd Sn N0 fd_up (fst x) b (b + zlen f)); lia).
      split; [lia|]. rewrite A2. unfold b. rewrite (cell_start k f (fst x) Hk); auto. lia.
    + destruct nb as [x|]; [|destruct Hw]. destruct Hw as [<-|[]]. destruct (W3 x eq_refl) as (A1 & A2 & A3). unfold agrees. cbn [fst snd]. split; [lia|].
      rewrite (cell_num k f Hk). symmetry. symmetry. now apply nb_unique.
  - intros i Hi Hm. destruct (NB i Hi Hm) as (N1 & _). rewrite map_app, in_app_iff. left. rewrite map_map. cbn [fst]. apply in_map_iff.
    assert (EI : i = t + i / J * J) by (rewrite (Z.div_mod i J) at 1 by lia; lia). exists (i, itf i b). split; [reflexivity|]. destruct (L i Hi) as (Q & _).
    rewrite EI. apply W2; [apply Z.div_pos; lia|]. rewrite <- EI. exact Q.
  - intros H0 Hm. set (i := zlen (ivs k f) - 1) in *. destruct (L i ltac:(lia)) as (Q & _). assert (EI : i = t + i / J * J) by (rewrite (Z.div_mod i J) at 1 by lia; lia).
    rewrite (W4 (i / J)); [rewrite map_app, in_app_iff; right; now left|apply Z.div_pos; lia|now rewrite <- EI|]. rewrite <- EI. unfold i. replace (zlen (ivs k f) - 1 + 1) with (zlen (ivs k f)) by lia. exact G.
Qed.

Lemma mem_ok : exists mem,
  k2_eval sched (fun p => sb_job (splits_of fs) Sn powers lp (p / J) (p mod J)) (repeat None (Z.to_nat (Sn + 1)) ++ repeat (Some 0) (Z.to_nat (zlen fs))) = Some mem /\
  (forall k f, rd fs k = Some f -> rd mem (Sn + 1 + k) = Some (Some (zlen (ivs k f)))) /\
  (forall k f i, rd fs k = Some f -> 0 <= i < zlen (ivs k f) -> rd mem (off1 fs k + i) = Some (Some (itf i (off1 fs k)))).
Proof.
  pose proof (zlen_nonneg fs) as Z0.
  assert (PJ : forall p, In p sched -> 0 <= p / J < zlen fs /\ 0 <= p mod J < J).
  { intros p Hp. apply (in_sched _ _ _ SC) in Hp. split; [|apply Z.mod_pos_bound; lia]. split; [apply Z.div_pos; lia|]. apply Z.div_lt_upper_bound; lia. }
  destruct (k2_eval_agrees (Sn + 1 + zlen fs) cell (fun p => sb_job (splits_of fs) Sn powers lp (p / J) (p mod J)) sched) with (arr := repeat (@None Z) (Z.to_nat (Sn + 1)) ++ repeat (Some 0) (Z.to_nat (zlen fs)))
    as (mem & E & LM & M).
  - intros p Hp. destruct (PJ p Hp) as (P1 & P2). destruct (rd_in_bound fs _ P1) as (f & Hf). destruct (job_ok _ f _ Hf P2) as (ws & W1 & W2 & _). eauto.
  - rewrite zlen_app, !zlen_repeat. lia.
  - exists mem. split; auto. split.
    + intros k f Hk. pose proof (rd_Some_bound _ _ _ Hk). rewrite <- (cell_num k f Hk). apply M; [lia|]. pose proof (zlen_nonneg (ivs k f)).
      destruct (Z.eq_dec (zlen (ivs k f)) 0) as [E0|E0].
      * left. rewrite (cell_num k f Hk), E0. rewrite rd_app_r by (rewrite zlen_repeat; lia). rewrite zlen_repeat. replace (Sn + 1 + k - Z.of_nat (Z.to_nat (Sn + 1))) with k by lia. apply rd_repeat. lia.
      * right. set (t := (zlen (ivs k f) - 1) mod J). assert (Bt : 0 <= t < J) by (apply Z.mod_pos_bound; lia).
        destruct (job_ok k f t Hk Bt) as (ws & W1 & _ & _ & W4). exists (k * J + t), ws. split; [apply (in_sched _ _ _ SC); nia|].
        replace ((k * J + t) / J) with k by (apply Z.div_unique with (r := t); lia). replace ((k * J + t) mod J) with t by (apply Z.mod_unique with (q := k); lia).
        split; auto. apply W4; auto. lia.
    + intros k f i Hk Hi. destruct (fbounds k f Hk) as (F1 & F2 & F3). destruct (ivs_len k f Hk) as (L & _). destruct (L i Hi) as (Q & _).
      pose proof (it_grow fd Sn N0 fd_up i (off1 fs k) (off1 fs k + zlen f) ltac:(lia) F1 F3 Q). rewrite <- (cell_start k f i Hk) by lia. apply M; [lia|]. right.
      set (t := i mod J). assert (Bt : 0 <= t < J) by (apply Z.mod_pos_bound; lia). pose proof (rd_Some_bound _ _ _ Hk).
      destruct (job_ok k f t Hk Bt) as (ws & W1 & _ & W3 & _). exists (k * J + t), ws. split; [apply (in_sched _ _ _ SC); nia|].
      replace ((k * J + t) / J) with k by (apply Z.div_unique with (r := t); lia). replace ((k * J + t) mod J) with t by (apply Z.mod_unique with (q := k); lia).
      split; auto.
Qed.
End Run.

Theorem state_batches0_ok lp sched : is_sched (zlen fs * 2 ^ Z.of_nat lp) sched ->
  state_batches0 lp sched v = Some (lay X, lay (concat X), zrange Sn).
Proof.
  intros SC. pose proof (zlen_nonneg fs) as Z0.
  unfold state_batches0. change (v_rs2 v) with (splits_of (concat fs)). change (v_rs1 v) with (splits_of fs). change (v_arcs v) with (concat (concat fs)). rewrite row_ids_of_splits. unfold v.
  rewrite (dest_states_ok fs SO DO). rewrite !zlen_splits_of. replace (zlen (concat fs) + 1 - 1) with Sn by (unfold Sn; lia). replace (zlen fs + 1 - 1) with (zlen fs) by lia. fold An.
  assert (E1 : mapM (sb_dest (splits_of (concat fs)) (min_after (gdest fs)) An) (zrange Sn) = Some (tab Sn (itf (2 ^ Z.of_nat 0)))).
  { apply RaggedOpsProofs.mapM_zrange; [lia|now rewrite zlen_tab by lia|]. intros s Hs. rewrite rd_tab by lia. rewrite sb_dest_ok by auto. pose proof (fd_up s Hs).
    replace (s <? fd s) with true by lia. change (2 ^ Z.of_nat 0) with 1. rewrite it_1. unfold Dx. now replace (s <? Sn) with true by lia. }
  rewrite E1. destruct (powers_ok fd Sn N0 fd_up lp 0) as (ps & -> & HP). change (Z.of_nat 0) with 0 in HP.
  destruct (mem_ok lp sched SC ps HP) as (mem & -> & M1 & M2).
  assert (E2 : mapM (fun k => x <- rd mem (Sn + 1 + k);; x) (zrange (zlen fs)) = Some (map zlen X)).
  { apply RaggedOpsProofs.mapM_zrange; [lia|now rewrite zlen_map, zlen_X|]. intros k Hk. destruct (rd_in_bound fs k Hk) as (f & Hf). rewrite (M1 k f Hf), rd_map, (rd_X k f Hf). reflexivity. }
  rewrite E2. fold (splits_of X). rewrite <- zlen_X at 1. rewrite rd_splits_last, row_ids_of_splits.
  assert (E3 : mapM (fun idx01 => idx0 <- rd (ids_of X) idx01;; idx0x <- rd (splits_of X) idx0;; f <- rd (splits_of fs) idx0;; x <- rd mem (f + (idx01 - idx0x));; x) (zrange (zlen (concat X)))
               = Some (map (off1 (concat X)) (zrange (zlen (concat X))))).
  { apply mapM_Some_map. intros p Hp. apply in_zrange in Hp. destruct (rd_in_bound (concat X) p Hp) as (st & Hst). destruct (rd_concat_inv _ _ _ Hst) as (k & r & i & R1 & R2 & -> & R3).
    pose proof (rd_Some_bound _ _ _ R1) as Bk. rewrite zlen_X in Bk. destruct (rd_in_bound fs k Bk) as (f & Hf). rewrite (rd_X k f Hf) in R1. injection R1 as <-.
    pose proof (rd_Some_bound _ _ _ R2). rewrite R3. rewrite !rd_splits_off by (rewrite ?zlen_X; lia). replace (off1 fs k + (off1 X k + i - off1 X k)) with (off1 fs k + i) by lia.
    rewrite (M2 k f i Hf) by lia. now rewrite (X_start k f i Hf) by lia. }
  rewrite E3.
  assert (E4 : map (off1 (concat X)) (zrange (zlen (concat X))) ++ [Sn] = splits_of (concat X)).
  { pose proof (zlen_nonneg (concat X)). assert (LM : zlen (map (off1 (concat X)) (zrange (zlen (concat X)))) = zlen (concat X)) by (rewrite zlen_map, zlen_zrange; lia).
    apply list_ext_rd; [rewrite zlen_app, zlen_splits_of, LM; reflexivity|]. intros i Hi. rewrite zlen_app, LM in Hi. change (zlen [Sn]) with 1 in Hi. rewrite rd_splits_off by lia.
    destruct (Z.eq_dec i (zlen (concat X))) as [->|Ni].
    - rewrite rd_app_r by lia. rewrite LM, Z.sub_diag, rd_cons_0, off1_all, X_values, zlen_zrange by lia. reflexivity.
    - rewrite rd_app_l by lia. rewrite rd_map, rd_zrange by lia. reflexivity. }
  rewrite E4. assert (ES : zlen (concat (concat X)) = Sn) by (rewrite X_values, zlen_zrange; lia). pose proof (row_ids_of_splits (concat X)) as RI. rewrite ES in RI. rewrite RI. reflexivity.
Qed.
End B.
