(** * Proofs about RandomPaths: batches, memory layout, assembly. *)
From Coq Require Import ZArith List Lia Lra Bool Reals Permutation.
From Coq Require Import ZifyBool ZifyNat.
From Verif Require Import Base RaggedModel RaggedSpec RaggedProofs FsaSpec FsaLemmas EpsLoopProofs RaggedOpsModel RaggedOpsSpec RaggedOpsProofs RaggedCatProofs
  PropsSpec PropsProofs PropsProps ReverseProofs ConnectSpec ConnectProofs ExtractProofs ConnectProps TopSortProofs TopSortRun LogReal MutualInfoProofs
  BatchModel TransposeProofs BatchProofs BatchRun BatchProps ScoreModel ScoreSpec PathSums ScoreProofs ScoreRun ScorePaths ScoreProps RandModel RandSpec CdfProofs RandWalk.
Import ListNotations.
Open Scope Z_scope.

Section Nsb.
Variable fs : list nfsa.
Hypothesis WF : Forall well_formed fs.
Hypothesis TS : Forall p_topsorted_acyclic fs.
Hypothesis SM : zlen (concat fs) <= int_max - 1.
Notation X := (batches_of fs).
Notation B := (sbatches fs).
Notation mb := (max_len X).
Notation N := (zlen fs).

Lemma zlen_B : zlen B = mb.
Proof. unfold sbatches, transposed. apply zlen_tab. apply max_nonneg; auto. Qed.
Lemma ivs_nonempty k f i st : rd fs k = Some f -> rd (ivs fs k f) i = Some st -> 0 < zlen st.
Proof.
  intros Hk Hi. destruct (ivs_len fs WF TS SM k f Hk) as (L & _). pose proof (rd_Some_bound _ _ _ Hi) as Bi. destruct (L i Bi) as (L1 & L2 & _). rewrite L2 in Hi. injection Hi as <-.
  destruct (fbounds fs k f Hk) as (F1 & F2 & F3). set (b := off1 fs k) in *. set (Sn := zlen (concat fs)) in *.
  assert (U : b <= it (fd fs) Sn i b) by (apply (it_up (fd fs) Sn); [apply fd_up; auto|lia|unfold Sn in *; lia]).
  assert (EN : it (fd fs) Sn (i + 1) b = fd fs (it (fd fs) Sn i b)).
  { rewrite (it_S (fd fs) Sn (fd_up fs WF TS SM) i b) by lia. unfold Dx at 1. unfold Sn in *. replace (it (fd fs) (zlen (concat fs)) i b <? zlen (concat fs)) with true by lia. reflexivity. }
  pose proof (fd_up fs WF TS SM (it (fd fs) Sn i b) ltac:(unfold Sn in *; lia)). rewrite zlen_interval; lia.
Qed.
(** the list of states of FSA i in batch b *)
Lemma B_cell i f b : rd fs i = Some f -> 0 <= b < mb ->
  rd (splits_of B) b = Some (b * N) /\ exists o (st : list Z), rd (splits_of (concat B)) (b * N + i) = Some o /\ rd (splits_of (concat B)) (b * N + i + 1) = Some (o + zlen st) /\ (zlen st =? 0) = (zlen (ivs fs i f) <=? b).
Proof.
  intros Hi Hb. pose proof zlen_B as LB. pose proof (rd_Some_bound _ _ _ Hi) as Bi.
  assert (U : forall row, In row B -> zlen row = N) by (intros; now apply (sbatches_row fs)).
  split; [rewrite rd_splits_off by lia; now rewrite (off1_uniform B N) by (auto; lia)|].
  destruct (rd_in_bound B b ltac:(lia)) as (row & Hrow). assert (LR : zlen row = N) by (apply U; eapply rd_In; eauto). destruct (rd_in_bound row i ltac:(lia)) as (st & Hst).
  pose proof (uniform_rd B N b i row U Hrow Bi) as R. rewrite Hst in R. pose proof (rd_Some_bound _ _ _ R) as BR.
  exists (off1 (concat B) (b * N + i)), st. split; [apply rd_splits_off; lia|]. split; [rewrite rd_splits_off by lia; now rewrite (off1_next _ _ _ R)|].
  unfold sbatches, transposed in Hrow. rewrite rd_tab in Hrow by lia. injection Hrow as <-. rewrite rd_map in Hst. unfold pad_rows in Hst. rewrite rd_map, (rd_X fs i f Hi) in Hst. cbn [option_map] in Hst. injection Hst as <-.
  unfold padded, pick. destruct (Z_lt_le_dec b (zlen (ivs fs i f))) as [L|L].
  - rewrite rd_app_l by lia. destruct (rd_in_bound (ivs fs i f) b ltac:(lia)) as (st & Hst). rewrite Hst. pose proof (ivs_nonempty i f b st Hi Hst). lia.
  - rewrite rd_app_r by lia. pose proof (max_len_ge X _ (rd_In _ _ _ (rd_X fs i f Hi))). rewrite rd_repeat by lia. change (zlen (@nil Z)) with 0. lia.
Qed.
Lemma nsb_ok ord : fair ord -> num_state_batches ord N (splits_of B) (splits_of (concat B)) = Some (map zlen X).
Proof.
  intros FO. unfold num_state_batches. rewrite zlen_splits_of, zlen_B. replace (mb + 1 - 1) with mb by lia. pose proof (max_nonneg fs) as M0. pose proof (zlen_nonneg fs) as N0.
  set (v := at0 (map zlen X)). assert (V : forall i f, rd fs i = Some f -> v i = zlen (ivs fs i f)) by (intros i f H; unfold v, at0; now rewrite rd_map, (rd_X fs i f H)).
  assert (VM : forall i f, rd fs i = Some f -> 0 <= zlen (ivs fs i f) <= mb).
  { intros i f H. split; [apply zlen_nonneg|]. apply max_len_ge. eapply rd_In. eapply rd_X; eauto. }
  assert (T : forall i b, 0 <= i < N -> 0 <= b < mb -> exists ws, nsb_thread (splits_of B) (splits_of (concat B)) mb i b = Some ws /\ Forall (agrees N v) ws /\ (v i = b \/ (v i = mb /\ b = mb - 1) -> In i (map fst ws))).
  { intros i b Hi Hb. destruct (rd_in_bound fs i Hi) as (f & Hf). destruct (B_cell i f b Hf Hb) as (R1 & o & st & R2 & R3 & R4). unfold nsb_thread. rewrite R1, R2, R3. replace (o + zlen st - o) with (zlen st) by lia. rewrite R4.
    specialize (VM i f Hf). rewrite <- (V i f Hf) in *. destruct (v i <=? b) eqn:E.
    - destruct (b =? 0) eqn:E0.
      + eexists. split; [reflexivity|]. split; [constructor; [|constructor]; split; cbn; lia|]. intros _. now left.
      + destruct (B_cell i f (b - 1) Hf ltac:(lia)) as (Q1 & o' & st' & Q2 & Q3 & Q4). rewrite Q1, Q2, Q3. replace (o' + zlen st' - o') with (zlen st') by lia. rewrite Q4, <- (V i f Hf). destruct (v i <=? b - 1) eqn:E1; cbn [negb].
        * eexists. split; [reflexivity|]. split; [constructor|]. lia.
        * eexists. split; [reflexivity|]. split; [constructor; [|constructor]; split; cbn; lia|]. intros _. now left.
    - destruct (b + 1 =? mb) eqn:E1.
      + eexists. split; [reflexivity|]. split; [constructor; [|constructor]; split; cbn; lia|]. intros _. now left.
      + eexists. split; [reflexivity|]. split; [constructor|]. lia. }
  assert (DM : 0 < mb -> forall p, 0 <= p < N * mb -> 0 <= p / mb < N /\ 0 <= p mod mb < mb).
  { intros Hm p Hp. split; [|apply Z.mod_pos_bound; lia]. split; [apply Z.div_pos; lia|]. apply Z.div_lt_upper_bound; lia. }
  destruct (k2_eval_agrees N v (fun p => nsb_thread (splits_of B) (splits_of (concat B)) mb (p / mb) (p mod mb)) (ord (N * mb))) with (arr := repeat (Some (if 0 <? mb then -1 else 0)) (Z.to_nat N)) as (arr & E1 & E2 & E3).
  - intros p Hp. apply (in_sched (N * mb) _ _ (FO (N * mb))) in Hp. assert (0 < mb) by (destruct (Z.eq_dec mb 0) as [Z0|]; [rewrite Z0 in Hp; lia|lia]).
    destruct (DM H p Hp) as (D1 & D2). destruct (T _ _ D1 D2) as (ws & T1 & T2 & _). eauto.
  - rewrite zlen_repeat. lia.
  - rewrite E1. rewrite (freeze_tab N v arr E2).
    + f_equal. apply list_ext_rd; [rewrite zlen_tab, zlen_map, zlen_X; lia|]. intros i Hi. rewrite zlen_tab in Hi by lia. rewrite rd_tab by lia. unfold v. symmetry. apply rd_at0. rewrite zlen_map, zlen_X. lia.
    + intros i Hi. apply E3; auto. destruct (rd_in_bound fs i Hi) as (f & Hf). pose proof (VM i f Hf) as VM'. rewrite <- (V i f Hf) in VM'. destruct (Z.eq_dec mb 0) as [Z0|NZ].
      * left. rewrite Z0. change (0 <? 0) with false. cbv iota. rewrite rd_repeat by lia. do 2 f_equal. lia.
      * right. set (b := if v i =? mb then mb - 1 else v i). assert (Bb : 0 <= b < mb) by (unfold b; destruct (v i =? mb) eqn:Q; lia).
        destruct (T i b Hi Bb) as (ws & T1 & _ & T3). exists (i * mb + b), ws.
        replace ((i * mb + b) / mb) with i by (rewrite Z.div_add_l by lia; rewrite (Z.div_small b mb) by lia; lia). replace ((i * mb + b) mod mb) with b by (rewrite Z.add_comm, Z.mod_add by lia; now rewrite Z.mod_small by lia).
        split; [apply (in_sched (N * mb) _ _ (FO (N * mb))); nia|]. split; auto. apply T3. unfold b. destruct (v i =? mb) eqn:Q; lia.
Qed.

(** the batch of a state *)
Definition bnum (k : Z) (f : nfsa) (s : Z) : Z := at0 (ids_of (ivs fs k f)) s.
Lemma bnum_in k f s : rd fs k = Some f -> 0 <= s < zlen f -> 0 <= bnum k f s < zlen (ivs fs k f) /\ in_batch B (bnum k f s) k (off1 fs k + s).
Proof.
  intros Hk Hs. pose proof (ivs_concat fs WF TS SM k f Hk) as C. assert (R : rd (concat (ivs fs k f)) s = Some (off1 fs k + s)) by (rewrite C, rd_map, rd_zrange by lia; reflexivity).
  apply rd_concat_inv in R as (m & st & j & R1 & R2 & _ & R4). unfold bnum, at0. rewrite R4. split; [eapply rd_Some_bound; eauto|]. apply in_batch_X. exists (ivs fs k f), st. split; [now apply rd_X|]. split; auto. eapply rd_In; eauto.
Qed.
Lemma bnum_up k f a : rd fs k = Some f -> In a (all_arcs f) -> bnum k f (src a) < bnum k f (dst a).
Proof.
  intros Hk Ha. assert (W' : well_formed f) by (rewrite Forall_forall in WF; apply WF; eapply rd_In; eauto). destruct W' as (S1 & S2). pose proof (S2 a Ha) as D. unfold nstates in D.
  assert (Sr : 0 <= src a < zlen f).
  { apply In_rd in Ha as (j & _ & Ha). destruct (arc_by_pos fs WF k f j a Hk Ha) as (_ & _ & Q). clear - Ha S1. unfold all_arcs in Ha. apply rd_concat_inv in Ha as (s & r & t & H1 & H2 & _). rewrite (S1 s r a H1 (rd_In _ _ _ H2)). eapply rd_Some_bound; eauto. }
  eapply (sbatches_order fs WF TS SM k f a); auto; [apply (bnum_in k f (src a) Hk); lia|apply (bnum_in k f (dst a) Hk); lia].
Qed.
End Nsb.

(** ** Memory layout and assembly *)
Section Asm.
Variables (X : list (list (list Z))) (nb : list Z).
Notation N := (zlen X).
Hypothesis LN : zlen nb = N.
Hypothesis NB0 : forall k b, rd nb k = Some b -> 0 <= b.
Hypothesis HL : forall k x b p, rd X k = Some x -> rd nb k = Some b -> In p x -> 0 < zlen p < b.

Definition blk (b : Z) (p : list Z) : list Z := zlen p :: p ++ repeat 0 (Z.to_nat (b - 1 - zlen p)).
Definition YY : list (list (list Z)) := imap (fun k x => map (blk (at0 nb k)) x) 0 X.
Notation Y := YY.
Lemma rd_Y k x b : rd X k = Some x -> rd nb k = Some b -> rd Y k = Some (map (blk b) x).
Proof. intros H1 H2. unfold YY. rewrite rd_imap, H1. cbn [option_map]. unfold at0. now rewrite Z.add_0_l, H2. Qed.
Lemma zlen_Y : zlen Y = N. Proof. apply zlen_imap. Qed.
Lemma blk_len k x b row : rd X k = Some x -> rd nb k = Some b -> In row (map (blk b) x) -> zlen row = b.
Proof.
  intros H1 H2 H. apply in_map_iff in H as (p & <- & Ip). pose proof (HL k x b p H1 H2 Ip). unfold blk. rewrite zlen_cons, zlen_app, zlen_repeat. lia.
Qed.
Lemma len_row k x b : rd X k = Some x -> rd nb k = Some b -> zlen (concat (map (blk b) x)) = zlen x * b.
Proof. intros H1 H2. rewrite (zlen_uniform _ b) by (intros row; now apply (blk_len k)). now rewrite zlen_map. Qed.
Lemma nb_at k x : rd X k = Some x -> exists b, rd nb k = Some b.
Proof. intros H. apply rd_in_bound. apply rd_Some_bound in H. lia. Qed.
Notation M := (concat (concat Y)).
Lemma M_at k x b i p j y : rd X k = Some x -> rd nb k = Some b -> rd x i = Some p -> rd (blk b p) j = Some y ->
  rd M (off1 (map (@concat Z) Y) k + i * b + j) = Some y.
Proof.
  intros H1 H2 H3 H4. rewrite <- concat_map_concat. pose proof (rd_Some_bound _ _ _ H4) as Bj. rewrite (blk_len k x b) in Bj; auto; [|apply in_map; eapply rd_In; eauto].
  replace (off1 (map (@concat Z) Y) k + i * b + j) with (off1 (map (@concat Z) Y) k + (i * b + j)) by lia.
  apply (rd_concat_off (map (@concat Z) Y) k (concat (map (blk b) x)) (i * b + j) y); [now rewrite rd_map, (rd_Y k x b)|].
  rewrite (uniform_rd (map (blk b) x) b i j (blk b p)); auto; [intros row; now apply (blk_len k x b)|]. now rewrite rd_map, H3.
Qed.
Lemma rd_blk_path b p j : 0 <= j < zlen p -> rd (blk b p) (1 + j) = rd p j.
Proof using. clear. intros H. unfold blk. rewrite rd_cons. replace (1 + j =? 0) with false by lia. replace (1 + j - 1) with j by lia. apply rd_app_l. lia. Qed.

Variables (gpu : bool) (fs : list nfsa) (cdf : list R) (ord : Z -> list Z).
Hypothesis LF : zlen fs = N.
Hypothesis FO : fair ord.
Hypothesis LC : zlen cdf = zlen (concat (concat fs)).
Hypothesis WALK : forall k f x b i p, rd fs k = Some f -> rd X k = Some x -> rd nb k = Some b -> rd x i = Some p ->
  rp_walk gpu (flat_vec fs) cdf (off1 fs k) (off1 fs k + zlen f - 1) (Z.to_nat (b + 1)) (off1 fs k) ((1 / 2 + IZR i) / IZR (zlen x))%R = Some p.
Variables (srs1 srs2 : list Z).
Hypothesis NSB : num_state_batches ord N srs1 srs2 = Some nb.

Lemma asm_ok : random_paths_of gpu ord (flat_vec fs) cdf (map zlen X) srs1 srs2 = Some (splits_of X, splits_of (concat X), concat (concat X)).
Proof.
  unfold random_paths_of. change (v_rs1 (flat_vec fs)) with (splits_of fs). change (v_arcs (flat_vec fs)) with (concat (concat fs)). rewrite zlen_splits_of, LF. replace (N + 1 - 1) with N by lia. rewrite LC, Z.eqb_refl, zlen_map, Z.eqb_refl, NSB.
  rewrite (RaggedOpsProofs.mapM_zrange _ _ (map zlen (map (@concat Z) Y))); [|apply zlen_nonneg|now rewrite !zlen_map, zlen_Y|].
  2:{ intros k Hk. destruct (rd_in_bound X k Hk) as (x & Hx). destruct (nb_at k x Hx) as (b & Hb). rewrite !rd_map, Hx, Hb, (rd_Y k x b Hx Hb). cbn [option_map]. pose proof (NB0 k b Hb). replace (negb (b =? -1)) with true by lia. now rewrite (len_row k x b). }
  change (exsum (map zlen (map (@concat Z) Y))) with (splits_of (map (@concat Z) Y)). change (exsum (map zlen X)) with (splits_of X).
  assert (E1 : rd (splits_of (map (@concat Z) Y)) N = Some (zlen M)) by (rewrite <- concat_map_concat; rewrite <- zlen_Y, <- (zlen_map (@concat Z) Y); apply rd_splits_last).
  rewrite E1, rd_splits_last, row_ids_of_splits.
  (* writes *)
  assert (P : forall i, 0 <= i < zlen (concat X) -> exists k f x b p i', rd (ids_of X) i = Some k /\ rd fs k = Some f /\ rd X k = Some x /\ rd nb k = Some b /\ rd x i' = Some p /\ rd (concat X) i = Some p /\ i = off1 X k + i').
  { intros i Hi. destruct (rd_in_bound (concat X) i Hi) as (p & Hp). destruct (rd_concat_inv X i p Hp) as (k & x & i' & H1 & H2 & H3 & H4). destruct (nb_at k x H1) as (b & Hb).
    destruct (rd_in_bound fs k) as (f & Hf); [apply rd_Some_bound in H1; lia|]. exists k, f, x, b, p, i'. repeat split; auto. }
  set (start := fun i => match rd (ids_of X) i with Some k => off1 (map (@concat Z) Y) k + (i - off1 X k) * at0 nb k | None => 0 end).
  assert (PS : forall k x b i' , rd X k = Some x -> rd nb k = Some b -> 0 <= i' < zlen x -> start (off1 X k + i') = off1 (map (@concat Z) Y) k + i' * b).
  { intros k x b i' H1 H2 H3. destruct (rd_in_bound x i' H3) as (p & Hp). destruct (rd_concat_off X k x i' p H1 Hp) as (_ & I). unfold start. rewrite I. unfold at0. rewrite H2. f_equal. f_equal. lia. }
  match goal with |- context [k2_eval _ ?b _] => set (body := b) end.
  assert (W : forall i, 0 <= i < zlen (concat X) -> exists p, rd (concat X) i = Some p /\ body i = Some ((start i, zlen p) :: imap (fun t q => (start i + 1 + t, q)) 0 p)).
  { intros i Hi. destruct (P i Hi) as (k & f & x & b & p & i' & Q1 & Q2 & Q3 & Q4 & Q5 & Q6 & ->). exists p. split; auto. unfold body. rewrite Q1. pose proof (rd_Some_bound _ _ _ Q3). pose proof (rd_Some_bound _ _ _ Q5) as Bi.
    rewrite (rd_splits_off X) by lia. rewrite Q4, rd_map, Q3. cbn [option_map]. rewrite (rd_splits_off (map (@concat Z) Y)) by (rewrite zlen_map, zlen_Y; lia). rewrite !(rd_splits_off fs) by lia. rewrite (off1_next fs k f Q2).
    replace (off1 X k + i' - off1 X k) with i' by lia. rewrite (WALK k f x b i' p) by auto. now rewrite (PS k x b i') by auto. }
  assert (MC : forall i p, 0 <= i < zlen (concat X) -> rd (concat X) i = Some p -> rd M (start i) = Some (zlen p) /\ forall t, 0 <= t < zlen p -> rd M (start i + 1 + t) = rd p t).
  { intros i p Hi Hp. destruct (P i Hi) as (k & f & x & b & p' & i' & Q1 & Q2 & Q3 & Q4 & Q5 & Q6 & ->). assert (p' = p) by congruence. subst p'. pose proof (rd_Some_bound _ _ _ Q5) as Bi. rewrite (PS k x b i') by auto. split.
    - rewrite <- (Z.add_0_r (off1 _ k + _)). apply (M_at k x b i' p 0); auto.
    - intros t Ht. destruct (rd_in_bound p t Ht) as (y & Hy). rewrite Hy. rewrite <- Z.add_assoc. apply (M_at k x b i' p); auto. now rewrite rd_blk_path. }
  destruct (k2_eval_agrees (zlen M) (at0 M) body (ord (zlen (concat X)))) with (arr := repeat (@None Z) (Z.to_nat (zlen M))) as (mem & E2 & E3 & E4).
  { intros i Hi. apply (in_sched _ _ _ (FO _)) in Hi. destruct (W i Hi) as (p & Hp & ->). eexists. split; [reflexivity|]. destruct (MC i p Hi Hp) as (M1 & M2). constructor.
    - split; cbn [fst snd]; [eapply rd_Some_bound; eauto|unfold at0; now rewrite M1].
    - apply Forall_forall. intros w Iw. apply In_rd in Iw as (t & Bt & Ht). rewrite zlen_imap in Bt. rewrite rd_imap in Ht. destruct (rd p t) as [q|] eqn:Eq; [|discriminate]. cbn [option_map] in Ht. injection Ht as <-. specialize (M2 t Bt). rewrite Eq in M2.
      split; cbn [fst snd]; replace (start i + 1 + (0 + t)) with (start i + 1 + t) by lia; [eapply rd_Some_bound; eauto|unfold at0; now rewrite M2]. }
  { rewrite zlen_repeat. pose proof (zlen_nonneg M). lia. }
  rewrite E2.
  assert (RM : forall i p, 0 <= i < zlen (concat X) -> rd (concat X) i = Some p -> rd mem (start i) = Some (Some (zlen p)) /\ forall t, 0 <= t < zlen p -> rd mem (start i + (1 + t)) = option_map Some (rd p t)).
  { intros i p Hi Hp. destruct (MC i p Hi Hp) as (M1 & M2). destruct (W i Hi) as (p' & Hp' & B1). assert (p' = p) by congruence. subst p'. assert (Io : In i (ord (zlen (concat X)))) by now apply (in_sched _ _ _ (FO _)). split.
    - rewrite E4; [unfold at0; now rewrite M1|eapply rd_Some_bound; eauto|]. right. exists i, ((start i, zlen p) :: imap (fun t q => (start i + 1 + t, q)) 0 p). split; auto. split; auto. now left.
    - intros t Ht. specialize (M2 t Ht). destruct (rd_in_bound p t Ht) as (q & Hq). rewrite Hq in *. replace (start i + (1 + t)) with (start i + 1 + t) by lia. rewrite E4; [unfold at0; now rewrite M2|eapply rd_Some_bound; eauto|].
      right. exists i, ((start i, zlen p) :: imap (fun t q => (start i + 1 + t, q)) 0 p). split; auto. split; auto. cbn [map fst]. right. apply in_map_iff. exists (start i + 1 + t, q). split; auto. apply (rd_In _ t). rewrite rd_imap, Hq. reflexivity. }
  rewrite (RaggedOpsProofs.mapM_zrange _ _ (map zlen (concat X))); [|apply zlen_nonneg|apply zlen_map|].
  2:{ intros i Hi. destruct (P i Hi) as (k & f & x & b & p & i' & Q1 & Q2 & Q3 & Q4 & Q5 & Q6 & ->). rewrite Q1. pose proof (rd_Some_bound _ _ _ Q3). pose proof (rd_Some_bound _ _ _ Q5) as Bi.
      rewrite (rd_splits_off X) by lia. rewrite Q4. rewrite (rd_splits_off (map (@concat Z) Y)) by (rewrite zlen_map, zlen_Y; lia). replace (off1 X k + i' - off1 X k) with i' by lia. rewrite <- (PS k x b i') by auto.
      destruct (RM _ p Hi Q6) as (-> & _). rewrite rd_map, Q6. cbn [option_map]. pose proof (HL k x b p Q3 Q4 (rd_In _ _ _ Q5)). replace (0 <? zlen p) with true by lia. now replace (zlen p <? b) with true by lia. }
  change (exsum (map zlen (concat X))) with (splits_of (concat X)). rewrite rd_splits_last, row_ids_of_splits.
  rewrite (RaggedOpsProofs.mapM_zrange _ _ (concat (concat X))); [reflexivity|apply zlen_nonneg|reflexivity|].
  intros t Ht. destruct (rd_in_bound _ t Ht) as (q & Hq). destruct (rd_concat_inv _ t q Hq) as (i & p & j & H1 & H2 & -> & H4). rewrite Hq, H4. pose proof (rd_Some_bound _ _ _ H1) as Bi0. pose proof (rd_Some_bound _ _ _ H2).
  rewrite (rd_splits_off (concat X)) by lia. destruct (P i Bi0) as (k & f & x & b & p' & i' & Q1 & Q2 & Q3 & Q4 & Q5 & Q6 & ->). rewrite Q1. pose proof (rd_Some_bound _ _ _ Q3). pose proof (rd_Some_bound _ _ _ Q5) as Bi.
  rewrite (rd_splits_off X) by lia. rewrite Q4. rewrite (rd_splits_off (map (@concat Z) Y)) by (rewrite zlen_map, zlen_Y; lia). replace (off1 X k + i' - off1 X k) with i' by lia. rewrite <- (PS k x b i') by auto.
  replace (off1 (concat X) (off1 X k + i') + j - off1 (concat X) (off1 X k + i')) with j by lia. destruct (RM _ p Bi0 H1) as (_ & R). rewrite R by lia. now rewrite H2.
Qed.
End Asm.
