(** * Proofs about GetArcCdf. *)
From Coq Require Import ZArith List Lia Lra Bool Reals Permutation.
From Coq Require Import ZifyBool ZifyNat.
From Verif Require Import Base RaggedModel RaggedSpec RaggedProofs FsaSpec FsaLemmas EpsLoopProofs RaggedOpsModel RaggedOpsSpec RaggedOpsProofs
  ConnectProofs LogReal MutualInfoProofs BatchModel ScoreModel ScoreSpec PathSums ScoreProofs RandModel.
Import ListNotations.
Open Scope Z_scope.

Lemma rlt_iff x y : rlt x y = true <-> (x < y)%R.
Proof. unfold rlt. destruct (Rlt_dec x y); split; auto; discriminate. Qed.
Lemma rlt_false x y : rlt x y = false <-> (y <= x)%R.
Proof. unfold rlt. destruct (Rlt_dec x y); split; intros; try discriminate; auto; lra. Qed.
Lemma rle_iff x y : rle x y = true <-> (x <= y)%R.
Proof. unfold rle. destruct (Rle_dec x y); split; auto; discriminate. Qed.
Lemma req_iff x y : req x y = true <-> x = y.
Proof. unfold req. destruct (Req_EM_T x y); split; auto; discriminate. Qed.
Lemma fold_Rplus l : forall a, fold_left Rplus l a = (a + sumf (fun x => x) l)%R.
Proof. induction l as [|x l IH]; intros a; cbn [fold_left]; [rewrite sumf_nil; lra|]. rewrite IH, sumf_cons. lra. Qed.
Lemma sumf_le {A} (f : A -> R) l x : (forall a, 0 <= f a)%R -> In x l -> (f x <= sumf f l)%R.
Proof.
  intros N. induction l as [|a l IH]; intros []; rewrite sumf_cons.
  - subst. pose proof (sumf_nonneg f l N). lra.
  - specialize (IH H). specialize (N a). lra.
Qed.
Lemma mapM_tab {A} (f : Z -> option A) (g : Z -> A) n : 0 <= n -> (forall i, 0 <= i < n -> f i = Some (g i)) -> mapM f (zrange n) = Some (tab n g).
Proof. intros Hn H. apply RaggedOpsProofs.mapM_zrange; auto; [now rewrite zlen_tab by lia|]. intros i Hi. rewrite H, rd_tab by lia. reflexivity. Qed.
Lemma tab_map_zrange {A} (g : Z -> A) n : tab n g = map g (zrange n).
Proof. reflexivity. Qed.

Section Cdf.
Context (Ss : list (list arc)) (post : list (option R)) (v : fsavec).
Context (V2 : v_rs2 v = splits_of Ss) (VA : v_arcs v = concat Ss) (LP : zlen post = zlen (concat Ss)).
Notation An := (zlen (concat Ss)).
Notation o := (off1 Ss).
Definition pq (q : Z) : option R := match rd post q with Some x => x | None => None end.
Definition EE (q : Z) : R := expo (pq q).
Definition rowlen (s : Z) : Z := match rd Ss s with Some r => zlen r | None => 0 end.
Definition pre (s t : Z) : R := sumf (fun i => EE (o s + i)) (zrange t).
Definition PP (s : Z) : R := pre s (rowlen s).
Definition CC (s t : Z) : R := (pre s t * / PP s)%R.
Definition cd (q : Z) : R := match rd (ids_of Ss) q with Some s => CC s (q - o s) | None => 0%R end.

Lemma EE_nonneg q : (0 <= EE q)%R. Proof. apply expo_nonneg. Qed.
Lemma pre_S s t : 0 <= t -> pre s (t + 1) = (pre s t + EE (o s + t))%R.
Proof. intros. unfold pre. rewrite zrange_S by lia. rewrite sumf_app, sumf_cons, sumf_nil. lra. Qed.
Lemma pre_0 s : pre s 0 = 0%R. Proof. reflexivity. Qed.
Lemma pre_mono s t t' : 0 <= t <= t' -> (pre s t <= pre s t')%R.
Proof.
  intros H. replace t' with (t + Z.of_nat (Z.to_nat (t' - t))) by lia. generalize (Z.to_nat (t' - t)) as n. clear t' H. induction n as [|n IH]; [replace (t + Z.of_nat 0) with t by lia; lra|].
  destruct (Z_lt_le_dec (t + Z.of_nat n) 0).
  - unfold pre in *. replace (zrange (t + Z.of_nat (S n))) with (@nil Z); [rewrite sumf_nil|unfold zrange; now replace (Z.to_nat (t + Z.of_nat (S n))) with 0%nat by lia].
    unfold pre. replace (zrange t) with (@nil Z) by (unfold zrange; now replace (Z.to_nat t) with 0%nat by lia). rewrite sumf_nil. lra.
  - replace (t + Z.of_nat (S n)) with (t + Z.of_nat n + 1) by lia. rewrite pre_S by lia. pose proof (EE_nonneg (o s + (t + Z.of_nat n))). lra.
Qed.
Lemma pre_nonneg s t : (0 <= pre s t)%R. Proof. apply sumf_nonneg. intros; apply EE_nonneg. Qed.
Lemma PP_nonneg s : (0 <= PP s)%R. Proof. apply pre_nonneg. Qed.
Lemma CC_0 s : CC s 0 = 0%R. Proof. unfold CC. rewrite pre_0. lra. Qed.
Lemma invP_nonneg s : (0 <= / PP s)%R.
Proof. pose proof (PP_nonneg s). destruct (Req_EM_T (PP s) 0) as [->|N]; [rewrite Rinv_0; lra|]. left. apply Rinv_0_lt_compat. lra. Qed.
Lemma CC_mono s t t' : 0 <= t <= t' -> (CC s t <= CC s t')%R.
Proof. intros H. unfold CC. apply Rmult_le_compat_r; [apply invP_nonneg|now apply pre_mono]. Qed.
Lemma CC_end s : PP s <> 0%R -> CC s (rowlen s) = 1%R.
Proof. intros H. unfold CC. fold (PP s). now field. Qed.
Lemma CC_end0 s : PP s = 0%R -> CC s (rowlen s) = 0%R.
Proof. intros H. unfold CC. fold (PP s). rewrite H. lra. Qed.
Lemma CC_le1 s t : 0 <= t <= rowlen s -> (CC s t <= 1)%R.
Proof. intros H. pose proof (CC_mono s t (rowlen s) H). destruct (Req_EM_T (PP s) 0); [rewrite CC_end0 in H0 by auto|rewrite CC_end in H0 by auto]; lra. Qed.
Lemma CC_S s t : 0 <= t -> CC s (t + 1) = (CC s t + EE (o s + t) * / PP s)%R.
Proof. intros. unfold CC. rewrite pre_S by lia. lra. Qed.

Lemma arc_pos q : 0 <= q < An -> exists s r j, rd Ss s = Some r /\ 0 <= j < zlen r /\ q = o s + j /\ rd (ids_of Ss) q = Some s /\ rowlen s = zlen r /\ 0 <= s < zlen Ss.
Proof.
  intros H. destruct (rd_in_bound _ _ H) as (a & Ha). destruct (rd_concat_inv _ _ _ Ha) as (s & r & j & H1 & H2 & H3 & H4). exists s, r, j. unfold rowlen. rewrite H1.
  pose proof (rd_Some_bound _ _ _ H1). pose proof (rd_Some_bound _ _ _ H2). repeat split; auto; lia.
Qed.
Lemma row_pos s r j : rd Ss s = Some r -> 0 <= j < zlen r -> 0 <= o s + j < An /\ rd (ids_of Ss) (o s + j) = Some s.
Proof. intros H Hj. destruct (rd_in_bound r j Hj) as (a & Ha). destruct (rd_concat_off Ss s r j a H Ha) as (H1 & H2). split; auto. now apply rd_Some_bound in H1. Qed.
Lemma rd_pq q : 0 <= q < An -> rd post q = Some (pq q).
Proof. intros H. unfold pq. destruct (rd_in_bound post q ltac:(lia)) as (x & ->). reflexivity. Qed.
Lemma cd_at s r j : rd Ss s = Some r -> 0 <= j < zlen r -> cd (o s + j) = CC s j.
Proof. intros H Hj. unfold cd. destruct (row_pos s r j H Hj) as (_ & ->). f_equal. lia. Qed.

Definition SP (s : Z) : option R := ssum true (map (fun t => pq (o s + t)) (zrange (rowlen s))).
Lemma expo_SP s : expo (SP s) = PP s.
Proof. unfold SP. rewrite expo_ssum, sumf_map. reflexivity. Qed.
Lemma row_splits_at s r : rd Ss s = Some r -> rd (splits_of Ss) s = Some (o s) /\ rd (splits_of Ss) (s + 1) = Some (o s + zlen r).
Proof. intros H. pose proof (rd_Some_bound _ _ _ H). rewrite !rd_splits_off by lia. now rewrite (off1_next _ _ _ H). Qed.
Lemma state_post_ok : state_post (splits_of Ss) post = Some (tab (zlen Ss) SP).
Proof using LP. clear v V2 VA.
  unfold state_post. rewrite zlen_splits_of. replace (zlen Ss + 1 - 1) with (zlen Ss) by lia. apply mapM_tab; [apply zlen_nonneg|]. intros s Hs. destruct (rd_in_bound Ss s Hs) as (r & Hr). destruct (row_splits_at s r Hr) as (-> & ->).
  replace (o s + zlen r - o s) with (zlen r) by lia. rewrite (mapM_tab _ (fun t => pq (o s + t))); [|apply zlen_nonneg|intros t Ht; apply rd_pq; now apply (row_pos s r t)].
  change (logadd None) with (splus true). rewrite fold_left_ssum, splus_None. unfold SP, rowlen. now rewrite Hr.
Qed.
Definition pdfv (q : Z) : R := match rd (ids_of Ss) q with Some s => (EE q * / PP s)%R | None => 0%R end.
Lemma arc_pdf_ok : arc_pdf (ids_of Ss) (tab (zlen Ss) SP) post = Some (tab An pdfv).
Proof using LP. clear v V2 VA.
  unfold arc_pdf. rewrite LP. apply mapM_tab; [apply zlen_nonneg|]. intros q Hq. destruct (arc_pos q Hq) as (s & r & j & H1 & H2 & H3 & H4 & H5 & H6). unfold pdfv. rewrite rd_pq, H4, rd_tab by auto. f_equal. rewrite expo_ladd. fold (EE q). f_equal.
  assert (D : expo (SP s) = PP s) by apply expo_SP. destruct (SP s) as [x|]; cbn [lneg option_map expo] in *.
  - rewrite exp_Ropp. now rewrite D.
  - now rewrite <- D, Rinv_0.
Qed.
Lemma seg_exsum_ok : seg_exsum (splits_of Ss) (ids_of Ss) (tab An pdfv) = Some (tab An cd).
Proof using LP. clear v V2 VA.
  unfold seg_exsum. rewrite zlen_tab by apply zlen_nonneg. apply mapM_tab; [apply zlen_nonneg|]. intros q Hq. destruct (arc_pos q Hq) as (s & r & j & H1 & H2 & H3 & H4 & H5 & H6). rewrite H4. destruct (row_splits_at s r H1) as (-> & _).
  replace (q - o s) with j by lia. rewrite (mapM_tab _ (fun t => pdfv (o s + t))); [|lia|intros t Ht; apply rd_tab; destruct (row_pos s r t H1 ltac:(lia)); lia]. f_equal. rewrite fold_Rplus, tab_map_zrange, sumf_map, Rplus_0_l. rewrite H3, (cd_at s r j H1 H2). unfold CC, pre.
  rewrite Rmult_comm, <- sumf_scale. apply sumf_ext. intros t Ht. apply in_zrange in Ht. unfold pdfv. destruct (row_pos s r t H1 ltac:(lia)) as (_ & ->). lra.
Qed.
Lemma inv_tots_ok : inv_tots (splits_of Ss) (tab An cd) (tab An pdfv) = Some (tab (zlen Ss) (fun _ => 1%R)).
Proof using LP. clear v V2 VA.
  unfold inv_tots. rewrite zlen_splits_of. replace (zlen Ss + 1 - 1) with (zlen Ss) by lia. apply mapM_tab; [apply zlen_nonneg|]. intros s Hs. destruct (rd_in_bound Ss s Hs) as (r & Hr). destruct (row_splits_at s r Hr) as (-> & ->).
  destruct (o s <? o s + zlen r) eqn:E; auto. destruct (row_pos s r (zlen r - 1) Hr ltac:(lia)) as (B & ID). replace (o s + zlen r - 1) with (o s + (zlen r - 1)) by lia. rewrite !rd_tab by lia. f_equal.
  replace (cd (o s + (zlen r - 1)) + pdfv (o s + (zlen r - 1)))%R with (CC s (rowlen s)).
  - destruct (Req_EM_T (PP s) 0) as [Z|N].
    + rewrite CC_end0 by auto. replace (rlt 0 0) with false; auto. symmetry. apply rlt_false. lra.
    + rewrite CC_end by auto. replace (rlt 0 1) with true; [lra|]. symmetry. apply rlt_iff. lra.
  - rewrite (cd_at s r (zlen r - 1) Hr) by lia. unfold pdfv. rewrite ID, <- CC_S by lia. f_equal. unfold rowlen. rewrite Hr. lia.
Qed.
Lemma modify_cdf_ok : modify_cdf (ids_of Ss) (tab An cd) (tab (zlen Ss) (fun _ => 1%R)) = Some (tab An cd).
Proof using LP. clear v V2 VA.
  unfold modify_cdf. rewrite zlen_tab by apply zlen_nonneg. apply mapM_tab; [apply zlen_nonneg|]. intros q Hq. destruct (arc_pos q Hq) as (s & r & j & H1 & H2 & H3 & H4 & H5 & H6). rewrite H4, !rd_tab by lia. f_equal. lra.
Qed.
Lemma fix_scan_ok s r cutoff x : rd Ss s = Some r -> forall n j, 0 <= j -> j + Z.of_nat n <= zlen r -> (x <= CC s j)%R -> fix_scan (tab An cd) cutoff n (o s + j) x = Some x.
Proof using LP. clear v V2 VA.
  intros Hr. induction n as [|n IH]; intros j Hj L Hx; auto. cbn [fix_scan]. destruct (row_pos s r j Hr ltac:(lia)) as (B & _). rewrite rd_tab by lia. rewrite (cd_at s r j Hr) by lia.
  replace (rlt (CC s j) x) with false by (symmetry; now apply rlt_false). destruct (rlt cutoff (CC s j)); auto. replace (o s + j + 1) with (o s + (j + 1)) by lia. apply IH; try lia. pose proof (CC_mono s j (j + 1) ltac:(lia)). lra.
Qed.
Lemma fix_step_ok q : 0 <= q < An -> fix_step (splits_of Ss) (ids_of Ss) (tab An cd) q = Some (tab An cd).
Proof using LP. clear v V2 VA.
  intros Hq. destruct (arc_pos q Hq) as (s & r & j & H1 & H2 & H3 & H4 & H5 & H6). unfold fix_step. rewrite H4. destruct (row_splits_at s r H1) as (_ & ->). rewrite rd_tab by lia. subst q. rewrite (cd_at s r j H1 H2).
  replace (o s + j + 1) with (o s + (j + 1)) by lia. rewrite (fix_scan_ok s r _ _ H1) by (try lia; apply CC_mono; lia). pose proof (CC_le1 s j ltac:(lia)).
  replace (rlt 1 (CC s j)) with false by (symmetry; apply rlt_false; lra). now replace (req (CC s j) (CC s j)) with true by (symmetry; now apply req_iff).
Qed.
Theorem get_arc_cdf_ok ord : fair ord -> get_arc_cdf ord v post = Some (tab An cd).
Proof.
  intros FO. unfold get_arc_cdf. rewrite V2, VA, row_ids_of_splits, LP, Z.eqb_refl, state_post_ok, arc_pdf_ok, seg_exsum_ok, inv_tots_ok, modify_cdf_ok.
  assert (G : forall l, (forall q, In q l -> 0 <= q < An) -> foldB (fix_step (splits_of Ss) (ids_of Ss)) l (tab An cd) = Some (tab An cd)).
  { induction l as [|q l IH]; intros H; auto. cbn [foldB]. rewrite fix_step_ok by (apply H; now left). apply IH. intros; apply H; now right. }
  apply G. intros q Hq. now apply (in_sched _ _ _ (FO An)) in Hq.
Qed.
End Cdf.
