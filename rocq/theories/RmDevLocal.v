(** From states of the batch to states of one FSA, and the per-FSA result *)
From Coq Require Import ZArith List Lia Bool Permutation Sorted.
From Coq Require Import ZifyBool ZifyNat.
From Verif Require Import Base RaggedModel RaggedSpec RaggedProofs FsaSpec FsaLemmas FsaOpsModel OpsModel ScoreSpec ShortestSpec IntersectPaths PropsSpec PropsProps ConnectProofs ExtractProofs RmEpsSpec RmDevSpec
  RmDevModel RmDevRagged RmDevEnc RmDevIter RmDevStep RmDevClos RmDevMap RmDevComb RmDevLang RmDevRun.
Import ListNotations.
Open Scope Z_scope.

Section One.
Variable fs : list nfsa.
Notation N := (NS fs).
Variables (i : Z) (f : nfsa).
Hypothesis Hi : rd fs i = Some f.
Notation b := (off1 fs i).
Definition sts (K : Z -> bool) : list Z := filter K (map (fun k => off1 fs i + k) (zrange (zlen f))).
Definition its (K : Z -> bool) (R : Z -> list item) : list item := concat (map R (sts K)).
Definition gi (K : Z -> bool) (R : Z -> list item) : nfsa := map (fun o => map (enc fs K) (R o)) (sts K).
Definition inb (o : Z) : Prop := b <= o < b + zlen f.
Lemma inb_ok o : inb o -> 0 <= o < N /\ so fs o = b /\ fid fs o = i.
Proof. intros H. destruct (fid_of fs i f o Hi H) as (H1 & H2 & H3). auto. Qed.
Lemma inb_same o o' : inb o -> 0 <= o' < N -> so fs o' = so fs o -> inb o'.
Proof.
  intros H B S. destruct (inb_ok o H) as (_ & S2 & _). destruct (fid_ok fs o' B) as (i' & f' & F1 & F2 & F3 & F4 & F5). unfold inb in *. assert (Q : i' = i); [|rewrite Q in *; rewrite Hi in F1; injection F1 as <-; lia].
  destruct (Z.lt_trichotomy i i') as [C|[C|C]]; auto; exfalso.
  - pose proof (off1_mono fs (i + 1) i' ltac:(pose proof (rd_Some_bound _ _ _ Hi); lia)) as Q. rewrite (off1_next _ _ _ Hi) in Q. lia.
  - pose proof (off1_mono fs (i' + 1) i ltac:(pose proof (rd_Some_bound _ _ _ F1); lia)) as Q. rewrite (off1_next _ _ _ F1) in Q. lia.
Qed.
Lemma rd_Lgi K : rd (Lg fs K) i = Some (sts K).
Proof. unfold Lg. rewrite rd_map, (rd_idx_rows fs i f Hi). reflexivity. Qed.
Lemma rd_gsi K R : rd (gsof fs K R) i = Some (gi K R).
Proof. unfold gsof. rewrite rd_map, rd_Lgi. reflexivity. Qed.
Lemma in_sts K o : In o (sts K) <-> inb o /\ K o = true.
Proof.
  unfold sts. rewrite filter_In, in_map_iff. split; intros (H & KO); split; auto.
  - destruct H as (k & <- & Hk). apply in_zrange in Hk. unfold inb. lia.
  - exists (o - b). split; [lia|]. apply in_zrange. unfold inb in H. lia.
Qed.
Lemma sts_rd K r o : rd (sts K) r = Some o -> inb o /\ K o = true /\ r = nw K o - nw K b.
Proof.
  intros H. destruct (proj1 (in_sts K o) (rd_In _ _ _ H)) as (B & KO). split; [auto|]. split; [auto|]. pose proof (rd_Some_bound _ _ _ Hi). destruct (rd_concat_off _ _ _ _ _ (rd_Lgi K) H) as (H1 & _). rewrite concat_Lg, off_Lg in H1 by lia. apply L_rd in H1. lia.
Qed.
Lemma rd_sts K o : inb o -> K o = true -> rd (sts K) (nw K o - nw K b) = Some o.
Proof.
  intros B KO. assert (I : In o (sts K)) by (now apply in_sts). apply In_rd in I as (r & _ & Hr). destruct (sts_rd K r o Hr) as (_ & _ & <-). exact Hr.
Qed.
Lemma zlen_sts K : zlen (sts K) = nw K (b + zlen f) - nw K b.
Proof.
  pose proof (rd_Some_bound _ _ _ Hi). pose proof (off1_next _ _ _ (rd_Lgi K)) as Q. rewrite !off_Lg in Q by lia. rewrite (off1_next _ _ _ Hi) in Q. lia.
Qed.

Section Paths.
Variables (K : Z -> bool) (R : Z -> list item).
Hypothesis WF : wf fs K R.
Lemma all_gi : all_arcs (gi K R) = map (enc fs K) (its K R).
Proof. unfold all_arcs, gi, its. rewrite concat_map, map_map. reflexivity. Qed.
Lemma in_its x : In x (its K R) <-> inb (isrc x) /\ In x (R (isrc x)).
Proof.
  unfold its. rewrite in_concat. split.
  - intros (l & H1 & H2). apply in_map_iff in H1 as (o & <- & Ho). apply in_sts in Ho as (B & KO). destruct (proj2 WF o x) as (S & _); [apply inb_ok; auto|auto|]. now rewrite S.
  - intros (B & H). exists (R (isrc x)). split; [|auto]. apply in_map, in_sts. split; [auto|]. destruct (K (isrc x)) eqn:E; [auto|]. rewrite (proj1 WF _ E) in H. destruct H.
Qed.
Lemma R_in o x : inb o -> In x (R o) -> isrc x = o /\ inb (idst x) /\ K (idst x) = true /\ K o = true.
Proof.
  intros B H. destruct (proj2 WF o x) as (S & W1 & W2 & W3); [apply inb_ok; auto|auto|]. split; [auto|]. split; [now apply (inb_same o)|]. split; [auto|]. destruct (K o) eqn:E; [auto|]. rewrite (proj1 WF _ E) in H. destruct H.
Qed.
Lemma down o ys t : ipath R o ys t -> inb o -> exists q, apath (gi K R) (nw K o - nw K b) q (nw K t - nw K b) /\ mapM (rd (its K R)) q = Some ys.
Proof.
  induction 1 as [o|o x ys t Hx Hp IH]; intros B; [exists []; split; [constructor|reflexivity]|]. destruct (R_in o x B Hx) as (S & D & KD & KO). destruct (IH D) as (q & P1 & P2). assert (I : In x (its K R)) by (apply in_its; now rewrite S). apply In_rd in I as (j & _ & Hj). exists (j :: q). split.
  - assert (Ha : rd (all_arcs (gi K R)) j = Some (enc fs K x)) by (rewrite all_gi, rd_map, Hj; reflexivity). destruct (inb_ok o B) as (_ & SO & _). replace (nw K o - nw K b) with (src (enc fs K x)) by (cbn; rewrite S, SO; lia). econstructor; [exact Ha|]. replace (dst (enc fs K x)) with (nw K (idst x) - nw K b) by (cbn; rewrite S, SO; lia). exact P1.
  - cbn [mapM]. rewrite Hj, P2. reflexivity.
Qed.
Lemma up s q t' : apath (gi K R) s q t' -> forall o, inb o -> K o = true -> s = nw K o - nw K b -> exists ys o', mapM (rd (its K R)) q = Some ys /\ ipath R o ys o' /\ t' = nw K o' - nw K b /\ inb o' /\ K o' = true.
Proof.
  induction 1 as [s|j a q t Ha Hp IH]; intros o B KO Es; [exists [], o; split; [reflexivity|]; split; [constructor|auto]|].
  rewrite all_gi, rd_map in Ha. destruct (rd (its K R) j) as [x|] eqn:Hj; [|discriminate]. injection Ha as <-. destruct (proj1 (in_its x) (rd_In _ _ _ Hj)) as (B2 & I). destruct (R_in _ x B2 I) as (_ & D & KD & KS). destruct (inb_ok _ B2) as (BB & SO & _). destruct (inb_ok _ B) as (BO & _). cbn in Es. rewrite SO in Es. assert (E : isrc x = o) by (apply (nw_inj K); auto; lia).
  destruct (IH (idst x) D KD) as (ys & o' & Y1 & Y2 & Y3); [cbn; rewrite SO; reflexivity|]. exists (x :: ys), o'. cbn [mapM]. rewrite Hj, Y1. split; [reflexivity|]. split; [constructor; [now rewrite <- E|auto]|exact Y3].
Qed.
Lemma at_gi q ys : mapM (rd (its K R)) q = Some ys -> arcs_at (gi K R) q = map (enc fs K) ys.
Proof.
  revert ys. induction q as [|j q IH]; intros ys H; cbn [mapM] in H; [injection H as <-; reflexivity|]. destruct (rd (its K R) j) as [x|] eqn:Hj; [|discriminate]. destruct (mapM (rd (its K R)) q) as [ys'|]; [|discriminate]. injection H as <-. rewrite (arcs_at_cons _ j q (enc fs K x)) by (rewrite all_gi, rd_map, Hj; reflexivity). cbn. now rewrite (IH ys' eq_refl).
Qed.
Lemma lab_enc ys : labels (map (enc fs K) ys) = map ilab ys.
Proof. unfold labels. rewrite map_map. reflexivity. Qed.
Lemma sc_enc ys : score (map (enc fs K) ys) = psc ys.
Proof. unfold score, psc. rewrite map_map. reflexivity. Qed.
End Paths.

Hypothesis HV : forall f, In f fs -> valid f \/ f = [].
Notation R0 := (R0 fs).
Lemma gi0 : gi T R0 = f.
Proof. pose proof (rd_gsi T R0) as H. rewrite (gs0 fs HV), Hi in H. now injection H. Qed.
Notation base := (off1 (map all_arcs fs) i).
Lemma its0 j x : rd (its T R0) j = Some x -> snd x = [base + j].
Proof.
  intros H. set (LL := map (fun l => concat (map R0 l)) (Lg fs T)). assert (CL : concat LL = fl fs R0).
  { unfold LL. rewrite <- (rows_concat fs T R0 (wf0 fs HV)), <- concat_Lg. generalize (Lg fs T). induction l as [|a l IH]; [reflexivity|]. cbn. now rewrite IH, map_app, concat_app. }
  assert (ZL : map zlen LL = map zlen (map all_arcs fs)).
  { transitivity (map zlen (map all_arcs (gsof fs T R0))); [|now rewrite (gs0 fs HV)]. unfold LL, gsof. rewrite !map_map. apply map_ext. intros l. unfold all_arcs. rewrite <- (map_map R0 (map (enc fs T))), <- concat_map, zlen_map. reflexivity. }
  assert (HL : rd LL i = Some (its T R0)) by (unfold LL; rewrite rd_map, rd_Lgi; reflexivity). destruct (rd_concat_off _ _ _ _ _ HL H) as (H1 & _). rewrite CL in H1. destruct (map_zlen_rd _ _ ZL) as (_ & _ & OF & _). rewrite OF in H1. exact (src0 fs HV _ _ H1).
Qed.
Lemma pmap0 q xs : mapM (rd (its T R0)) q = Some xs -> pmap xs = map (Z.add base) q.
Proof.
  revert xs. induction q as [|j q IH]; intros xs H; cbn [mapM] in H; [injection H as <-; reflexivity|]. destruct (rd (its T R0) j) as [x|] eqn:Hj; [|discriminate]. destruct (mapM (rd (its T R0)) q) as [xs'|]; [|discriminate]. injection H as <-. unfold pmap in *. cbn. rewrite (its0 j x Hj), (IH xs' eq_refl). reflexivity.
Qed.
Notation Kn := (Ks fs R0 false).
Notation Ke := (Ks fs R0 true).
Notation E := (Rs R0 true).
Lemma its0_arcs : map (enc fs T) (its T R0) = all_arcs f.
Proof. rewrite <- all_gi. now rewrite gi0. Qed.
Lemma Kn_arc o : inb o -> Kn o = true -> all_arcs f <> [].
Proof.
  intros B KO Ea. destruct (Ks_inv fs R0 false (wf0 fs HV) o KO) as (x & Hx & Sx). destruct (in_fl fs T R0 (wf0 fs HV) x Hx) as (B1 & _ & I & _). assert (I2 : In x (its T R0)) by (apply (in_its T R0 (wf0 fs HV)); split; [now apply (inb_same o)|auto]). apply (in_map (enc fs T)) in I2. rewrite its0_arcs, Ea in I2. destruct I2.
Qed.
Lemma no_arcs K R : all_arcs f = [] -> (forall o, K o = true -> Kn o = true) -> sts K = [] /\ gi K R = [] /\ its K R = [].
Proof.
  intros Ea HK. assert (S : sts K = []). { destruct (sts K) as [|o l] eqn:E0; [auto|]. exfalso. assert (I : In o (sts K)) by (rewrite E0; now left). apply in_sts in I as (B & KO). exact (Kn_arc o B (HK o KO) Ea). } unfold gi, its. now rewrite S.
Qed.

(** the facts of a valid FSA *)
Section Valid.
Hypothesis VF : valid f.
Notation fin := (b + zlen f - 1).
Lemma lenf : 2 <= zlen f. Proof. apply VF. Qed.
Lemma inb_fin : inb fin. Proof. pose proof lenf. unfold inb. lia. Qed.
Lemma inb_b : inb b. Proof. pose proof lenf. unfold inb. lia. Qed.
Lemma R0_facts o x : inb o -> In x (R0 o) -> isrc x = o /\ inb (idst x) /\ -1 <= ilab x /\ (ilab x = -1 <-> idst x = fin) /\ o <> fin.
Proof.
  intros B H. destruct (R_in T R0 (wf0 fs HV) o x B H) as (S & D & _). split; [auto|]. split; [auto|]. assert (I2 : In x (its T R0)) by (apply (in_its T R0 (wf0 fs HV)); rewrite S; auto). apply (in_map (enc fs T)) in I2. rewrite its0_arcs in I2. destruct VF as (_ & _ & V). destruct (V _ I2) as (V1 & V2 & V3 & V4). unfold final, nstates in *. destruct (inb_ok o B) as (B1 & SO & _). destruct (inb_ok _ D) as (B2 & _). pose proof (off1_nonneg fs i). cbn in V1, V2, V3, V4. rewrite S, SO, !nwT in * by lia. split; [auto|]. split; [rewrite V3; lia|lia].
Qed.
Lemma R0_path o xs t : inb o -> ipath R0 o xs t -> inb t.
Proof. intros B H. induction H as [|o x p t Hx Hp IH]; [auto|]. apply IH. now apply (R0_facts o x B Hx). Qed.
Lemma fin_end xs t : ipath R0 fin xs t -> xs = [] /\ t = fin.
Proof. intros H. inversion H; subst; [auto|]. exfalso. now apply (R0_facts fin x inb_fin). Qed.
Lemma to_fin o xs x : inb o -> ipath R0 o (xs ++ [x]) fin -> ilab x = -1.
Proof.
  intros B H. apply ipath_split in H as (u & P1 & P2). pose proof (R0_path o xs u B P1) as BU. apply ipath_inv in P2 as (I & P2). inversion P2; subst. destruct (R0_facts u x BU I) as (_ & _ & _ & Q & _). now apply Q.
Qed.
Lemma minus_one o xs x t : inb o -> ipath R0 o xs t -> In x xs -> ilab x = -1 -> t = fin.
Proof.
  intros B H. induction H as [|o y p t Hy Hp IH]; intros Hx Lx; [destruct Hx|]. destruct (R0_facts o y B Hy) as (_ & D & _ & Q & _). destruct Hx as [->|Hx]; [|now apply IH]. apply Q in Lx. rewrite Lx in Hp. now apply fin_end in Hp.
Qed.

Variables C R' : Z -> list item.
Hypothesis HC : closed fs Ke E C.
Hypothesis WR : wf fs Kn R'.
Hypothesis HR : forall o z, 0 <= o < N -> (In z (R' o) <-> In z (Rall fs R0 C o)).
Lemma R'_derived o y : inb o -> In y (R' o) -> derived R0 o y.
Proof. intros B H. apply (all_derived fs R0 (rng0 fs) C HC). apply HR; [apply inb_ok; auto|auto]. Qed.
Lemma toall o ys t : inb o -> ipath R' o ys t -> ipath (Rall fs R0 C) o ys t.
Proof. intros B H. induction H as [|o x p t Hx Hp IH]; constructor; [apply HR; auto; apply inb_ok; auto|]. apply IH. now apply (R_in Kn R' WR o x B). Qed.
Lemma ofall o ys t : inb o -> ipath (Rall fs R0 C) o ys t -> ipath R' o ys t.
Proof. intros B H. induction H as [|o x p t Hx Hp IH]; constructor; [apply HR; auto; apply inb_ok; auto|]. apply IH. apply (R_in Kn R' WR o x B). apply HR; auto. apply inb_ok; auto. Qed.
Definition dr : list (list Z) := map (map (fun j => j - base)) (map snd (its Kn R')).
Lemma dr_maps : map snd (its Kn R') = map (map (Z.add base)) dr.
Proof.
  unfold dr. rewrite !map_map. apply map_ext. intros x. rewrite map_map. rewrite <- (map_id (snd x)) at 1. apply map_ext. intros; lia.
Qed.
Definition back (q : list Z) : list Z := concat (map (fun j => match rd dr j with Some d => d | None => [] end) q).
Lemma back_ok q ys : mapM (rd (its Kn R')) q = Some ys -> back q = map (fun j => j - base) (pmap ys).
Proof.
  revert ys. induction q as [|j q IH]; intros ys H; cbn [mapM] in H; [injection H as <-; reflexivity|]. destruct (rd (its Kn R') j) as [x|] eqn:Hj; [|discriminate]. destruct (mapM (rd (its Kn R')) q) as [ys'|]; [|discriminate]. injection H as <-. unfold back, pmap in *. cbn. rewrite map_app, <- (IH ys' eq_refl). f_equal. unfold dr. rewrite !rd_map, Hj. reflexivity.
Qed.
Hypothesis HA : all_arcs f <> [].
Lemma kept_ends : Kn b = true /\ Kn fin = true.
Proof.
  destruct (its T R0) as [|x l] eqn:Ei; [exfalso; apply HA; rewrite <- its0_arcs, Ei; reflexivity|]. assert (I : In x (its T R0)) by (rewrite Ei; now left). apply (in_its T R0 (wf0 fs HV)) in I as (B & I). destruct (inb_ok _ B) as (B1 & SO & FI). assert (IF : In x (fl fs R0)) by (apply in_flat; eauto). destruct (Ks_first fs R0 false (wf0 fs HV) x IF) as (K1 & K2). rewrite SO in K1. split; [exact K1|]. unfold eo in K2. rewrite FI, (off1_next _ _ _ Hi) in K2. exact K2.
Qed.
Lemma nw_fin : nstates (gi Kn R') - 1 = nw Kn fin - nw Kn b.
Proof.
  unfold nstates, gi. rewrite zlen_map, zlen_sts. pose proof (off1_nonneg fs i). pose proof lenf. pose proof (nw_next Kn fin ltac:(lia)) as Q. replace (fin + 1) with (b + zlen f) in Q by lia. rewrite Q, (proj2 kept_ends). cbn [b2z]. lia.
Qed.
Lemma g_valid : valid (gi Kn R').
Proof.
  destruct kept_ends as (K1 & K2). pose proof lenf. pose proof (off1_nonneg fs i). pose proof (nw_lt Kn b fin ltac:(lia) K1) as LT. pose proof nw_fin as NF. split; [|split].
  - intros r st a Hr Ha. unfold gi in Hr. rewrite rd_map in Hr. destruct (rd (sts Kn) r) as [o|] eqn:Ho; [|discriminate]. injection Hr as <-. destruct (sts_rd Kn r o Ho) as (B & KO & ->). apply in_map_iff in Ha as (x & <- & Hx). destruct (R_in Kn R' WR o x B Hx) as (S & _). destruct (inb_ok o B) as (_ & SO & _). cbn. now rewrite S, SO.
  - lia.
  - intros a Ha. rewrite all_gi in Ha. apply in_map_iff in Ha as (x & <- & Hx). apply (in_its Kn R' WR) in Hx as (B & Hx). set (o := isrc x) in *. destruct (R_in Kn R' WR o x B Hx) as (S & D & KD & KO). destruct (inb_ok o B) as (B1 & SO & _). destruct (inb_ok _ D) as (B2 & _). destruct (R'_derived o x B Hx) as (L & xs & P1 & _ & P3 & _).
    assert (NE : xs <> []) by (intros ->; discriminate P3).
    assert (INL : forall y, In y xs -> ilab y <> 0 -> ilab y = ilab x). { intros y Hy Ly. assert (Q : In (ilab y) (plab xs)) by (apply filter_In; split; [now apply in_map|lia]). rewrite P3 in Q. destruct Q as [Q|[]]. congruence. }
    assert (LX : exists y, In y xs /\ ilab y = ilab x). { assert (Q : In (ilab x) (plab xs)) by (rewrite P3; now left). apply filter_In in Q as (Q & _). apply in_map_iff in Q as (y & Q1 & Q2). eauto. }
    assert (NOF : o <> fin). { destruct xs as [|y xs]; [congruence|]. apply ipath_inv in P1 as (Y & _). now apply (R0_facts o y B Y). }
    assert (LM : -1 <= ilab x). { destruct LX as (y & Hy & <-). assert (G : forall o xs t, inb o -> ipath R0 o xs t -> forall y, In y xs -> -1 <= ilab y); [|apply (G o xs (idst x) B P1 y Hy)]. clear - Hi HV VF. intros o xs t B H. induction H as [|o z p t Hz Hp IH]; intros y Hy; [destruct Hy|]. destruct (R0_facts o z B Hz) as (_ & D & G & _). destruct Hy as [<-|Hy]; auto. }
    assert (FE : ilab x = -1 <-> idst x = fin). { split.
      - intros Q. destruct LX as (y & Hy & Ly). apply (minus_one o xs y); auto. congruence.
      - intros Q. destruct (exists_last NE) as (xs0 & y & ->). rewrite Q in P1. pose proof (to_fin o xs0 y B P1) as LY. rewrite <- (INL y); [exact LY|apply in_app_iff; right; now left|lia]. }
    unfold final. change (zlen (gi Kn R')) with (nstates (gi Kn R')). rewrite NF. cbn. fold o. rewrite SO. split; [|split; [exact LM|split]].
    + unfold inb in D. assert (nw Kn b <= nw Kn (idst x)) by (apply nw_mono; lia). assert (nw Kn (idst x) <= nw Kn fin) by (apply nw_mono; lia). lia.
    + rewrite FE. split; intros Q; [rewrite Q; lia|]. apply (nw_inj Kn); auto; try lia.
    + intros Q. apply NOF. apply (nw_inj Kn); auto; try lia.
Qed.
Lemma nw_T o : 0 <= o -> nw T o - nw T b = o - b.
Proof. intros H. pose proof (off1_nonneg fs i). rewrite !nwT by lia. auto. Qed.
Lemma g_removed : epsilon_removed f (gi Kn R') dr.
Proof.
  destruct kept_ends as (K1 & K2). pose proof lenf as LF. pose proof (off1_nonneg fs i) as OB. pose proof nw_fin as NF. unfold epsilon_removed. split; [|split; [|split]].
  - intros a Ha. rewrite all_gi in Ha. apply in_map_iff in Ha as (x & <- & Hx). apply (in_its Kn R' WR) in Hx as (B & Hx). now destruct (R'_derived _ x B Hx) as (L & _).
  - unfold dr. rewrite all_gi, !zlen_map. reflexivity.
  - intros q (NQ & HQ). fold (back q). rewrite NF in HQ. destruct (up Kn R' WR _ _ _ HQ b inb_b K1 ltac:(lia)) as (ys & o' & Y1 & Y2 & Y3 & Y4 & Y5). assert (o' = fin). { destruct (inb_ok _ Y4). apply (nw_inj Kn); auto; try lia. } subst o'.
    apply toall in Y2; [|exact inb_b]. destruct (lift fs R0 (rng0 fs) C HC b ys fin Y2) as (xs & X1 & X2 & X3 & X4). destruct (down T R0 (wf0 fs HV) b xs fin X1 inb_b) as (q0 & Q1 & Q2). rewrite gi0, !nw_T in Q1 by lia.
    assert (EQ : back q = q0). { rewrite (back_ok q ys Y1), <- X2, (pmap0 q0 xs Q2), map_map. rewrite <- (map_id q0) at 2. apply map_ext. intros; lia. }
    rewrite EQ. pose proof (at_gi T R0 q0 xs Q2) as A1. rewrite gi0 in A1. rewrite A1, (at_gi Kn R' q ys Y1), !lab_enc, !sc_enc. split; [|auto]. split; [unfold nstates; lia|]. unfold nstates. replace (zlen f - 1) with (fin - b) by lia. replace (b - b) with 0 in Q1 by lia. exact Q1.
  - intros p (NP & HP). rewrite <- gi0 in HP at 1. unfold nstates in HP. destruct (up T R0 (wf0 fs HV) _ _ _ HP b inb_b eq_refl ltac:(rewrite nw_T; lia)) as (xs & o' & X1 & X2 & X3 & X4 & _). assert (o' = fin). { destruct (inb_ok _ X4). rewrite nw_T in X3; lia. } subst o'.
    destruct (complete_start fs R0 (wf0 fs HV) (rng0 fs) C HC xs b fin K1) as (ys & Y1 & Y2 & Y3); auto.
    { apply inb_ok, inb_b. } { intros p0 x ->. rewrite (to_fin b p0 x inb_b X2). lia. }
    apply ofall in Y1; [|exact inb_b]. destruct (down Kn R' WR b ys fin Y1 inb_b) as (q & Q1 & Q2). exists q. pose proof (at_gi T R0 p xs X1) as A1. rewrite gi0 in A1. rewrite A1, (at_gi Kn R' q ys Q2), !lab_enc, !sc_enc. split; [|auto]. split; [pose proof (nw_lt Kn b fin ltac:(lia) K1); lia|]. rewrite NF. replace 0 with (nw Kn b - nw Kn b) by lia. exact Q1.
Qed.
End Valid.
End One.
