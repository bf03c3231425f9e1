(** TopSort: the order of the states and the renumbering. *)
From Coq Require Import ZArith List Lia Bool Sorted Permutation.
From Coq Require Import ZifyBool ZifyNat.
From Verif Require Import Base RaggedModel RaggedSpec RaggedProofs FsaSpec FsaLemmas FsaOpsModel FsaOpsProofs FsaOpsProps SelectProofs
  EpsLoopProofs RaggedOpsModel RaggedOpsSpec RaggedOpsProofs RaggedOpsProps OpsModel OpsProofs FstSpec GraphProofs PropsModel PropsSpec PropsProofs PropsProps ReverseModel ReverseProofs ReverseProps
  VecElement ConnectModel ConnectSpec ConnectProofs ExtractProofs ConnectRun ConnectProps TopSortModel TopSortProofs TopSortRun.
Import ListNotations.
Open Scope Z_scope.

Lemma NoDup_perm_full (l : list Z) (R : list Z) : NoDup l -> (forall x, In x l -> In x R) -> zlen R <= zlen l -> NoDup R -> Permutation l R.
Proof.
  intros N I L NR. apply NoDup_Permutation; auto. intros x. split; auto. apply NoDup_length_incl; auto. unfold zlen in L. lia.
Qed.

Section R.
Variable fs : list nfsa.
Hypothesis WF : Forall well_formed fs.
Let SO : Forall src_ok fs.
Proof. eapply Forall_impl; [|exact WF]. now intros f (H & _). Qed.
Let DO : Forall (fun f : nfsa => forall a, In a (all_arcs f) -> 0 <= dst a < nstates f) fs.
Proof. eapply Forall_impl; [|exact WF]. now intros f (_ & H). Qed.
Let Sn := zlen (concat fs).
Let An := zlen (concat (concat fs)).
Let v := flat_vec fs.
Definition irow (k : Z) (f : nfsa) : list Z := map (fun i => off1 fs k + i) (zrange (zlen f)).
Lemma in_irow k f s : In s (irow k f) <-> 0 <= s - off1 fs k < zlen f.
Proof.
  unfold irow. rewrite in_map_iff. split.
  - intros (i & <- & Hi). apply in_zrange in Hi. lia.
  - intros H. exists (s - off1 fs k). split; [lia|]. now apply in_zrange.
Qed.
Lemma irow_nodup k f : NoDup (irow k f).
Proof. unfold irow. apply FinFun.Injective_map_NoDup; [|apply NoDup_zrange]. intros x y. lia. Qed.
Lemma zlen_irow k f : zlen (irow k f) = zlen f.
Proof. unfold irow. rewrite zlen_map, zlen_zrange; auto. apply zlen_nonneg. Qed.

Variable O : list (list Z).
Hypothesis LO : zlen O = zlen fs.
Hypothesis HO : forall k f o, rd fs k = Some f -> rd O k = Some o -> Permutation o (irow k f).
Let L := concat O.

Lemma row_O k f : rd fs k = Some f -> exists o, rd O k = Some o /\ Permutation o (irow k f) /\ zlen o = zlen f /\ NoDup o /\
  (forall s, In s o <-> 0 <= s - off1 fs k < zlen f).
Proof.
  intros Hk. pose proof (rd_Some_bound _ _ _ Hk). destruct (rd_in_bound O k ltac:(lia)) as (o & Ho). exists o.
  pose proof (HO k f o Hk Ho) as P. split; auto. split; auto. split; [rewrite <- (zlen_irow k f); unfold zlen; now rewrite (Permutation_length P)|].
  split; [apply (Permutation_NoDup (Permutation_sym P)), irow_nodup|]. intros s. rewrite <- in_irow. split; apply Permutation_in; auto using Permutation_sym.
Qed.
Lemma same_lens : map zlen O = map zlen fs.
Proof.
  apply list_ext_rd; [rewrite !zlen_map; auto|]. intros k Hk. rewrite zlen_map, LO in Hk. destruct (rd_in_bound fs k Hk) as (f & Hf).
  destruct (row_O k f Hf) as (o & Ho & _ & E & _). rewrite !rd_map, Hf, Ho. cbn. congruence.
Qed.
Lemma off_O k : off1 O k = off1 fs k.
Proof. apply (map_zlen_rd fs O same_lens). Qed.
Lemma perm_L : Permutation L (zrange Sn).
Proof.
  unfold L, Sn. rewrite <- (splits_concat_zrange fs). apply concat_perm. apply Forall2_rd; [rewrite zlen_imap; auto|].
  intros k o y Ho Hy. rewrite rd_imap in Hy. destruct (rd fs k) as [f|] eqn:Hf; [|discriminate]. cbn in Hy. injection Hy as <-.
  rewrite Z.add_0_l. apply (HO k f o Hf Ho).
Qed.
Lemma zlen_L : zlen L = Sn.
Proof. pose proof (zlen_nonneg (concat fs)). rewrite <- (zlen_zrange Sn) by auto. unfold zlen. now rewrite (Permutation_length perm_L). Qed.
Lemma nodup_L : NoDup L.
Proof. apply (Permutation_NoDup (Permutation_sym perm_L)), NoDup_zrange. Qed.
Lemma in_L' s : In s L <-> 0 <= s < Sn.
Proof. rewrite <- in_zrange. split; apply Permutation_in; auto using perm_L, Permutation_sym. Qed.

Definition pos (s : Z) : Z := match find (fun i => at0 (concat O) i =? s) (zrange (zlen (concat O))) with Some i => i | None => 0 end.
Lemma pos_ok s : 0 <= s < Sn -> rd L (pos s) = Some s.
Proof.
  intros H. apply in_L' in H. apply In_rd in H as (i & Bi & Hi). unfold pos. fold L.
  destruct (find (fun i => at0 L i =? s) (zrange (zlen L))) as [j|] eqn:E.
  - apply find_some in E as (Hj & E). apply in_zrange in Hj. rewrite rd_at0 by auto. f_equal. lia.
  - exfalso. pose proof (find_none _ _ E i (proj2 (in_zrange _ _) Bi)) as X. cbn in X. unfold at0 in X. rewrite Hi in X. lia.
Qed.
Lemma pos_row k f o i : rd fs k = Some f -> rd O k = Some o -> 0 <= i < zlen f ->
  rd o (pos (off1 fs k + i) - off1 fs k) = Some (off1 fs k + i) /\ rd (ids_of fs) (pos (off1 fs k + i)) = Some k.
Proof.
  intros Hk Ho Hi. pose proof (state_range fs k f i Hk Hi) as SR. pose proof (pos_ok _ SR) as Hp.
  destruct (rd_concat_inv _ _ _ Hp) as (k' & o' & j & R1 & R2 & R3 & R4).
  assert (B : 0 <= k' < zlen fs) by (rewrite <- LO; now apply rd_Some_bound in R1). destruct (rd_in_bound fs k' B) as (f' & Hf').
  destruct (row_O k' f' Hf') as (o'' & Ho' & _ & _ & _ & I). assert (o'' = o') by congruence. subst o''.
  pose proof (proj1 (I _) (rd_In _ _ _ R2)) as B'.
  destruct (row_unique fs k f i k' f' (off1 fs k + i - off1 fs k') Hk Hf' Hi B' ltac:(lia)) as (<- & _ & <-).
  assert (o' = o) by congruence. subst o'. rewrite off_O in R3. rewrite <- (ids_of_zlen fs O) by apply same_lens. split; auto.
  replace (pos (off1 fs k + i) - off1 fs k) with j by lia. auto.
Qed.

(** the scatter *)
Lemma o2n_full ord : fair ord -> exists m, renumber_o2n ord Sn L = Some m /\ forall s, 0 <= s < Sn -> rd m s = Some (Some (pos s)).
Proof.
  intros HF. unfold renumber_o2n. pose proof (zlen_nonneg (concat fs)) as HS. rewrite zlen_L, Z.eqb_refl.
  assert (G : forall l (m : list (option Z)), zlen m = Sn -> (forall i, In i l -> 0 <= i < Sn) -> exists m', foldM (fun m i => s <- rd L i;; wr m s (Some i)) l m = Some m' /\ zlen m' = Sn /\
            forall i s, rd L i = Some s -> (In i l -> rd m' s = Some (Some i)) /\ (~ In i l -> rd m' s = rd m s)).
  { induction l as [|i l IH]; intros m Lm B; cbn [foldM].
    - exists m. split; auto. split; auto. intros i s E. split; [intros []|auto].
    - assert (Bi : 0 <= i < Sn) by (apply B; now left). destruct (rd_in_bound L i ltac:(rewrite zlen_L; auto)) as (s & Es). rewrite Es.
      assert (Bs : 0 <= s < Sn) by (apply in_L'; eapply rd_In; eauto). destruct (wr_Some m s (Some i) ltac:(lia)) as (m1 & W & L1 & R1). rewrite W.
      destruct (IH m1 ltac:(lia) ltac:(intros; apply B; now right)) as (m' & F & L' & R'). exists m'. split; auto. split; auto.
      intros j t Ej. destruct (R' j t Ej) as (Q1 & Q2). split.
      + intros Hj. destruct (in_dec Z.eq_dec j l) as [I|I]; auto. destruct Hj as [<-|Hj]; [|contradiction].
        rewrite Q2, R1 by auto. assert (t = s) by congruence. subst t. now rewrite Z.eqb_refl.
      + intros N. rewrite Q2 by (intros X; apply N; now right). rewrite R1. replace (t =? s) with false; auto. symmetry. apply Z.eqb_neq. intros ->.
        apply N. left. eapply NoDup_rd; eauto using nodup_L. }
  destruct (G (ord Sn) (repeat None (Z.to_nat Sn))) as (m & F & _ & R).
  { unfold zlen. rewrite repeat_length. lia. }
  { intros i Hi. now apply (in_sched _ _ _ (HF _)). }
  exists m. split; auto. intros s Hs. apply (R (pos s) s (pos_ok s Hs)). apply (in_sched _ _ _ (HF _)). rewrite <- zlen_L. eapply rd_Some_bound, pos_ok; auto.
Qed.

Definition fsa_of (s : Z) : Z := at0 (ids_of fs) s.
Definition rna (q : Z) : arc := match rd (concat (concat fs)) q with
  | Some a => let b := off1 fs (fsa_of (srcq fs q)) in mkArc (pos (srcq fs q) - b) (pos (dstq fs q) - b) (lab a) (sc a)
  | None => mkArc 0 0 0 0 end.
Lemma fsa_of_ok k f i : rd fs k = Some f -> 0 <= i < zlen f -> fsa_of (off1 fs k + i) = k.
Proof.
  intros Hk Hi. unfold fsa_of, at0. destruct (rd_in_bound f i Hi) as (st & Hst). destruct (rd_concat_off fs k f i st Hk Hst) as (_ & ->). reflexivity.
Qed.
Lemma rna_ok k f j a o : rd fs k = Some f -> rd (all_arcs f) j = Some a -> rd O k = Some o ->
  rna (abase fs k + j) = mkArc (pos (off1 fs k + src a) - off1 fs k) (pos (off1 fs k + dst a) - off1 fs k) (lab a) (sc a) /\
  rd o (src (rna (abase fs k + j))) = Some (off1 fs k + src a) /\ rd o (dst (rna (abase fs k + j))) = Some (off1 fs k + dst a).
Proof.
  intros Hk Ha Ho. destruct (arc_by_pos fs WF k f j a Hk Ha) as (P1 & _ & _ & B1 & B2). destruct (arc_kj fs WF k f j a Hk Ha) as (_ & A2 & A3).
  assert (E : rna (abase fs k + j) = mkArc (pos (off1 fs k + src a) - off1 fs k) (pos (off1 fs k + dst a) - off1 fs k) (lab a) (sc a)).
  { unfold rna. rewrite P1, A2, A3, (fsa_of_ok k f) by auto. reflexivity. }
  rewrite E. cbn [src dst]. split; auto. split; eapply pos_row; eauto.
Qed.

Let G := map (arow fs) L.
Let ts := x_ts fs O (fun _ => true) rna.

Lemma renumber_ok ord : fair ord -> renumber_fsa_vec ord v L =
  Some (mkVOut (vec_of ts) (ids_of (concat ts)) (map snd (concat (concat ts)))).
Proof.
  intros HF. pose proof (zlen_nonneg (concat fs)) as HS. unfold renumber_fsa_vec. cbn [v flat_vec v_rs1 v_rs2 v_arcs]. rewrite zlen_splits_of.
  replace (zlen (concat fs) + 1 - 1) with Sn by (unfold Sn; lia). rewrite zlen_L. replace (Sn <=? Sn) with true by lia. rewrite Z.eqb_refl.
  destruct (o2n_full ord HF) as (m & EM & RM). rewrite EM.
  assert (Bs : forall s, In s L -> exists st, rd (concat fs) s = Some st /\ rd (splits_of (concat fs)) s = Some (off1 (concat fs) s) /\
             rd (splits_of (concat fs)) (s + 1) = Some (off1 (concat fs) s + zlen st) /\ arow fs s = map (fun j => off1 (concat fs) s + j) (zrange (zlen st))).
  { intros s Hs. apply in_L' in Hs. destruct (rd_in_bound (concat fs) s Hs) as (st & Hst). exists st. pose proof (off1_next (concat fs) s st Hst) as On.
    unfold Sn in Hs. rewrite !rd_splits_off by lia. rewrite On. repeat split; auto. unfold arow. now rewrite (rd_idx_rows _ _ _ Hst). }
  assert (E1 : mapM (fun s => x <- rd (splits_of (concat fs)) s;; y <- rd (splits_of (concat fs)) (s + 1);; Some (y - x)) L = Some (map zlen G)).
  { unfold G. rewrite map_map. apply mapM_Some_map. intros s Hs. destruct (Bs s Hs) as (st & _ & R1 & R2 & R3). rewrite R1, R2, R3, zlen_map, zlen_zrange by apply zlen_nonneg.
    f_equal. lia. }
  rewrite E1. assert (EI : row_splits_to_row_ids (splits_of fs) Sn = Some (ids_of fs)) by (unfold Sn; apply row_ids_of_splits). rewrite EI. change (exsum (map zlen G)) with (splits_of G).
  assert (LG : zlen G = Sn) by (unfold G; rewrite zlen_map; apply zlen_L). rewrite <- LG at 1. rewrite RaggedCatProofs.rd_splits_last, row_ids_of_splits.
  match goal with |- context [mapM ?g (zrange (zlen (concat G)))] => assert (E2 : mapM g (zrange (zlen (concat G))) = Some (map (fun q => (rna q, q)) (concat G))) end.
  { rewrite <- (zlen_map (fun q => (rna q, q)) (concat G)). apply GraphProofs.mapM_zrange. intros i x Hx. rewrite rd_map in Hx.
    destruct (rd (concat G) i) as [q|] eqn:Eq; [|discriminate]. cbn in Hx. injection Hx as <-.
    destruct (rd_concat_inv _ _ _ Eq) as (r & l & j & R1 & R2 & -> & R4). unfold renumber_arc. rewrite R4.
    pose proof (rd_Some_bound _ _ _ R1) as Br. rewrite (rd_splits_off G r) by lia.
    unfold G in R1. rewrite rd_map in R1. destruct (rd L r) as [s|] eqn:Es; [|discriminate]. cbn in R1. injection R1 as <-.
    destruct (Bs s (rd_In _ _ _ Es)) as (st & Hst & S1 & S2 & S3).
    pose proof (proj1 (in_L' s) (rd_In _ _ _ Es)) as Rs. destruct (state_pos fs s Rs) as (k & f & i & st' & Hk & Hi & -> & Bi).
    destruct (row_O k f Hk) as (o & Ho & _). destruct (pos_row k f o i Hk Ho Bi) as (Q1 & Q2).
    assert (Er : pos (off1 fs k + i) = r) by (eapply NoDup_rd; eauto using nodup_L, pos_ok). rewrite Er in Q1, Q2.
    rewrite Q2. rewrite (rd_splits_off fs k) by (apply rd_Some_bound in Hk; lia).
    change (v_rs2 v) with (splits_of (concat fs)). change (v_rs1 v) with (splits_of fs). change (v_arcs v) with (concat (concat fs)).
    rewrite S1. pose proof (rd_In _ _ _ R2) as Iq. destruct (arow_inv fs WF k f i q Hk Bi Iq) as (j' & a & Ha & -> & E3).
    destruct (arc_by_pos fs WF k f j' a Hk Ha) as (P1 & P2 & _ & B1 & B2).
    assert (EQ : off1 (concat fs) (off1 fs k + i) + (off1 G r + j - off1 G r) = abase fs k + j').
    { rewrite S3 in R2. rewrite rd_map in R2. destruct (rd (zrange (zlen st)) j) as [j0|] eqn:E0; [|discriminate].
      cbn in R2. injection R2 as R2. rewrite <- R2. f_equal. pose proof (rd_Some_bound _ _ _ E0) as Bj. rewrite zlen_zrange in Bj by apply zlen_nonneg.
      rewrite rd_zrange in E0 by auto. injection E0 as ->. lia. }
    rewrite EQ. rewrite P1. rewrite (rd_splits_off fs k) by (apply rd_Some_bound in Hk; lia). rewrite E3.
    rewrite (RM _ Rs). rewrite Er, Z.eqb_refl.
    pose proof (state_range fs k f _ Hk B2) as SR. rewrite (RM _ SR).
    pose proof (rd_Some_bound _ _ _ (pos_ok _ SR)) as BP. replace (pos (off1 fs k + dst a) =? -1) with false by lia. cbn [negb].
    destruct (rna_ok k f j' a o Hk Ha Ho) as (-> & _). rewrite E3, Er. reflexivity. }
  rewrite E2. f_equal. rewrite vec_of_eq.
  assert (EZ : map zlen G = map zlen (concat ts)).
  { unfold G, ts, x_ts, xt, L. rewrite <- concat_map, !map_map. apply map_ext. intros s. rewrite zlen_map. f_equal. symmetry.
    clear. induction (arow fs s); cbn; congruence. }
  destruct (map_zlen_rd (concat ts) G EZ) as (_ & E3 & _). pose proof (ids_of_zlen (concat ts) G EZ) as E4. rewrite E3, E4.
  assert (EO : splits_of ts = splits_of fs).
  { apply map_zlen_rd. unfold ts, x_ts, xt. rewrite map_map. rewrite <- same_lens. apply map_ext. intros o. apply zlen_map. }
  rewrite EO.
  assert (EC : concat (concat ts) = map (fun q => (rna q, q)) (concat G)).
  { unfold ts, x_ts, xt, G, L. rewrite <- concat_map, (concat_map (fun q => (rna q, q))), map_map. f_equal. apply map_ext. intros s. f_equal.
    clear. induction (arow fs s); cbn; congruence. }
  rewrite EC, !map_map. cbn [fst snd]. rewrite map_id. reflexivity.
Qed.
End R.
