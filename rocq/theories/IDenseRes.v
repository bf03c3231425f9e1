(** * The pruned product of one graph is the intersection *)
From Coq Require Import ZArith List Lia Bool.
From Verif Require Import Base RaggedModel RaggedSpec RaggedProofs FsaSpec FsaLemmas ScoreSpec ScorePaths ShortestSpec ConnectSpec PropsSpec IntersectSpec IntersectPaths IDenseModel IDenseSpec IDensePaths.
From Verif Require ReplaceProps.
Import ListNotations.
Open Scope Z_scope.

Section Res.
Variable f : nfsa.
Variable rows : frames.
Variable beam : Z.
Notation A := (all_arcs f).
Notation T := (zlen rows).
Notation ns := (zlen f).
Notation cut := (oadd (Fw f rows (Z.to_nat T) (ns - 1)) (Some (- beam))).
Hypothesis Hsrc : src_ok f.
Hypothesis Hdst : forall a, In a A -> 0 <= dst a < ns.
Hypothesis Hbeam : 0 < beam.

Lemma Fw_Bw : 0 < ns -> Fw f rows (Z.to_nat T) (ns - 1) = Bw f rows (Z.to_nat T) 0.
Proof.
  intros _. pose proof (zlen_nonneg rows). eapply best_unique; [apply Fw_best|].
  pose proof (Bw_best f rows Hsrc (Z.to_nat T) 0) as X. replace (T - Z.of_nat (Z.to_nat T)) with 0 in X by lia. exact X.
Qed.
Lemma above p x : dense_path f rows p -> dense_score f rows 0 p = Some x ->
  ogt (Some x) cut = true <-> within_beam f rows beam p.
Proof.
  intros Hp Hx. pose proof (zlen_nonneg rows).
  destruct (Fw_best f rows (Z.to_nat T) (ns - 1)) as (B1 & B2). rewrite Z2Nat.id in B1, B2 by lia.
  destruct Hp as (Hs & Hl). pose proof Hs as (Hn & Ha). unfold nstates in *. split.
  - intros H1. split; [split; assumption|]. exists x. split; [exact Hx|]. intros p' x' ((_ & H2) & H3) H4.
    pose proof (B1 p' (conj H2 H3)) as X. rewrite H4 in X. destruct (Fw f rows (Z.to_nat T) (ns - 1)) as [b|]; [|destruct X].
    cbn in X, H1. apply Z.ltb_lt in H1. lia.
  - intros (_ & x0 & Hx0 & Hb). rewrite Hx in Hx0. injection Hx0 as <-.
    destruct (Fw f rows (Z.to_nat T) (ns - 1)) as [b|] eqn:Eb; [|reflexivity].
    destruct (B2 b eq_refl) as (p' & (P1 & P2) & P3). specialize (Hb p' b (conj (conj Hn P1) P2) P3). cbn. apply Z.ltb_lt. lia.
Qed.
Lemma dense_at0 p : dense_path f rows p <-> 0 < ns /\ apath f 0 p (ns - 1) /\ 0 + zlen p = T.
Proof. unfold dense_path, successful, nstates. rewrite Z.add_0_l. tauto. Qed.

Notation Nn := (N f rows cut).
Notation Gg := (G f rows cut).
Notation ps := (pos f rows cut).
Notation am := (fun j => apos f (lf f rows cut j)).

Lemma ends : Nn <> [] -> 0 < ns /\ keepS f rows cut 0 0 = true /\ keepS f rows cut T (ns - 1) = true /\ ps 0 0 = 0 /\ ps T (ns - 1) = zlen Gg - 1 /\
  exists p x, dense_path f rows p /\ dense_score f rows 0 p = Some x.
Proof.
  intros HN. pose proof (zlen_nonneg rows). destruct Nn as [|x0 l0] eqn:EN; [congruence|]. assert (H0 : rd Nn 0 = Some x0) by (rewrite EN; reflexivity). clear EN HN l0.
  apply N_inv in H0 as (t & s & -> & _ & Ht & Hs & HK).
  apply keepS_path in HK; try assumption; try lia. destruct HK as (_ & p0 & p & x & X1 & X2 & X3 & X4 & X5 & X6).
  assert (HP : apath f 0 (p0 ++ p) (ns - 1)) by (apply apath_app; eauto).
  assert (HL : 0 + zlen (p0 ++ p) = T) by (rewrite zlen_app; lia).
  destruct (G_complete f rows Hsrc cut Hdst (p0 ++ p) 0 0 []) as (K0 & _); try assumption; try lia; try apply ap_nil; try reflexivity.
  { rewrite X5. cbn [dense_score oadd]. exact X6. }
  destruct (G_complete f rows Hsrc cut Hdst [] T (ns - 1) (p0 ++ p)) as (KT & _); try assumption; try lia; try apply ap_nil; try reflexivity.
  { change (zlen (@nil Z)) with 0. lia. }
  { rewrite X5. cbn [dense_score]. rewrite oadd_0. exact X6. }
  split; [lia|]. split; [exact K0|]. split; [exact KT|]. split; [reflexivity|]. split; [|exists (p0 ++ p), x; split; [apply dense_at0; repeat split; try assumption; lia|exact X5]].
  rewrite zlen_G. unfold N, pos.
  assert (E : copies f (T + 1) = firstn (Z.to_nat (T * ns + (ns - 1))) (copies f (T + 1)) ++ [(T, ns - 1)]).
  { assert (LC : length (copies f (T + 1)) = S (Z.to_nat (T * ns + (ns - 1)))).
    { pose proof (zlen_copies f (T + 1) ltac:(lia)) as Z1. unfold zlen at 1 in Z1. pose proof (zlen_nonneg f). nia. }
    pose proof (rd_copies f (T + 1) T (ns - 1) ltac:(lia) ltac:(lia) ltac:(lia)) as R.
    pose proof (zlen_nonneg f). etransitivity; [exact (rd_skipn _ _ _ R)|]. do 2 f_equal. apply length_zero_iff_nil. rewrite skipn_length. lia. }
  rewrite E at 2. rewrite filter_app. cbn [filter]. unfold kp at 3. cbn [fst snd]. rewrite KT, zlen_app. change (zlen [(T, ns - 1)]) with 1. lia.
Qed.
Lemma G_nil : Gg = [] <-> Nn = [].
Proof. split; intros H; [apply zlen_0_nil; rewrite <- (zlen_G f rows cut), H; reflexivity|]. unfold G, L, L0. now rewrite H. Qed.
Lemma succ_G q : successful Gg q <-> Nn <> [] /\ apath Gg (ps 0 0) q (ps T (ns - 1)).
Proof.
  unfold successful, nstates. split.
  - intros (H1 & H2). assert (HN : Nn <> []) by (intros X; rewrite zlen_G, X in H1; change (zlen (@nil (Z * Z))) with 0 in H1; lia).
    split; [exact HN|]. destruct (ends HN) as (_ & _ & _ & -> & -> & _). exact H2.
  - intros (HN & H). destruct (ends HN) as (_ & _ & _ & E1 & E2 & _). rewrite E1, E2 in H. split; [|exact H].
    rewrite zlen_G. destruct Nn; [congruence|rewrite zlen_cons; pose proof (zlen_nonneg l); lia].
Qed.

Variable mem : list (option Z).
Variable loc : Z -> Z -> Z.
Hypothesis Hmem : forall t l x, frame rows t l = Some x -> rd mem (loc t l) = Some (Some x).
Notation bm := (fun j => let y := lf f rows cut j in loc (fst (fst y)) (lab (larc f y))).

Lemma wt_frame t a x : wt rows t a = Some x -> exists y, frame rows t (lab a) = Some y /\ x = sc a + y.
Proof. unfold wt. destruct (frame rows t (lab a)); [|discriminate]. intros [= <-]. eauto. Qed.

Theorem pruned_ok : is_dense_intersection f rows beam mem loc Gg am bm.
Proof.
  pose proof (zlen_nonneg rows) as HT.
  assert (COMP : forall p, within_beam f rows beam p -> Nn <> [] /\ exists q, apath Gg (ps 0 0) q (ps T (ns - 1)) /\ map am q = p).
  { intros p Hw. pose proof Hw as (Hp & x & Hx & _). pose proof (proj2 (above p x Hp Hx) Hw) as Hc.
    apply dense_at0 in Hp as (P1 & P2 & P3).
    destruct (G_complete f rows Hsrc cut Hdst p 0 0 []) as (K0 & q & Q1 & Q2); try assumption; try lia; try apply ap_nil; try reflexivity.
    { cbn [dense_score]. rewrite oadd_comm, oadd_0, Hx. exact Hc. }
    split; [|exists q; split; assumption]. pose proof (N_pos f rows cut 0 0 ltac:(lia) ltac:(lia) K0) as X. intros E. rewrite E, rd_nil in X. discriminate. }
  split; [|split; [|split; [|split; [|split]]]].
  - intros q Hq. apply succ_G in Hq as (HN & Hq). destruct (ends HN) as (Hn & K0 & KT & _ & _ & _).
    destruct (G_sound f rows Hsrc cut Hdst q 0 0 T (ns - 1)) as (S1 & S2 & S3 & S4 & S5); try assumption; try lia.
    split; [apply dense_at0; rewrite zlen_map; repeat split; assumption|]. split; [exact S3|]. split; [exact S4|].
    intros t j a Ht Ha. destruct (G_arc f rows cut Hdst j a Ha) as (y & _ & El & _ & ->). cbv zeta. rewrite (S5 t j Ht), El. cbn [lab oarc]. reflexivity.
  - intros p Hw. destruct (COMP p Hw) as (HN & q & Q1 & Q2). exists q. split; [split; [apply succ_G; auto|exact Q2]|].
    intros q' (Q1' & Q2'). apply succ_G in Q1' as (_ & Q1'). destruct (ends HN) as (Hn & K0 & _).
    eapply (G_unique f rows Hsrc cut Hdst q 0 0 q'); try eassumption; try lia. congruence.
  - intros j Hj. destruct (rd_in_bound _ _ Hj) as (a & Ha). destruct (G_arc f rows cut Hdst j a Ha) as (y & Ey & El & Hok & ->).
    destruct (leaf_path f rows Hsrc cut Hdst y Hok) as (p0 & p & x & X1 & X2 & X3 & X4 & X5 & X6).
    destruct (leaf_fw f rows Hsrc cut Hdst y Hok) as (Y1 & Y2 & Y3 & Y4 & _).
    assert (HP : dense_path f rows (p0 ++ apos f y :: p)).
    { apply dense_at0. destruct Hok as (st & _ & Hst & _). pose proof (rd_Some_bound _ _ _ Hst). split; [lia|]. split; [|rewrite zlen_app, zlen_cons; lia].
      apply apath_app. exists (snd (fst y)). split; [exact X1|]. rewrite <- Y2. exact (ap_cons f _ _ _ _ Y1 X3). }
    pose proof (proj1 (above _ x HP X5) X6) as Hw. destruct (COMP _ Hw) as (HN & q & Q1 & Q2).
    exists q. split; [apply succ_G; auto|]. split; [|rewrite Q2; exact Hw].
    destruct (ends HN) as (Hn & K0 & KT & _).
    destruct (G_sound f rows Hsrc cut Hdst q 0 0 T (ns - 1)) as (_ & _ & _ & _ & S5); try assumption; try lia.
    assert (R : rd (map am q) (zlen p0) = Some (apos f y)).
    { rewrite Q2, rd_app_r by lia. rewrite Z.sub_diag. reflexivity. }
    rewrite rd_map in R. destruct (rd q (zlen p0)) as [j'|] eqn:Ej; [|discriminate]. injection R as R.
    specialize (S5 _ _ Ej).
    assert (Hj' : exists a', rd (all_arcs Gg) j' = Some a').
    { apply rd_in_bound. eapply apath_arcs; [exact Q1|exact (rd_In _ _ _ Ej)]. }
    destruct Hj' as (a' & Ha'). destruct (G_arc f rows cut Hdst j' a' Ha') as (y' & Ey' & El' & Hok' & ->).
    rewrite El' in R, S5. 
    destruct (leaf_fw f rows Hsrc cut Hdst y' Hok') as (Z1 & Z2 & _).
    assert (larc f y' = larc f y) by congruence.
    assert (y' = y).
    { assert (E1 : fst (fst y') = fst (fst y)) by lia. assert (E2 : snd (fst y') = snd (fst y)) by congruence.
      unfold apos in R. rewrite E2 in R. destruct y as ((y1 & y2) & y3), y' as ((y1' & y2') & y3'). cbn in *. f_equal; [f_equal|]; lia. }
    subst y'. assert (j = j').
    { pose proof (rd_Some_bound _ _ _ Ey). pose proof (rd_Some_bound _ _ _ Ey').
      pose proof (L_NoDup f rows cut) as ND. rewrite NoDup_nth_error in ND. specialize (ND (Z.to_nat j) (Z.to_nat j')).
      rewrite <- !rd_nth, !Z2Nat.id in ND by lia. specialize (ND ltac:(change (zlen (concat (L f rows cut))) with (Z.of_nat (length (concat (L f rows cut)))) in *; lia) ltac:(congruence)). lia. }
    subst j'. exact (rd_In _ _ _ Ej).
  - rewrite G_nil. split.
    + intros HN p Hp. destruct (dense_score f rows 0 p) as [x|] eqn:Ex; [|reflexivity]. exfalso.
      apply dense_at0 in Hp as (P1 & P2 & P3). destruct (Fw_best f rows (Z.to_nat T) (ns - 1)) as (B1 & B2). rewrite Z2Nat.id in B1, B2 by lia.
      pose proof (B1 p ltac:(split; [exact P2|lia])) as X. rewrite Ex in X. destruct (Fw f rows (Z.to_nat T) (ns - 1)) as [b|] eqn:Eb; [|destruct X].
      destruct (B2 b eq_refl) as (p' & (P1' & P2') & P3'). assert (HP' : dense_path f rows p') by (apply dense_at0; repeat split; try assumption; lia).
      pose proof (above p' b HP' P3') as W. rewrite Eb in W. destruct (COMP p') as (HN' & _); [|exact (HN' HN)].
      apply W. cbn. apply Z.ltb_lt. lia.
    + intros H. destruct Nn as [|z l] eqn:E; [reflexivity|]. destruct ends as (_ & _ & _ & _ & _ & p & x & P1 & P2); [rewrite E; discriminate|].
      rewrite (H p P1) in P2. discriminate.
  - intros j a Ha. destruct (G_arc f rows cut Hdst j a Ha) as (y & Ey & El & Hok & ->). destruct (leaf_fw f rows Hsrc cut Hdst y Hok) as (Y1 & Y2 & Y3 & Y4 & x & Hx).
    destruct (wt_frame _ _ _ Hx) as (z & Hz & ->). exists (larc f y), z. rewrite El. cbv zeta. cbn [lab oarc sc]. unfold wz. rewrite Hx. repeat split; auto.
  - intros q q' Hq Hq' E. apply succ_G in Hq as (HN & Hq). apply succ_G in Hq' as (_ & Hq'). destruct (ends HN) as (Hn & K0 & _).
    eapply (G_unique f rows Hsrc cut Hdst q 0 0 q'); try eassumption; try lia.
Qed.

Theorem pruned_valid : valid f -> Gg = [] \/ valid Gg.
Proof.
  intros (V1 & V2 & V3). pose proof (zlen_nonneg rows) as HT. destruct Nn as [|x0 l0] eqn:EN; [left; now apply G_nil|right].
  assert (HN : Nn <> []) by (rewrite EN; discriminate). clear EN. destruct (ends HN) as (Hn & K0 & KT & E0 & ET & _).
  unfold nstates, final in *.
  assert (Tpos : 0 < T).
  { apply keepS_path in K0; try assumption; try lia. destruct K0 as (_ & p0 & p & x & X1 & X2 & X3 & X4 & _).
    apply zlen_0_nil in X2 as ->. inversion X1; subst. destruct p; [inversion X3; lia|]. rewrite zlen_cons in X4. pose proof (zlen_nonneg p). lia. }
  assert (STOP : forall t, 0 <= t -> keepS f rows cut t (ns - 1) = true -> t = T).
  { intros t Ht K. apply keepS_path in K; try assumption; try lia. destruct K as (_ & p0 & p & x & X1 & X2 & X3 & X4 & _).
    destruct p as [|j p]; [change (zlen (@nil Z)) with 0 in X4; lia|]. inversion X3 as [|? a ? ? Hj Hq]; subst.
    destruct (V3 a (rd_In _ _ _ Hj)) as (_ & _ & _ & X). congruence. }
  split; [apply G_src|]. unfold nstates, final. split.
  - pose proof (N_pos f rows cut 0 0 ltac:(lia) ltac:(lia) K0) as R0. pose proof (N_pos f rows cut T (ns - 1) ltac:(lia) ltac:(lia) KT) as R1.
    rewrite E0 in R0. pose proof (rd_Some_bound _ _ _ R0). pose proof (rd_Some_bound _ _ _ R1). rewrite ET in *. rewrite zlen_G in *.
    assert (zlen Nn - 1 <> 0). { intros X. rewrite X in R1. rewrite R0 in R1. injection R1. lia. } lia.
  - intros a Ha. apply In_rd in Ha as (j & _ & Ha). destruct (G_arc f rows cut Hdst j a Ha) as (y & Ey & El & Hok & ->).
    destruct (leaf_fw f rows Hsrc cut Hdst y Hok) as (Y1 & Y2 & Y3 & Y4 & _). destruct Hok as (st & Ht & Hst & Hi & K1 & K2).
    destruct (V3 _ (rd_In _ _ _ Y1)) as (W1 & W2 & W3 & W4). cbn [src dst lab oarc].
    pose proof (N_pos f rows cut (fst (fst y) + 1) (dst (larc f y)) ltac:(lia) Y3 Y4) as R. pose proof (rd_Some_bound _ _ _ R) as B. rewrite <- (zlen_G f rows cut) in B.
    split; [lia|]. split; [exact W2|]. rewrite <- ET. split.
    + rewrite W3. split.
      * intros E. rewrite E in Y4. apply STOP in Y4; [|lia]. rewrite E, Y4. reflexivity.
      * intros E. apply pos_inj in E; try assumption; try lia.
    + intros E. pose proof (rd_Some_bound _ _ _ Hst). apply pos_inj in E; try assumption; try lia. 
Qed.

(** the copies of a frame come before those of the next one *)
Lemma filter_firstn_le {X} (p : X -> bool) (l : list X) : forall i j, (i <= j)%nat -> zlen (filter p (firstn i l)) <= zlen (filter p (firstn j l)).
Proof.
  induction l as [|x l IH]; intros i j H; [rewrite !firstn_nil; lia|]. destruct i as [|i]; [apply zlen_nonneg|]. destruct j as [|j]; [lia|].
  cbn [firstn filter]. specialize (IH i j ltac:(lia)). destruct (p x); rewrite ?zlen_cons; lia.
Qed.
Theorem pruned_sorted : well_formed Gg /\ p_topsorted_acyclic Gg.
Proof.
  split; [split; [apply G_src|]|]; intros a Ha; apply In_rd in Ha as (j & _ & Ha); destruct (G_arc f rows cut Hdst j a Ha) as (y & Ey & El & Hok & ->);
    destruct (leaf_fw f rows Hsrc cut Hdst y Hok) as (Y1 & Y2 & Y3 & Y4 & _); destruct Hok as (st & Ht & Hst & Hi & K1 & K2); cbn [src dst lab oarc];
    pose proof (N_pos f rows cut (fst (fst y) + 1) (dst (larc f y)) ltac:(lia) Y3 Y4) as R.
  - unfold nstates. rewrite zlen_G. exact (rd_Some_bound _ _ _ R).
  - pose proof (rd_Some_bound _ _ _ Hst) as Bs. pose proof (N_pos f rows cut (fst (fst y)) (snd (fst y)) ltac:(lia) Bs K1) as R'.
    assert (LE : pos f rows cut (fst (fst y)) (snd (fst y)) <= pos f rows cut (fst (fst y) + 1) (dst (larc f y))) by (unfold pos; apply filter_firstn_le; nia).
    assert (NE : pos f rows cut (fst (fst y)) (snd (fst y)) <> pos f rows cut (fst (fst y) + 1) (dst (larc f y))).
    { intros E. rewrite <- E, R' in R. injection R. lia. }
    lia.
Qed.
End Res.
