(** * C70: the smoothed RNN-T loss *)
From Coq Require Import ZArith List Lia Bool Reals Lra.
From Coq Require Import ZifyBool ZifyNat.
From Verif Require Import Base RaggedListProofs RaggedOpsProofs OpsModel RnntModel RnntSpec RnntProofs RnntPrunedProps LogReal ScoreModel
  MutualInfoModel MutualInfoSpec MutualInfoProofs MutualInfoProps RnntLossModel RnntLossSpec RnntLossProofs RnntLossProps RnntHatSpec RnntHatProofs RnntSmoothedModel RnntSmoothedSpec RnntSmoothedProofs.
Import ListNotations.
Open Scope Z_scope.

(** C70: rnnt_loss_smoothed is minus the log of the sum, over all alignments, of the
    product of the interpolated probabilities. *)
Theorem C70_smoothed_loss : forall k B T S C lm am symbols term lm_scale am_scale boundary pen,
  0 <= B -> 0 <= T -> 0 <= S -> (0 <= pen)%R -> shape3 B (S + 1) C lm = true -> shape3 B T C am = true -> shape2 B S symbols = true ->
  Forall (Forall (fun c => 0 <= c < C)) symbols -> 0 <= term < C -> bounds_ok B S T boundary ->
  match boundary with
  | None => k <> Regular -> S <= T
  | Some bs => k <> Regular -> Forall (fun b => b_S b <= b_T b) bs
  end ->
  all_finite lm -> all_finite am ->
  (k = Regular -> boundary = None -> (0 < 1 - lm_scale - am_scale)%R /\ (0 <= am_scale)%R) ->
  exists losses, rnnt_loss_smoothed k B T (S + 1) C lm am symbols term lm_scale am_scale boundary pen RNone = Some (Each losses) /\ zlen losses = B /\
    forall b l a y sb tb se te L, rd lm b = Some l -> rd am b = Some a -> rd symbols b = Some y -> bounds S T boundary b = Some (sb, tb, se, te) -> all_alignments k sb tb se te L ->
      exists x, rd losses b = Some x /\
        likelihood x = sumf (align_prod k pen (smoothed_emit lm_scale am_scale l a (average_lm C lm) y)
                                              (fun s t => smoothed_prob lm_scale am_scale l a (average_lm C lm) s t term) te (sb, tb)) L.
Proof.
  intros k B T S C lm am symbols term ls ams boundary pen HB HT HS HP SL SA SS SC TC BO ST FL FA SCL.
  unfold rnnt_loss_smoothed, get_rnnt_logprobs_smoothed. cbv zeta. replace (S + 1 - 1) with S by lia. rewrite SL, SA, SS, validate_ok by auto. cbn [andb].
  destruct (shape3_ok _ _ _ _ SL) as (L1 & L2). destruct (shape3_ok _ _ _ _ SA) as (A1 & A2). pose proof (proj1 (shape2_ok _ _ _ SS)) as Y1.
  assert (RW : forall l, In l (concat lm) -> fin l /\ zlen l = C).
  { intros l Hl. apply in_concat in Hl as (x & Hx & Hl). unfold all_finite in FL. rewrite Forall_forall in FL. specialize (FL x Hx). rewrite Forall_forall in FL. split; [exact (FL l Hl)|].
    apply In_rd in Hx as (b & _ & Hb). specialize (L2 b x Hb). apply In_rd in Hl as (s & _ & Hs). exact (shape2_row _ _ _ _ _ L2 Hs). }
  rewrite (unigram_ok C (concat lm) ltac:(lia) RW). set (u := uni C (concat lm)).
  assert (ROW : forall b, 0 <= b < B -> exists l a y oe, rd lm b = Some l /\ rd am b = Some a /\ rd symbols b = Some y /\ t_end boundary b = Some oe /\
     zlen y = S /\ Forall (fun c => 0 <= c < C) y /\ shape2 (S + 1) C l = true /\ shape2 T C a = true /\ Forall fin l /\ Forall fin a /\ map llog u = average_lm C lm /\
     logprobs_smoothed_row k S T l a u y term ls ams oe =
     Some (tab2 S (cols k T) (fin_px k oe T (fun s => sval ls ams l a (map llog u) (jsym y s) s) (sval ls ams l a (map llog u) term)), tab2 (S + 1) T (sval ls ams l a (map llog u) term))).
  { intros b Hb. destruct (rd_in_bound lm b ltac:(lia)) as (l & Hl). destruct (rd_in_bound am b ltac:(lia)) as (a & Ha). destruct (rd_in_bound symbols b ltac:(lia)) as (y & Hy).
    destruct (t_end_ok B S T boundary b BO Hb) as (sb & tb & se & te & oe & Hbd & Ho & Hoe & HTE). specialize (HTE HT).
    assert (Zy : zlen y = S) by exact (shape2_row _ _ _ _ _ SS Hy). assert (Fy : Forall (fun c => 0 <= c < C) y). { rewrite Forall_forall in SC. apply SC. eapply rd_In; eauto. }
    pose proof (L2 b l Hl) as SHL. pose proof (A2 b a Ha) as SHA. unfold all_finite in FL, FA. rewrite Forall_forall in FL, FA. pose proof (FL l (rd_In _ _ _ Hl)) as Fl. pose proof (FA a (rd_In _ _ _ Ha)) as Fa.
    assert (PU : Forall (fun x => 0 < x)%R u).
    { apply uni_pos; auto; [lia|]. intros E. destruct (shape2_ok _ _ _ SHL) as (ZL & _). destruct (rd_in_bound l 0 ltac:(lia)) as (v & Hv). apply rd_In in Hv. apply rd_In in Hl. assert (In v (concat lm)) by (apply in_concat; eauto). rewrite E in H. destruct H. }
    exists l, a, y, oe. do 10 (split; [assumption|]). split; [now apply uni_logits|]. apply (smoothed_row k S T C); auto; try lia.
    - unfold u, uni. rewrite zlen_map, zlen_zrange; lia.
    - destruct Hoe as [->|(-> & _)]; auto.
    - intros -> ->. apply SCL; auto. unfold t_end in Ho. destruct boundary as [bs|]; [destruct (rd bs b); discriminate|reflexivity]. }
  match goal with |- context [tabM B ?f] => set (FP := f) end.
  destruct (tabM_all B FP) as (lp & EP & LP & QP); [lia| |].
  { intros b Hb. destruct (ROW b Hb) as (l & a & y & oe & B1 & B2 & B3 & B4 & _ & _ & _ & _ & _ & _ & _ & E). unfold FP. rewrite B1, B2, B3, B4, E. eauto. }
  rewrite EP. destruct (loss_of_ok k B S T pen boundary lp) as (neg & R & ZN & Q); auto.
  { intros b p Hp. pose proof (rd_Some_bound _ _ _ Hp) as Bb. rewrite LP in Bb. destruct (ROW b Bb) as (l & a & y & oe & B1 & B2 & B3 & B4 & _ & _ & _ & _ & _ & _ & _ & E).
    apply QP in Hp. unfold FP in Hp. rewrite B1, B2, B3, B4, E in Hp. injection Hp as <-. cbn [fst snd]. split; apply shape2_tab; try lia. destruct k; cbn; lia. }
  exists (map lneg neg). rewrite R. split; [reflexivity|]. split; [now rewrite zlen_map|].
  intros b l a y sb tb se te L' Hl Ha Hy Hbd HL'. pose proof (rd_Some_bound _ _ _ Hl) as Bb. rewrite L1 in Bb. destruct (rd_in_bound lp b ltac:(lia)) as (p & Hp).
  destruct (C45_paths_enumerable (negb (is_reg k)) (sb, tb) (se, te)) as (L & HL). destruct (Q b p sb tb se te L Hp Hbd HL) as (BB & r & Hr & ER). exists (lneg r). split; [rewrite rd_map, Hr; reflexivity|]. rewrite likelihood_neg, ER.
  rewrite (sumf_perm _ _ _ (alignment_filter k sb tb se te L L' HL HL')), sumf_filter. apply sumf_ext. intros w Hin. apply HL in Hin.
  destruct (ROW b Bb) as (l' & a' & y' & oe & B1 & B2 & B3 & B4 & Zy & Fy & SHL & SHA & Fl & Fa & EU & E).
  apply QP in Hp. unfold FP in Hp. rewrite B1, B2, B3, B4, E in Hp. injection Hp as <-. rewrite Hl in B1. injection B1 as <-. rewrite Ha in B2. injection B2 as <-. rewrite Hy in B3. injection B3 as <-. cbn [fst snd]. rewrite EU.
  destruct (t_end_ok B S T boundary b BO Bb) as (sb' & tb' & se' & te' & oe' & Hbd' & Ho' & Hoe & _). rewrite Hbd in Hbd'. injection Hbd' as <- <- <- <-. rewrite B4 in Ho'. injection Ho' as <-.
  assert (SV : forall c s t, 0 <= s <= S -> 0 <= t < T -> expo (sval ls ams l a (average_lm C lm) c s t) = smoothed_prob ls ams l a (average_lm C lm) s t c).
  { intros c s t Hs Ht. destruct (shape2_ok _ _ _ SHL) as (ZL & _). destruct (shape2_ok _ _ _ SHA) as (ZA & _). destruct (rd_in_bound l s ltac:(lia)) as (v & Hv). destruct (rd_in_bound a t ltac:(lia)) as (z & Hz).
    unfold smoothed_prob, sval, row1. rewrite Hv, Hz. cbn [expo]. unfold Rpower. rewrite <- !exp_plus. f_equal. ring. }
  apply (pw_gen k pen S T _ _ (smoothed_emit ls ams l a (average_lm C lm) y) _ te oe sb se); try lia; auto.
  - intros s t Hs Ht. rewrite SV by lia. unfold smoothed_emit, jsym. destruct (rd_in_bound y s ltac:(lia)) as (c & ->). reflexivity.
  - intros s t Hs Ht. apply SV; lia.
  - cbn [fst]. lia.
  - cbn [snd]. lia.
  - rewrite Hin. cbn [fst]. lia.
  - now rewrite Hin.
Qed.
Print Assumptions C70_smoothed_loss.

Lemma softmax_sum l : fin l -> l <> [] -> sumf (softmax l) (zrange (zlen l)) = 1%R.
Proof.
  intros F NE. pose proof (fin_pos l F NE) as P. unfold softmax, Rdiv. rewrite (sumf_ext _ (fun i => / sumf expo l * match rd l i with Some v => expo v | None => 0 end)%R) by (intros; lra). rewrite sumf_scale.
  assert (E : sumf (fun i => match rd l i with Some v => expo v | None => 0%R end) (zrange (zlen l)) = sumf expo l); [|rewrite E; field; lra].
  clear. induction l as [|a l IH]; [reflexivity|]. rewrite zlen_cons. pose proof (zlen_nonneg l). rewrite zrange_cons by lia. replace (1 + zlen l - 1) with (zlen l) by lia. rewrite !sumf_cons, sumf_map, <- IH. f_equal. apply sumf_ext. intros i Hi. apply in_zrange in Hi. rewrite rd_cons, (proj2 (Z.eqb_neq (1 + i) 0)) by lia. now replace (1 + i - 1) with i by lia.
Qed.
(** C70: the unigram language model is a distribution over the classes. *)
Theorem C70_average_lm : forall B S1 C lm, 0 < C -> shape3 B S1 C lm = true -> all_finite lm -> concat lm <> [] ->
  sumf expo (average_lm C lm) = 1%R.
Proof.
  intros B S1 C lm HC SL FL NE. destruct (shape3_ok _ _ _ _ SL) as (L1 & L2).
  assert (RW : forall l, In l (concat lm) -> fin l /\ zlen l = C).
  { intros l Hl. apply in_concat in Hl as (x & Hx & Hl). unfold all_finite in FL. rewrite Forall_forall in FL. specialize (FL x Hx). rewrite Forall_forall in FL. split; [exact (FL l Hl)|].
    apply In_rd in Hx as (b & _ & Hb). specialize (L2 b x Hb). apply In_rd in Hl as (s & _ & Hs). exact (shape2_row _ _ _ _ _ L2 Hs). }
  pose proof (uni_pos C (concat lm) ltac:(lia) NE RW) as PU. unfold uni in PU. rewrite Forall_forall in PU.
  unfold average_lm. rewrite sumf_map. set (n := IZR (zlen (concat lm))) in *.
  assert (Pn : (0 < n)%R). { apply IZR_lt. destruct (concat lm) as [|l r]; [congruence|]. rewrite zlen_cons. pose proof (zlen_nonneg r). lia. }
  rewrite (sumf_ext _ (fun c => / n * sumf (fun l => softmax l c) (concat lm))%R).
  2:{ intros c Hc. cbn [expo]. rewrite exp_ln; [unfold Rdiv; ring|]. apply PU. apply in_map_iff. eauto. }
  rewrite sumf_scale, sumf_swap. rewrite (sumf_ext _ (fun _ => 1%R)).
  2:{ intros l Hl. destruct (RW l Hl) as (F & <-). apply softmax_sum; auto. intros ->. rewrite zlen_nil in HC. lia. }
  assert (E : sumf (fun _ : list (option R) => 1%R) (concat lm) = n); [|rewrite E; field; lra].
  unfold n. clear. induction (concat lm) as [|l r IH]; [reflexivity|]. rewrite sumf_cons, zlen_cons, plus_IZR, IH. reflexivity.
Qed.
Print Assumptions C70_average_lm.

(** C70: the reductions *)
Theorem C70_reductions : forall k B T S1 C lm am symbols term lm_scale am_scale boundary pen,
  reduces (rnnt_loss_smoothed k B T S1 C lm am symbols term lm_scale am_scale boundary pen).
Proof. intros. apply reduces_bind. intros lp. apply loss_reductions. Qed.
Print Assumptions C70_reductions.

(** C70, refuted without the condition on the scales: when they add up to 1 (or more)
    the regular topology, without a boundary, has NaN among its log-probabilities. *)
Theorem C70_scales_refuted : forall B T S C lm am symbols term lm_scale am_scale pen red,
  0 < B -> 0 <= T -> 0 < S -> (1 <= lm_scale + am_scale)%R ->
  rnnt_loss_smoothed Regular B T (S + 1) C lm am symbols term lm_scale am_scale None pen red = None.
Proof.
  intros B T S C lm am symbols term ls ams pen red HB HT HS SCL.
  assert (TN : forall A n (f : Z -> option A) i, 0 <= i < n -> f i = None -> tabM n f = None).
  { intros A n f i Hi E. destruct (tabM n f) as [ys|] eqn:Et; [|reflexivity]. exfalso. unfold tabM in Et. assert (Ei : In i (zrange n)) by now apply in_zrange. revert ys Et Ei. generalize (zrange n). induction l as [|x l IH]; intros ys Et Ei; [destruct Ei|]. cbn [mapM] in Et. destruct Ei as [->|Ei]; [now rewrite E in Et|]. destruct (f x); [|discriminate]. destruct (mapM f l) as [zs|]; [|discriminate]. eapply IH; eauto. }
  assert (ROW : forall l a u y, logprobs_smoothed_row Regular S T l a u y term ls ams None = None).
  { intros l a u y. unfold logprobs_smoothed_row. cbv zeta.
    do 12 match goal with |- match ?e with Some _ => _ | None => None end = None => destruct e; [|reflexivity] end.
    unfold tabM2 at 1. rewrite (TN _ S _ 0); [reflexivity|lia|]. rewrite (TN _ (T + 1) _ T); [reflexivity|lia|].
    match goal with |- match ?e with Some _ => _ | None => None end = None => destruct e; [|reflexivity] end.
    replace (T <? T) with false by lia. unfold interp, lscale, lninf. destruct (Rlt_dec 0 (1 - ls - ams)); [lra|reflexivity]. }
  unfold rnnt_loss_smoothed, get_rnnt_logprobs_smoothed. cbv zeta. replace (S + 1 - 1) with S by lia. destruct (_ && _ && _); [|reflexivity]. destruct (validate_st_lengths _ _ _ _); [|reflexivity]. destruct (unigram _ _) as [un|]; [|reflexivity].
  rewrite (TN _ B _ 0); [reflexivity|lia|]. destruct (rd lm 0); [|reflexivity]. destruct (rd am 0); [|reflexivity]. destruct (rd symbols 0); [|reflexivity]. cbn [t_end]. apply ROW.
Qed.
Print Assumptions C70_scales_refuted.

(** Two frames, one symbol, two classes that are equally likely under all three
    distributions: two alignments of probability 1/8. *)
Definition x70 := [[[Some 0%R; Some 0%R]; [Some 0%R; Some 0%R]]].
Definition al70 := [[true; false; false]; [false; true; false]].
Example C70_ex : exists x, rnnt_loss_smoothed Regular 1 2 2 2 x70 x70 [[1]] 0 (1 / 4) (1 / 4) None 0%R RNone = Some (Each [x]) /\ likelihood x = (1 / 4)%R.
Proof.
  assert (AF : all_finite x70) by (repeat constructor; discriminate).
  destruct (C70_smoothed_loss Regular 1 2 1 2 x70 x70 [[1]] 0 (1 / 4) (1 / 4) None 0%R) as (losses & E & ZL & P); try lia; try reflexivity; try lra; try congruence; auto.
  - repeat constructor; lia.
  - destruct losses as [|x [|x2 l2]]; try discriminate ZL; [|rewrite !zlen_cons in ZL; pose proof (zlen_nonneg l2); lia].
    exists x. split; [exact E|]. destruct (P 0 [[Some 0%R; Some 0%R]; [Some 0%R; Some 0%R]] [[Some 0%R; Some 0%R]; [Some 0%R; Some 0%R]] [1] 0 0 1 2 al70) as (x' & Hx & EL); try reflexivity.
    + change al70 with (filter (alignb Regular 2 (0, 0)) (paths false (0, 0) (1, 2))).
      destruct (paths_ok false (0, 0) (1, 2)) as (N & H). split; [now apply NoDup_filter|]. intros l. rewrite filter_In, H, alignb_iff. reflexivity.
    + injection Hx as <-. rewrite EL.
      assert (SM : forall z c, c = 0 \/ c = 1 -> softmax [Some z; Some z] c = (/ 2)%R).
      { intros z c Hc. unfold softmax. assert (rd [Some z; Some z] c = Some (Some z)) as -> by (destruct Hc as [->| ->]; reflexivity). cbn [sumf map fold_right expo]. pose proof (exp_pos z). field. lra. }
      assert (EU : exists z, average_lm 2 x70 = [Some z; Some z]). { unfold average_lm. change (zrange 2) with [0; 1]. cbn [map x70 concat app]. cbn [sumf map fold_right]. rewrite !SM by auto. eexists. reflexivity. }
      destruct EU as (z & ->).
      assert (SP : forall s t c, 0 <= s < 2 -> 0 <= t < 2 -> c = 0 \/ c = 1 -> smoothed_prob (1 / 4) (1 / 4) [[Some 0%R; Some 0%R]; [Some 0%R; Some 0%R]] [[Some 0%R; Some 0%R]; [Some 0%R; Some 0%R]] [Some z; Some z] s t c = (/ 2)%R).
      { intros s t c Hs Ht Hc. unfold smoothed_prob. assert (RR : forall i, 0 <= i < 2 -> rd [[Some 0%R; Some 0%R]; [Some 0%R; Some 0%R]] i = Some [Some 0%R; Some 0%R]) by (intros i Hi; assert (i = 0 \/ i = 1) as [->| ->] by lia; reflexivity).
        rewrite !RR by auto. unfold add_logits. cbn [combine map fst snd ladd]. rewrite !SM by auto. unfold effective. destruct (Req_EM_T (1 / 4) 0) as [N|_]; [lra|]. rewrite <- !Rpower_plus. replace (1 - 1 / 4 - 1 / 4 + 1 / 4 + 1 / 4)%R with 1%R by lra. apply Rpower_1. lra. }
      cbn [sumf map fold_right al70 align_prod is_reg negb move fst snd]. unfold smoothed_emit. change (rd [1] 0) with (Some 1). cbv iota. rewrite !SP by (try (clear; lia); auto). rewrite !Rmult_0_l, exp_0.
      lra.
Qed.
