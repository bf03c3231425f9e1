(** * C69: the HAT loss *)
From Coq Require Import ZArith List Lia Bool Reals Lra.
From Coq Require Import ZifyBool ZifyNat.
From Verif Require Import Base RaggedListProofs RaggedOpsProofs OpsModel RnntModel RnntSpec RnntProofs RnntPrunedProps LogReal ScoreModel
  MutualInfoModel MutualInfoSpec MutualInfoProofs MutualInfoProps RnntLossModel RnntLossSpec RnntLossProofs RnntLossProps RnntHatModel RnntHatSpec RnntHatProofs.
Import ListNotations.
Open Scope Z_scope.

(** C69: rnnt_loss_pruned(use_hat_loss=True) is minus the log of the probability, under
    the hybrid autoregressive transducer, of the alignments that stay within the ranges.
    Blanks may only be padding, after the symbols of the utterance. *)
Theorem C69_hat_loss : forall k B T S s_range step C full pruned symbols ranges boundary pen,
  0 <= B -> 0 <= T -> 0 <= S -> (0 <= pen)%R -> 1 <= s_range <= S + 1 -> 0 < C -> shape4 B T (S + 1) C full = true -> shape4 B T s_range C pruned = true ->
  shape3 B T s_range ranges = true -> shape2 B S symbols = true ->
  Forall (windows S T s_range step) ranges -> gathered ranges pruned full ->
  Forall (Forall (fun c => 0 <= c < C)) symbols -> bounds_ok B S T boundary -> (k = Modified -> S <= T) ->
  hat_finite full ->
  exists losses, rnnt_loss_hat k B T s_range C S pruned symbols ranges 0 boundary pen RNone = Some (Each losses) /\ zlen losses = B /\
    forall b lg y rg sb tb se te L, rd full b = Some lg -> rd symbols b = Some y -> rd ranges b = Some rg -> bounds S T boundary b = Some (sb, tb, se, te) -> all_alignments k sb tb se te L ->
      (forall s c, sb <= s < se -> rd y s = Some c -> c <> 0) ->
      exists x, rd losses b = Some x /\
        likelihood x = sumf (align_prod k pen (hat_emit lg y) (fun s t => hat_class_prob lg s t 0) te (sb, tb)) (filter (stays k rg (sb, tb)) L).
Proof.
  intros k B T S r step C full pruned symbols ranges boundary pen HB HT HS HP Hr HC SF SP SR SS WD GA SC BO ST FI.
  unfold rnnt_loss_hat, get_hat_logprobs_pruned. rewrite SP, SR, SS. cbn [andb]. replace (match k with Modified => S <=? T | _ => true end) with true by (destruct k; auto; specialize (ST eq_refl); lia). change (0 =? 0) with true. cbv iota.
  destruct (shape4_ok _ _ _ _ _ SF) as (F1 & F2). destruct (shape4_ok _ _ _ _ _ SP) as (P1 & P2).
  destruct (shape3_ok _ _ _ _ SR) as (R1 & R2). pose proof (proj1 (shape2_ok _ _ _ SS)) as S1. rewrite Forall_forall in WD, SC.
  assert (ROW : forall b, 0 <= b < B -> exists fl pl y rg oe w,
     rd full b = Some fl /\ rd pruned b = Some pl /\ rd symbols b = Some y /\ rd ranges b = Some rg /\ t_end boundary b = Some oe /\
     zlen rg = T /\ (forall t, 0 <= t < T -> rd rg t = Some (map (fun j => w t + j) (zrange r))) /\ zlen y = S /\ Forall (fun c => 0 <= c < C) y /\
     (forall t s, 0 <= t < T -> 0 <= s <= S -> exists l, rd2 fl t s = Some l /\ zlen l = C) /\
     logprobs_hat_row k S T r pl y rg 0 oe = Some (tab2 S (cols k T) (fin_px k oe T (win r w (hX fl y)) (win r w (hY fl))), tab2 (S + 1) T (win r w (hY fl)))).
  { intros b Hb. destruct (rd_in_bound full b ltac:(lia)) as (fl & Hfl). destruct (rd_in_bound pruned b ltac:(lia)) as (pl & Hpl).
    destruct (rd_in_bound symbols b ltac:(lia)) as (y & Hy). destruct (rd_in_bound ranges b ltac:(lia)) as (rg & Hrg).
    destruct (t_end_ok B S T boundary b BO Hb) as (sb & tb & se & te & oe & Hbd & Ho & Hoe & HTE). specialize (HTE HT).
    destruct (WD rg (rd_In _ _ _ Hrg)) as (w & W1 & W2 & W3 & _).
    assert (LS : forall t s, 0 <= t < T -> 0 <= s <= S -> exists l, rd2 fl t s = Some l /\ zlen l = C).
    { intros t s Ht Hs. specialize (F2 b fl Hfl). destruct (shape3_ok _ _ _ _ F2) as (L1 & L2).
      destruct (rd_in_bound fl t) as (rw & Hrw); [lia|]. specialize (L2 t rw Hrw). destruct (shape2_ok _ _ _ L2) as (M1 & _).
      destruct (rd_in_bound rw s) as (l & Hl); [lia|]. exists l. unfold rd2. rewrite Hrw. split; [exact Hl|]. eapply shape2_row; eauto. }
    assert (Zy : zlen y = S) by (eapply shape2_row; eauto). assert (Fy : Forall (fun c => 0 <= c < C) y) by (apply SC; eapply rd_In; eauto).
    exists fl, pl, y, rg, oe, w. do 10 (split; [assumption|]). apply (hat_row k S T r C); auto; [|lia|].
    - intros t j i Hi. specialize (GA b t j i). unfold rd3 in GA. rewrite Hrg, Hpl, Hfl in GA. auto.
    - destruct Hoe as [->|(-> & _)]; auto. }
  match goal with |- context [tabM B ?f] => set (FP := f) end.
  destruct (tabM_all B FP) as (lp & EP & LP & QP); [lia| |].
  { intros b Hb. destruct (ROW b Hb) as (fl & pl & y & rg & oe & w & A1 & A2 & A3 & A4 & A5 & _ & _ & _ & _ & _ & A6). unfold FP. rewrite A2, A3, A4, A5, A6. eauto. }
  rewrite EP.
  destruct (loss_of_ok k B S T pen boundary lp) as (neg & R & ZN & Q); auto.
  { intros b p Hp. pose proof (rd_Some_bound _ _ _ Hp) as Bb. rewrite LP in Bb. destruct (ROW b Bb) as (fl & pl & y & rg & oe & w & A1 & A2 & A3 & A4 & A5 & _ & _ & _ & _ & _ & A6).
    apply QP in Hp. unfold FP in Hp. rewrite A2, A3, A4, A5, A6 in Hp. injection Hp as <-. cbn [fst snd]. split; apply shape2_tab; try lia. destruct k; cbn; lia. }
  exists (map lneg neg). rewrite R. split; [reflexivity|]. split; [now rewrite zlen_map|].
  intros b lg y rg sb tb se te L' Hl Hy Hrg Hbd HL' NB. pose proof (rd_Some_bound _ _ _ Hl) as Bb. rewrite F1 in Bb. destruct (rd_in_bound lp b ltac:(lia)) as (p & Hp).
  destruct (C45_paths_enumerable (negb (is_reg k)) (sb, tb) (se, te)) as (L & HL). destruct (Q b p sb tb se te L Hp Hbd HL) as (BB & a & Ha & EA). exists (lneg a). split; [rewrite rd_map, Ha; reflexivity|]. rewrite likelihood_neg, EA.
  rewrite (sumf_filter _ _ L'), (sumf_perm _ _ _ (alignment_filter k sb tb se te L L' HL HL')), sumf_filter. apply sumf_ext. intros l Hin. apply HL in Hin.
  destruct (ROW b Bb) as (fl & pl & y' & rg' & oe & w & A1 & A2 & A3 & A4 & A5 & ZR & RG & Zy & Fy & LS & A6).
  apply QP in Hp. unfold FP in Hp. rewrite A2, A3, A4, A5, A6 in Hp. injection Hp as <-. rewrite Hl in A1. injection A1 as <-. rewrite Hy in A3. injection A3 as <-. rewrite Hrg in A4. injection A4 as <-.
  destruct (t_end_ok B S T boundary b BO Bb) as (sb' & tb' & se' & te' & oe' & Hbd' & Ho' & Hoe & _). rewrite Hbd in Hbd'. injection Hbd' as <- <- <- <-. rewrite A5 in Ho'. injection Ho' as <-.
  rewrite (masked_pw k pen te S T rg _ _ l (win_masked k S T r w rg oe (hX lg y) (hY lg) HS HT ZR RG)) by (rewrite ?Hin; cbn [fst snd]; lia). cbn [fst snd].
  rewrite (pw_gen k pen S T (hX lg y) (hY lg) (hat_emit lg y) (fun s t => hat_class_prob lg s t 0) te oe sb se); try lia; auto.
  - destruct (stays k rg (sb, tb) l), (alignb k te (sb, tb) l); reflexivity.
  - intros s t Hs Ht. destruct (LS t s ltac:(lia) ltac:(lia)) as (v & Ev & Zv). destruct (FI b lg t s v Hl Ev) as (x & l0 & z & -> & IZ). destruct (rd_in_bound y s ltac:(lia)) as (c & Ec).
    unfold hat_emit. rewrite Ec. pose proof (NB s c Hs Ec). rewrite Forall_forall in Fy. pose proof (Fy c (rd_In _ _ _ Ec)). rewrite zlen_cons in Zv. eapply hat_symbol; eauto. lia.
  - intros s t Hs Ht. destruct (LS t s ltac:(lia) ltac:(lia)) as (v & Ev & Zv). destruct (FI b lg t s v Hl Ev) as (x & l0 & z & -> & IZ). eapply hat_blank; eauto.
  - cbn [fst]. lia.
  - cbn [snd]. lia.
  - rewrite Hin. cbn [fst]. lia.
  - now rewrite Hin.
Qed.
Print Assumptions C69_hat_loss.

(** C69: the probabilities of the classes, the blank included, add up to 1. *)
Theorem C69_normalized : forall x l z, In (Some z) l -> sumf (hat_prob (Some x :: l)) (zrange (zlen (Some x :: l))) = 1%R.
Proof.
  intros x l z IZ. assert (P : (0 < sumf expo l)%R).
  { clear - IZ. induction l as [|a l IH]; [destruct IZ|]. rewrite sumf_cons. destruct IZ as [->|H]; [pose proof (exp_pos z); pose proof (sumf_nonneg expo l expo_nonneg); cbn [expo] in *; lra|]. specialize (IH H). pose proof (expo_nonneg a). lra. }
  rewrite zlen_cons. pose proof (zlen_nonneg l) as N. rewrite zrange_cons by lia. replace (1 + zlen l - 1) with (zlen l) by lia. rewrite sumf_cons, sumf_map.
  rewrite (sumf_ext _ (fun i => (1 - sigmoid x) * softmax l i)%R).
  2:{ intros i Hi. apply in_zrange in Hi. cbn [hat_prob]. replace (1 + i =? 0) with false by lia. do 2 f_equal. lia. }
  rewrite sumf_scale. cbn [hat_prob]; change (0 =? 0) with true; cbv iota.
  assert (E : sumf (softmax l) (zrange (zlen l)) = 1%R); [|rewrite E; lra].
  unfold softmax, Rdiv. rewrite (sumf_ext _ (fun i => / sumf expo l * match rd l i with Some v => expo v | None => 0 end)%R) by (intros; lra). rewrite sumf_scale.
  assert (E : sumf (fun i => match rd l i with Some v => expo v | None => 0%R end) (zrange (zlen l)) = sumf expo l); [|rewrite E; field; lra].
  clear. induction l as [|a l IH]; [reflexivity|]. rewrite zlen_cons. pose proof (zlen_nonneg l). rewrite zrange_cons by lia. replace (1 + zlen l - 1) with (zlen l) by lia. rewrite !sumf_cons, sumf_map, <- IH. f_equal. apply sumf_ext. intros i Hi. apply in_zrange in Hi. rewrite rd_cons, (proj2 (Z.eqb_neq (1 + i) 0)) by lia. now replace (1 + i - 1) with i by lia.
Qed.
Print Assumptions C69_normalized.

(** The softmax of RnntLossSpec gives the alignment probabilities of C68. *)
Theorem C69_softmax : forall k pen lg y term te c l,
  align_prod k pen (fun s t => match rd y s with Some v => class_prob lg s t v | None => 0%R end) (fun s t => class_prob lg s t term) te c l = align_prob k pen lg y term te c l.
Proof. intros k pen lg y term te c l. revert c. induction l as [|x l IH]; intros (s, t); [reflexivity|]. cbn [align_prod align_prob decision_prob]. now rewrite IH. Qed.
Print Assumptions C69_softmax.

(** C69: the reductions *)
Theorem C69_reductions : forall k B T r C S logits symbols ranges term boundary pen,
  reduces (rnnt_loss_hat k B T r C S logits symbols ranges term boundary pen).
Proof. intros. apply reduces_bind. intros lp. apply loss_reductions. Qed.
Print Assumptions C69_reductions.

(** C69: the blank must be class 0. *)
Theorem C69_blank : forall k B T r C S logits symbols ranges term boundary pen red,
  term <> 0 -> rnnt_loss_hat k B T r C S logits symbols ranges term boundary pen red = None.
Proof. intros. unfold rnnt_loss_hat, get_hat_logprobs_pruned. destruct (_ && _ && _); [|reflexivity]. destruct (match k with Modified => _ | _ => _ end); [|reflexivity]. now replace (term =? 0) with false by lia. Qed.
Print Assumptions C69_blank.

(** Two frames, two symbols of which the second is padding, windows of two positions:
    every coin is fair, and the one other class is certain.  Of the two alignments of one
    symbol with two frames, each of probability 1/8, one stays within the windows. *)
Definition v69 := [Some 0%R; Some 0%R].
Definition full69 := [[[v69; v69; v69]; [v69; v69; v69]]].
Definition pruned69 := [[[v69; v69]; [v69; v69]]].
Definition ranges69 := [[[0; 1]; [1; 2]]].
Definition al69 := [[true; false; false]; [false; true; false]].
Example C69_ex : exists x, rnnt_loss_hat Regular 1 2 2 2 2 pruned69 [[1; 0]] ranges69 0 (Some [(0, 0, 1, 2)]) 0%R RNone = Some (Each [x]) /\
  likelihood x = (1 / 8)%R /\ filter (stays Regular [[0; 1]; [1; 2]] (0, 0)) al69 = [[true; false; false]].
Proof.
  assert (HR : forall t s l, rd2 [[v69; v69; v69]; [v69; v69; v69]] t s = Some l -> l = v69).
  { intros t s l H. unfold rd2 in H. destruct (rd [[v69; v69; v69]; [v69; v69; v69]] t) as [row|] eqn:E; [|discriminate]. apply rd_In in E. apply rd_In in H. destruct E as [<-|[<-|[]]]; destruct H as [<-|[<-|[<-|[]]]]; reflexivity. }
  destruct (C69_hat_loss Regular 1 2 2 2 1 2 full69 pruned69 [[1; 0]] ranges69 (Some [(0, 0, 1, 2)]) 0%R) as (losses & E & ZL & P); try lia; try reflexivity; try lra; try discriminate.
  - repeat constructor. exists (fun t => t). split; [reflexivity|]. split; [intros t Ht; assert (t = 0 \/ t = 1) as [->| ->] by lia; reflexivity|]. split; [lia|]. split; [reflexivity|]. lia.
  - intros b t j i H. unfold rd3 in H. destruct (rd ranges69 b) as [x|] eqn:E; [|discriminate]. pose proof (rd_Some_bound _ _ _ E) as Bb. change (0 <= b < 1) in Bb. replace b with 0 in * by lia. injection E as <-. unfold rd2 in H. destruct (rd [[0; 1]; [1; 2]] t) as [r|] eqn:Er; [|discriminate]. pose proof (rd_Some_bound _ _ _ Er) as Bt. change (0 <= t < 2) in Bt. assert (t = 0 \/ t = 1) as [->| ->] by lia; injection Er as <-; pose proof (rd_Some_bound _ _ _ H) as Bj; change (0 <= j < 2) in Bj; assert (j = 0 \/ j = 1) as [->| ->] by lia; injection H as <-; reflexivity.
  - repeat constructor; lia.
  - split; [reflexivity|]. intros sb tb se te [H|[]]. injection H as <- <- <- <-. lia.
  - intros b lg t s l Hl H. apply rd_In in Hl as [<-|[]]. apply HR in H as ->. exists 0%R, [Some 0%R], 0%R. split; [reflexivity|now left].
  - destruct losses as [|x [|x2 l2]]; try discriminate ZL; [|rewrite !zlen_cons in ZL; pose proof (zlen_nonneg l2); lia].
    exists x. split; [exact E|]. split; [|reflexivity].
    destruct (P 0 [[v69; v69; v69]; [v69; v69; v69]] [1; 0] [[0; 1]; [1; 2]] 0 0 1 2 al69) as (x' & Hx & EL); try reflexivity.
    + change al69 with (filter (alignb Regular 2 (0, 0)) (paths false (0, 0) (1, 2))).
      destruct (paths_ok false (0, 0) (1, 2)) as (N & H). split; [now apply NoDup_filter|]. intros l. rewrite filter_In, H, alignb_iff. reflexivity.
    + intros s c Hs Hc. assert (s = 0) as -> by lia. injection Hc as <-. discriminate.
    + injection Hx as <-. rewrite EL. change (filter (stays Regular [[0; 1]; [1; 2]] (0, 0)) al69) with [[true; false; false]].
      assert (SG : sigmoid 0 = (/ 2)%R) by (unfold sigmoid; rewrite Ropp_0, exp_0; lra).
      assert (SM : softmax [Some 0%R] 0 = 1%R). { unfold softmax. change (rd [Some 0%R] 0) with (Some (Some 0%R)). cbn [expo sumf fold_right map]. rewrite exp_0. field. }
      cbn [sumf map fold_right align_prod is_reg negb move]. unfold hat_emit, hat_class_prob.
      repeat match goal with |- context [rd2 ?l ?t ?s] => let v := eval vm_compute in (rd2 l t s) in change (rd2 l t s) with (Some v69) end.
      change (rd [1; 0] 0) with (Some 1). cbn [hat_prob v69]. change (1 =? 0) with false. change (0 =? 0) with true. cbv iota. change (1 - 1) with 0. rewrite SG, SM, Rmult_0_l, exp_0. lra.
Qed.
