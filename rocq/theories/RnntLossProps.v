(** * C68: the RNN-T losses *)
From Coq Require Import ZArith List Lia Bool Reals Lra.
From Coq Require Import ZifyBool ZifyNat.
From Verif Require Import Base RaggedListProofs RaggedOpsProofs OpsModel RnntModel RnntSpec RnntProofs RnntPrunedProps LogReal ScoreModel
  MutualInfoModel MutualInfoSpec MutualInfoProofs MutualInfoProps RnntLossModel RnntLossSpec RnntLossProofs.
Import ListNotations.
Open Scope Z_scope.

(** There are finitely many alignments. *)
Theorem C68_alignments : forall k sb tb se te, exists L, all_alignments k sb tb se te L.
Proof.
  intros k sb tb se te. destruct (C45_paths_enumerable (negb (is_reg k)) (sb, tb) (se, te)) as (L & N & H). exists (filter (alignb k te (sb, tb)) L). split; [now apply NoDup_filter|].
  intros l. rewrite filter_In, H, alignb_iff. reflexivity.
Qed.
Print Assumptions C68_alignments.

Lemma likelihood_neg a : likelihood (lneg a) = expo a.
Proof. destruct a as [x|]; cbn; [now rewrite Ropp_involutive|reflexivity]. Qed.

(** C68: rnnt_loss is minus the log of the probability of all alignments. *)
Theorem C68_rnnt_loss : forall k B T S C logits symbols term boundary pen,
  0 <= B -> 0 <= T -> 0 <= S -> (0 <= pen)%R -> shape4 B T (S + 1) C logits = true -> shape2 B S symbols = true ->
  Forall (Forall (fun c => 0 <= c < C)) symbols -> 0 <= term < C -> bounds_ok B S T boundary ->
  match boundary with
  | None => k <> Regular -> S <= T
  | Some bs => k <> Regular -> Forall (fun b => b_S b <= b_T b) bs
  end ->
  finite_logits logits ->
  exists losses, rnnt_loss k B T (S + 1) C logits symbols term boundary pen RNone = Some (Each losses) /\ zlen losses = B /\
    forall b lg y sb tb se te L, rd logits b = Some lg -> rd symbols b = Some y -> bounds S T boundary b = Some (sb, tb, se, te) -> all_alignments k sb tb se te L ->
      exists x, rd losses b = Some x /\ likelihood x = sumf (align_prob k pen lg y term te (sb, tb)) L.
Proof.
  intros k B T S C logits symbols term boundary pen HB HT HS HP SL SS SC TC BO ST FI.
  destruct (joint_batch k B T S C logits symbols term boundary) as (lp & E & ZL & P); auto.
  destruct (loss_of_ok k B S T pen boundary lp) as (neg & R & ZN & Q); auto.
  { intros b p Hp. destruct (P b p Hp) as (lg & y & oe & _ & _ & _ & _ & _ & _ & ->). cbn [fst snd]. split; apply shape2_tab; try lia. destruct k; cbn [cols]; lia. }
  exists (map lneg neg). unfold rnnt_loss. rewrite E. replace (S + 1 - 1) with S by lia. rewrite R. split; [reflexivity|]. split; [now rewrite zlen_map|].
  intros b lg y sb tb se te L' Hl Hy Hbd HL'. pose proof (rd_Some_bound _ _ _ Hl) as Bb. rewrite (proj1 (shape4_ok _ _ _ _ _ SL)) in Bb. destruct (rd_in_bound lp b ltac:(lia)) as (p & Hp).
  destruct (C45_paths_enumerable (negb (is_reg k)) (sb, tb) (se, te)) as (L & HL). destruct (Q b p sb tb se te L Hp Hbd HL) as (BB & a & Ha & EA). exists (lneg a). split; [rewrite rd_map, Ha; reflexivity|]. rewrite likelihood_neg, EA.
  rewrite (sumf_perm _ _ _ (alignment_filter k sb tb se te L L' HL HL')), sumf_filter. apply sumf_ext. intros l Hin. apply HL in Hin.
  destruct (P b p Hp) as (lg' & y' & oe & Hl' & Hy' & Ho & SHP & Zy & Fy & ->). rewrite Hl in Hl'. injection Hl' as <-. rewrite Hy in Hy'. injection Hy' as <-. cbn [fst snd].
  destruct (t_end_ok B S T boundary b BO Bb) as (sb' & tb' & se' & te' & oe' & Hbd' & Ho' & Hoe & _). rewrite Hbd in Hbd'. injection Hbd' as <- <- <- <-. rewrite Ho in Ho'. injection Ho' as <-.
  apply pw_joint with (C := C); auto; try (rewrite ?Hin; cbn [fst snd]; lia). intros t s l0 H0. exact (FI b lg t s l0 Hl H0).
Qed.
Print Assumptions C68_rnnt_loss.

Lemma mapM_same {A B} (f g : A -> option B) l : (forall x, In x l -> f x = g x) -> mapM f l = mapM g l.
Proof. induction l as [|a l IH]; intros H; [reflexivity|]. cbn [mapM]. rewrite (H a) by now left. rewrite IH; [reflexivity|]. intros x Hx. apply H. now right. Qed.

(** C68: rnnt_loss_simple is rnnt_loss with a joiner that adds its inputs. *)
Theorem C68_rnnt_loss_simple : forall k B T S C lm am logits symbols term boundary pen r,
  0 <= B -> 0 <= T -> 0 <= S -> shape3 B (S + 1) C lm = true -> shape3 B T C am = true -> shape4 B T (S + 1) C logits = true -> shape2 B S symbols = true ->
  Forall (Forall (fun c => 0 <= c < C)) symbols -> 0 <= term < C -> bounds_ok B S T boundary ->
  (forall b l a lg, rd lm b = Some l -> rd am b = Some a -> rd logits b = Some lg -> add_joiner T (S + 1) l a lg) -> finite_logits logits ->
  rnnt_loss_simple k B T (S + 1) C lm am symbols term boundary pen r = rnnt_loss k B T (S + 1) C logits symbols term boundary pen r.
Proof.
  intros k B T S C lm am logits symbols term boundary pen r HB HT HS SLM SAM SL SS SC TC BO AJ FI.
  unfold rnnt_loss_simple, rnnt_loss.
  assert (E : get_rnnt_logprobs k B T (S + 1) C lm am symbols term boundary = get_rnnt_logprobs_joint lninf ladd lsub lse k B T (S + 1) C logits symbols term boundary); [|now rewrite E].
  unfold get_rnnt_logprobs, get_rnnt_logprobs_joint. cbv zeta. replace (S + 1 - 1) with S by lia. rewrite SLM, SAM, SL, SS. cbn [andb].
  destruct (validate_st_lengths S T (is_reg k) boundary) as [u|]; [|reflexivity]. unfold tabM. apply mapM_same. intros b Hb. apply in_zrange in Hb.
  destruct (shape4_ok _ _ _ _ _ SL) as (L1 & L2). destruct (shape3_ok _ _ _ _ SLM) as (M1 & M2). destruct (shape3_ok _ _ _ _ SAM) as (A1 & A2). pose proof (proj1 (shape2_ok _ _ _ SS)) as Y1.
  destruct (rd_in_bound logits b ltac:(lia)) as (lg & Hl). destruct (rd_in_bound symbols b ltac:(lia)) as (y & Hy). destruct (rd_in_bound lm b ltac:(lia)) as (l & Hlm). destruct (rd_in_bound am b ltac:(lia)) as (a & Ham).
  destruct (t_end_ok B S T boundary b BO Hb) as (sb & tb & se & te & oe & _ & Ho & Hoe & HTE). rewrite Hl, Hy, Hlm, Ham, Ho.
  assert (Zy : zlen y = S) by exact (shape2_row _ _ _ _ _ SS Hy). assert (Fy : Forall (fun c => 0 <= c < C) y). { rewrite Forall_forall in SC. apply SC. eapply rd_In; eauto. }
  assert (TE : match oe with None => True | Some t => 0 <= t <= T end) by (destruct Hoe as [->|(-> & _)]; auto).
  rewrite (joint_row k S T C lg y term oe) by eauto. apply simple_row with (C := C); eauto.
Qed.
Print Assumptions C68_rnnt_loss_simple.

(** C68: rnnt_loss_pruned is minus the log of the probability, computed with the full
    joiner output, of the alignments that stay within the ranges. *)
Theorem C68_rnnt_loss_pruned : forall k B T S s_range step C full pruned symbols ranges term boundary pen,
  0 <= B -> 0 <= T -> 0 <= S -> (0 <= pen)%R -> 1 <= s_range <= S + 1 -> shape4 B T (S + 1) C full = true -> shape4 B T s_range C pruned = true ->
  shape3 B T s_range ranges = true -> shape2 B S symbols = true ->
  Forall (windows S T s_range step) ranges -> gathered ranges pruned full ->
  Forall (Forall (fun c => 0 <= c < C)) symbols -> 0 <= term < C -> bounds_ok B S T boundary ->
  match boundary with
  | None => k <> Regular -> S <= T
  | Some bs => k <> Regular -> Forall (fun b => b_S b <= b_T b) bs
  end ->
  finite_logits full ->
  exists losses, rnnt_loss_pruned k B T s_range C S pruned symbols ranges term boundary pen RNone = Some (Each losses) /\ zlen losses = B /\
    forall b lg y rg sb tb se te L, rd full b = Some lg -> rd symbols b = Some y -> rd ranges b = Some rg -> bounds S T boundary b = Some (sb, tb, se, te) -> all_alignments k sb tb se te L ->
      exists x, rd losses b = Some x /\ likelihood x = sumf (align_prob k pen lg y term te (sb, tb)) (filter (stays k rg (sb, tb)) L).
Proof.
  intros k B T S r step C full pruned symbols ranges term boundary pen HB HT HS HP Hr SF SPr SR SS WD GA SC TC BO ST FI.
  destruct (C44_pruned_logprobs (option R) lninf ladd lsub lse k B T S r step C full pruned symbols ranges term boundary) as (lp & lf & E1 & E2 & L1 & L2 & MM); auto.
  { intros _ x. destruct x; auto. }
  { destruct boundary as [bs|]; [|exact ST]. destruct BO as (BL & BF). split; auto. apply Forall_forall. intros (((sb, tb), se), te) Hb.
    specialize (BF _ _ _ _ Hb). change (b_T (sb, tb, se, te)) with te. split; [lia|]. intros Hk. specialize (ST Hk). rewrite Forall_forall in ST. now apply ST. }
  destruct (joint_batch k B T S C full symbols term boundary) as (lf' & E3 & _ & P); auto. rewrite E2 in E3. injection E3 as <-.
  destruct (shape3_ok _ _ _ _ SR) as (R1 & _).
  destruct (loss_of_ok k B S T pen boundary lp) as (neg & R & ZN & Q); auto.
  { intros b p Hp. pose proof (rd_Some_bound _ _ _ Hp). destruct (rd_in_bound ranges b ltac:(lia)) as (rg & Hrg). destruct (rd_in_bound lf b ltac:(lia)) as (f & Hf). destruct (MM b rg p f Hrg Hp Hf) as (A1 & A2 & _). auto. }
  exists (map lneg neg). unfold rnnt_loss_pruned. rewrite E1, R. split; [reflexivity|]. split; [now rewrite zlen_map|].
  intros b lg y rg sb tb se te L' Hl Hy Hrg Hbd HL'. pose proof (rd_Some_bound _ _ _ Hl) as Bb. rewrite (proj1 (shape4_ok _ _ _ _ _ SF)) in Bb. destruct (rd_in_bound lp b ltac:(lia)) as (p & Hp). destruct (rd_in_bound lf b ltac:(lia)) as (f & Hf).
  destruct (C45_paths_enumerable (negb (is_reg k)) (sb, tb) (se, te)) as (L & HL). destruct (Q b p sb tb se te L Hp Hbd HL) as (BB & a & Ha & EA). exists (lneg a). split; [rewrite rd_map, Ha; reflexivity|]. rewrite likelihood_neg, EA.
  rewrite (sumf_filter _ _ L'), (sumf_perm _ _ _ (alignment_filter k sb tb se te L L' HL HL')), sumf_filter. apply sumf_ext. intros l Hin. apply HL in Hin.
  rewrite (masked_pw k pen te S T rg p f l (MM b rg p f Hrg Hp Hf)) by (rewrite ?Hin; cbn [fst snd]; lia).
  destruct (P b f Hf) as (lg' & y' & oe & Hl' & Hy' & Ho & SHP & Zy & Fy & ->). rewrite Hl in Hl'. injection Hl' as <-. rewrite Hy in Hy'. injection Hy' as <-. cbn [fst snd].
  destruct (t_end_ok B S T boundary b BO Bb) as (sb' & tb' & se' & te' & oe' & Hbd' & Ho' & Hoe & _). rewrite Hbd in Hbd'. injection Hbd' as <- <- <- <-. rewrite Ho in Ho'. injection Ho' as <-.
  rewrite (pw_joint k pen S T C lg y term te oe) by (auto; try (rewrite ?Hin; cbn [fst snd]; lia); intros t s l0 H0; exact (FI b lg t s l0 Hl H0)). destruct (stays k rg (sb, tb) l), (alignb k te (sb, tb) l); reflexivity.
Qed.
Print Assumptions C68_rnnt_loss_pruned.

(** C68: so pruning never lowers the loss. *)
Theorem C68_pruned_bound : forall k pen lg y term te c rg L,
  (sumf (align_prob k pen lg y term te c) (filter (stays k rg c) L) <= sumf (align_prob k pen lg y term te c) L)%R.
Proof.
  assert (N : forall l, (0 <= sumf expo l)%R) by (intros l; apply sumf_nonneg, expo_nonneg).
  assert (I : forall x, (0 <= x)%R -> (0 <= / x)%R) by (intros x [H|H]; [apply Rlt_le, Rinv_0_lt_compat, H|rewrite <- H, Rinv_0; lra]).
  assert (SM : forall l c, (0 <= softmax l c)%R). { intros l c. unfold softmax, Rdiv. apply Rmult_le_pos; [destruct (rd l c); [apply expo_nonneg|lra]|apply I, N]. }
  assert (CP : forall lg s t c, (0 <= class_prob lg s t c)%R) by (intros; unfold class_prob; destruct (rd2 lg t s); [apply SM|lra]).
  assert (AP : forall k pen lg y term te l c, (0 <= align_prob k pen lg y term te c l)%R).
  { intros k pen lg y term te l. induction l as [|x l IH]; intros (s, t); cbn [align_prob]; [lra|]. apply Rmult_le_pos; [|apply IH]. unfold decision_prob. destruct x; [|apply CP]. apply Rmult_le_pos; [|apply Rlt_le, exp_pos]. apply Rmult_le_pos; [destruct (rd y s); [apply CP|lra]|destruct k; [lra|lra|apply CP]]. }
  intros k pen lg y term te c rg L. rewrite sumf_filter. induction L as [|l L IH]; [rewrite !sumf_nil; lra|]. rewrite !sumf_cons. pose proof (AP k pen lg y term te l c). destruct (stays k rg c l); lra.
Qed.
Print Assumptions C68_pruned_bound.

Lemma loss_reductions k B S T pen boundary lp : reduces (fun r => loss_of k B S T pen boundary r lp).
Proof.
  intros losses. unfold loss_of. cbv zeta. destruct (add_penalty _ _ _ _ _) as [px|]; [|discriminate]. destruct (mutual_information_recursion _ _ _ _ _ _ _ _ _ _ _) as [res|]; [|discriminate].
  cbn [reduce]. set (neg := map fst res). intros H. injection H as <-.
  assert (E : lneg (lsum neg) = fold_right ladd (Some 0%R) (map lneg neg)).
  { unfold lsum. clear. induction neg as [|x l IH]; [cbn; f_equal; lra|]. cbn [map fold_right]. rewrite <- IH. destruct x as [x|], (fold_right ladd lzero l) as [y|]; cbn; auto. f_equal. lra. }
  split; [now rewrite E|]. split; [|reflexivity]. intros NE. rewrite <- E, zlen_map. assert (0 < zlen neg). { destruct neg as [|x l]; [now contradiction NE|]. rewrite zlen_cons. pose proof (zlen_nonneg l). lia. }
  replace (0 <? zlen neg) with true by lia. do 2 f_equal. destruct (lsum neg) as [x|]; cbn [lneg option_map]; [|reflexivity]. f_equal. unfold Rdiv. lra.
Qed.
Lemma reduces_bind {A} (o : option A) f : (forall x, reduces (f x)) -> reduces (fun r => x <- o;; f x r).
Proof. intros H. destruct o as [x|]; [exact (H x)|]. intros losses E. discriminate. Qed.
(** C68: the reductions add and average the losses of the utterances; +inf absorbs. *)
Theorem C68_reductions : forall k B T S1 C symbols term boundary pen,
  (forall logits, reduces (rnnt_loss k B T S1 C logits symbols term boundary pen)) /\
  (forall lm am, reduces (rnnt_loss_simple k B T S1 C lm am symbols term boundary pen)) /\
  (forall S logits ranges, reduces (rnnt_loss_pruned k B T S1 C S logits symbols ranges term boundary pen)).
Proof. intros. split; [|split]; intros; apply reduces_bind; intros lp; apply loss_reductions. Qed.
Print Assumptions C68_reductions.

(** Two frames, one symbol, two classes of equal probability: two alignments of
    three decisions each. *)
Definition lg68 : joiner := [[[Some 0%R; Some 0%R]; [Some 0%R; Some 0%R]]; [[Some 0%R; Some 0%R]; [Some 0%R; Some 0%R]]].
Lemma al68 : all_alignments Regular 0 0 1 2 [[true; false; false]; [false; true; false]].
Proof.
  change [[true; false; false]; [false; true; false]] with (filter (alignb Regular 2 (0, 0)) (paths false (0, 0) (1, 2))).
  destruct (paths_ok false (0, 0) (1, 2)) as (N & H). split; [now apply NoDup_filter|]. intros l. rewrite filter_In, H, alignb_iff. reflexivity.
Qed.
Lemma fin68 b : finite_logits (repeat lg68 b).
Proof.
  intros i lg t s l H1 H2. apply rd_In, repeat_spec in H1. subst lg. unfold rd2 in H2. destruct (rd lg68 t) as [r|] eqn:Er; [|discriminate]. apply rd_In in Er. apply rd_In in H2. exists 0%R.
  destruct Er as [<-|[<-|[]]]; destruct H2 as [<-|[<-|[]]]; now left.
Qed.
Example C68_ex : exists x, rnnt_loss Regular 1 2 2 2 [lg68] [[1]] 0 None 0%R RNone = Some (Each [x]) /\ likelihood x = (1 / 4)%R.
Proof.
  destruct (C68_rnnt_loss Regular 1 2 1 2 [lg68] [[1]] 0 None 0%R) as (losses & E & ZL & H); try lia; try lra; try reflexivity; try exact I; try congruence.
  - repeat constructor; lia.
  - exact (fin68 1).
  - destruct losses as [|x [|y l]]; [discriminate| |rewrite !zlen_cons in ZL; pose proof (zlen_nonneg l); lia]. exists x. split; [exact E|].
    destruct (H 0 lg68 [1] 0 0 1 2 _ eq_refl eq_refl eq_refl al68) as (x' & Hx & EL). injection Hx as <-. rewrite EL. rewrite !sumf_cons, sumf_nil.
    assert (SM : forall c, c = 0 \/ c = 1 -> softmax [Some 0%R; Some 0%R] c = (1 / 2)%R). { intros c [->| ->]; unfold softmax, sumf; cbn [fold_right expo]; [change (rd [Some 0%R; Some 0%R] 0) with (Some (Some 0%R))|change (rd [Some 0%R; Some 0%R] 1) with (Some (Some 0%R))]; cbn [expo]; rewrite exp_0; lra. }
    assert (CP : forall s t c, (s = 0 \/ s = 1) -> (t = 0 \/ t = 1) -> (c = 0 \/ c = 1) -> class_prob lg68 s t c = (1 / 2)%R). { intros s t c Hs Ht Hc. unfold class_prob. replace (rd2 lg68 t s) with (Some [Some 0%R; Some 0%R]) by (destruct Hs as [->| ->], Ht as [->| ->]; reflexivity). now apply SM. }
    cbn [align_prob decision_prob move is_reg negb fst snd]. change (rd [1] 0) with (Some 1). cbv iota. rewrite !Rmult_0_l, exp_0. rewrite !CP by lia. lra.
Qed.
Example C68_simple_ex : exists x, rnnt_loss_simple Regular 1 2 2 2 [[[Some 0%R; Some 0%R]; [Some 0%R; Some 0%R]]] [[[Some 0%R; Some 0%R]; [Some 0%R; Some 0%R]]] [[1]] 0 None 0%R RNone = Some (Each [x]) /\ likelihood x = (1 / 4)%R.
Proof.
  destruct C68_ex as (x & E & EL). exists x. split; [|exact EL]. rewrite <- E. apply (C68_rnnt_loss_simple Regular 1 2 1 2); try lia; try reflexivity; try exact I.
  - repeat constructor; lia.
  - intros b l a lg Hl Ha Hg. apply rd_In in Hl as [<-|[]]. apply rd_In in Ha as [<-|[]]. apply rd_In in Hg as [<-|[]]. split; [reflexivity|]. split.
    + intros t row Hr. apply rd_In in Hr as [<-|[<-|[]]]; reflexivity.
    + intros t s a l Ha Hl. pose proof (rd_Some_bound _ _ _ Ha) as Bt. pose proof (rd_Some_bound _ _ _ Hl) as Bs. apply rd_In in Ha. apply rd_In in Hl. assert (a = [Some 0%R; Some 0%R]) as -> by (destruct Ha as [<-|[<-|[]]]; reflexivity). assert (l = [Some 0%R; Some 0%R]) as -> by (destruct Hl as [<-|[<-|[]]]; reflexivity).
      change (0 <= t < 2) in Bt. change (0 <= s < 2) in Bs. cbn [combine map fst snd ladd]. rewrite Rplus_0_l. assert (t = 0 \/ t = 1) as [->| ->] by lia; assert (s = 0 \/ s = 1) as [->| ->] by lia; reflexivity.
  - exact (fin68 1).
Qed.
(** Windows of two positions for two symbols in two frames *)
Definition v68 := [Some 0%R; Some (ln 2)].
Example C68_pruned_ex : windows 2 2 2 1 [[0; 1]; [1; 2]] /\ gathered [[[0; 1]; [1; 2]]] [[[v68; v68]; [v68; v68]]] [[[v68; v68; v68]; [v68; v68; v68]]] /\
  all_alignments Regular 0 0 2 2 [[true; true; false; false]; [true; false; true; false]; [false; true; true; false]] /\
  filter (stays Regular [[0; 1]; [1; 2]] (0, 0)) [[true; true; false; false]; [true; false; true; false]; [false; true; true; false]] = [[true; false; true; false]].
Proof.
  split; [|split; [|split]].
  - exists (fun t => t). split; [reflexivity|]. split; [intros t Ht; assert (t = 0 \/ t = 1) as [->| ->] by lia; reflexivity|]. split; [lia|]. split; [reflexivity|]. lia.
  - intros b t j i H. unfold rd3 in H. destruct (rd [[[0; 1]; [1; 2]]] b) as [x|] eqn:E; [|discriminate]. pose proof (rd_Some_bound _ _ _ E) as Bb. change (0 <= b < 1) in Bb. replace b with 0 in * by lia. injection E as <-. unfold rd2 in H. destruct (rd [[0; 1]; [1; 2]] t) as [r|] eqn:Er; [|discriminate]. pose proof (rd_Some_bound _ _ _ Er) as Bt. change (0 <= t < 2) in Bt. assert (t = 0 \/ t = 1) as [->| ->] by lia; injection Er as <-; pose proof (rd_Some_bound _ _ _ H) as Bj; change (0 <= j < 2) in Bj; assert (j = 0 \/ j = 1) as [->| ->] by lia; injection H as <-; reflexivity.
  - change [[true; true; false; false]; [true; false; true; false]; [false; true; true; false]] with (filter (alignb Regular 2 (0, 0)) (paths false (0, 0) (2, 2))).
    destruct (paths_ok false (0, 0) (2, 2)) as (N & H). split; [now apply NoDup_filter|]. intros l. rewrite filter_In, H, alignb_iff. reflexivity.
  - reflexivity.
Qed.
