(** * C63: ctc_loss *)
From Coq Require Import ZArith List Lia Lra Bool Reals.
From Coq Require Import ZifyBool ZifyNat.
From Verif Require Import Base RaggedModel RaggedSpec RaggedProofs FsaSpec FsaLemmas FstSpec ConnectSpec ConnectProofs PropsSpec LogReal BatchModel ScoreModel ScoreSpec
  ScorePaths ScoreProps ShortestSpec IDenseModel IDenseSpec IDenseProps GraphModel GraphProofs GraphProps CtcLossModel CtcLossSpec CtcLossProofs CtcAlign.
From Verif Require ComposeProps.
Import ListNotations.
Open Scope Z_scope.

(** Any batch of decoding graphs: the loss of a sequence is minus the log of the sum of
    the probabilities of paths of its graph with one label per frame, each counted
    once; these are all the paths with a score less than [beam] below that of the
    best, and possibly others.  So they are all the paths if no two scores differ by
    [beam] or more. *)
Theorem C63_decoding_graph : forall V auxs logits n u delay_penalty beam ord fuel dec lp sched ord' target_lengths,
  (forall m, is_sched m (ord m)) -> (forall x l t, 0 < x -> 0 < dec x l t) -> is_sched (zlen V * 2 ^ Z.of_nat lp) sched -> fair ord' ->
  loss_inputs V logits n -> 0 < beam -> map zlen auxs = map (fun f => zlen (all_arcs f)) V ->
  exists losses,
    ctc_loss ord (S fuel) dec lp sched ord' u (flat_vec V) (concat auxs) (dense_of n logits) beam delay_penalty red_none target_lengths = Some losses /\
    zlen losses = zlen V /\
    forall k f aux lg, rd V k = Some f -> rd auxs k = Some aux -> rd logits k = Some lg -> exists L,
      NoDup L /\ (forall p, In p L -> fits f lg p) /\
      (forall p, fits f lg p -> (forall p', fits f lg p' -> path_score f lg p' - beam < path_score f lg p) -> In p L) /\
      rd losses k = Some (minus_log_sum (path_weight u delay_penalty f aux lg) L).
Proof.
  intros V auxs logits n u dp beam ord fuel dec lp sched ord' tl Ho Hd Hs Ho' HI Hb HA. pose proof (inputs_ok V auxs logits n beam HI) as DI.
  destruct (C42_no_limit V (map (segment_rows n) logits) None _ _ _ ord fuel dec beam 15000000 1073741824 Ho DI Hb (limits_ok V logits n HI)) as (gs & mapa & mapb & E & HB).
  assert (HS : zlen (concat gs) <= 15000000).
  { destruct (C42_intersect_dense V _ None _ _ _ ord (S fuel) dec beam 15000000 1073741824 _ Ho Hd DI Hb E) as (gs' & ma' & mb' & b' & ER & _ & _ & L1 & _). injection ER as _ E2 _ _ _ _.
    assert (Z : zlen (splits_of (concat gs)) = zlen (splits_of (concat gs'))) by congruence. rewrite !zlen_splits_of in Z. lia. }
  unfold ctc_loss, dense_of. rewrite E. cbn [flat_dense b_rs b_cols].
  destruct (scores_ok V auxs logits n u dp beam HI gs mapa mapb HB HA) as (scores & SE & ZS & HW). cbv zeta in SE |- *. rewrite SE.
  assert (EV : mkVec (splits_of gs) (splits_of (concat gs)) (map (fun a => let '(s, d, l, x) := a in mkArc s d l match x with Some z => z | None => 0 end) (map (fun a => (src a, dst a, lab a, Some (sc a))) (concat (concat gs)))) = flat_vec gs).
  { unfold flat_vec. f_equal. rewrite map_map. rewrite <- (map_id (concat (concat gs))) at 2. apply map_ext. intros []. reflexivity. }
  rewrite EV. clear EV. pose proof HB as (ZG & _ & _ & HK).
  assert (WF : Forall well_formed gs /\ Forall p_topsorted_acyclic gs).
  { split; apply Forall_forall; intros g Hg; apply In_rd in Hg as (k & _ & Hg); destruct (f_of V logits n beam gs mapa mapb HB k g Hg) as (f & Hf); destruct (at_k V logits n beam gs mapa mapb HB k f g Hf Hg) as (_ & _ & _ & W1 & W2); assumption. }
  destruct WF as (WF & TS).
  destruct (C30_tot_scores true gs scores lp sched ord' WF TS ltac:(unfold int_max; lia) ZS ltac:(rewrite ZG; exact Hs) Ho') as (tot & -> & ZT & HT).
  cbn [reduce_losses]. exists (map lneg tot). split; [reflexivity|]. split; [rewrite zlen_map; lia|].
  intros k f aux lg Hf Ha Hl. destruct (g_of V logits n beam gs mapa mapb HB k f Hf) as (g & Hg). destruct (HT k g Hg) as (x & Ex & (Lg & ND & HL & Es)).
  destruct (at_k V logits n beam gs mapa mapb HB k f g Hf Hg) as (lg' & Hl' & (D1 & D2 & D3 & D4 & D5 & D6) & _). rewrite Hl in Hl'. injection Hl' as <-.
  set (am := fun i => at0 mapa (arcs_before gs k + i) - arcs_before V k) in *.
  assert (PW : forall q, successful g q -> fits f lg (map am q) /\ pweight (arc_score gs scores k) q = Some (path_weight u dp f aux lg (map am q))).
  { intros q Hq. apply (path_weight_ok V logits n u dp beam HI gs mapa mapb HB scores k f g lg aux q); try assumption. intros j a Hj. exact (HW k f g lg aux j a Hf Hg Hl Ha Hj). }
  exists (map (map am) Lg). split; [|split; [|split]].
  - apply NoDup_map_in; [exact ND|]. intros q q' Hq Hq'. apply D6; now apply HL.
  - intros p Hp. apply in_map_iff in Hp as (q & <- & Hq). apply PW. now apply HL.
  - intros p Hp HM. destruct HI as (_ & _ & _ & H4 & H5 & _). destruct (H4 f (rd_In _ _ _ Hf)) as (VF & _ & LF). destruct (H5 lg (rd_In _ _ _ Hl)) as (_ & LL & _).
    assert (DS : forall p, fits f lg p -> dense_path f (segment_rows n lg) p /\ dense_score f (segment_rows n lg) 0 p = Some (path_score f lg p)).
    { intros p0 (P1 & P2). assert (DP : dense_path f (segment_rows n lg) p0) by (split; [exact P1|rewrite zlen_segment; exact P2]). split; [exact DP|]. apply (C42_scores f n lg p0 VF LF LL) in DP. apply DP. }
    destruct (D2 p) as (q & (Q1 & Q2) & _).
    { destruct (DS p Hp) as (P1 & P2). split; [exact P1|]. exists (path_score f lg p). split; [exact P2|]. intros p' x' (P3 & P3') P4. rewrite zlen_segment in P3'. assert (F' : fits f lg p') by (split; assumption). destruct (DS p' F') as (_ & P5). rewrite P4 in P5. injection P5 as ->. exact (HM p' F'). }
    apply in_map_iff. exists q. split; [exact Q2|]. now apply HL.
  - rewrite rd_map, Ex. cbn [option_map]. f_equal. rewrite Es, minus_log_sum_map. rewrite <- lneg_ssum. do 2 f_equal. apply map_ext_in. intros q Hq. apply PW. now apply HL.
Qed.
Print Assumptions C63_decoding_graph.

(** The reductions: with finite losses 'sum' gives their sum and 'mean' the mean of the
    losses divided by the lengths of the targets, if these are positive; if a sequence has an infinite loss
    both are infinite. *)
Theorem C63_reductions : forall ord fuel dec lp sched ord' u graphs aux dense beam delay_penalty target_lengths losses,
  ctc_loss ord fuel dec lp sched ord' u graphs aux dense beam delay_penalty red_none target_lengths = Some losses ->
  let run red := ctc_loss ord fuel dec lp sched ord' u graphs aux dense beam delay_penalty red target_lengths in
  (forall xs, losses = map Some xs -> run red_sum = Some [Some (sumf (fun x => x) xs)]) /\
  (forall xs, losses = map Some xs -> zlen target_lengths = zlen xs -> Forall (fun n => 0 < n) target_lengths ->
     run red_mean = Some [Some (sumf (fun p => fst p / IZR (snd p)) (combine xs target_lengths) / IZR (zlen xs))%R]) /\
  (In None losses -> zlen target_lengths = zlen losses -> Forall (fun n => 0 < n) target_lengths -> run red_sum = Some [None] /\ run red_mean = Some [None]).
Proof.
  intros ord fuel dec lp sched ord' u graphs aux dense beam dp tl losses H run.
  assert (R : forall red, run red = reduce_losses red losses tl).
  { intros red. unfold run, ctc_loss in *. destruct (intersect_dense _ _ _ _ _ _ _ _ _) as [[[[[[rs1 rs2] arcs] ma] mb] b]|]; [|discriminate]. cbv zeta in *.
    match goal with H : context [if Rlt_dec 0 dp then ?A else ?B] |- _ => destruct (if Rlt_dec 0 dp then A else B) as [scores|]; [|discriminate] end.
    destruct (get_tot_scores _ _ _ _ _ _) as [tot|]; [|discriminate]. cbn [reduce_losses] in H. injection H as <-. reflexivity. }
  assert (SUM : forall xs, losses_sum (map Some xs) = Some (sumf (fun x => x) xs)).
  { induction xs as [|x xs IH]; [reflexivity|]. unfold losses_sum in *. cbn [map fold_right]. rewrite IH. reflexivity. }
  assert (INF : forall ls, In None ls -> losses_sum ls = None).
  { induction ls as [|x ls IH]; [intros []|]. unfold losses_sum in *. cbn [fold_right]. intros [->|Hin]; [reflexivity|]. rewrite IH by assumption. now destruct x. }
  assert (MEAN : forall ls, losses = ls -> zlen tl = zlen ls -> mapM (fun i => x <- rd ls i;; n <- rd tl i;; Some (option_map (fun r => (r / IZR n)%R) x)) (zrange (zlen ls)) =
     Some (map (fun p => option_map (fun r => (r / IZR (snd p))%R) (fst p)) (combine ls tl))).
  { intros ls _ Z. rewrite (mapM_Some_map _ (fun i => match rd ls i, rd tl i with Some x, Some n => option_map (fun r => (r / IZR n)%R) x | _, _ => None end)).
    - f_equal. assert (ZC : zlen (combine ls tl) = zlen ls) by (unfold zlen in *; rewrite combine_length; lia). apply list_ext_rd; rewrite !zlen_map; [rewrite ZC; apply zlen_zrange, zlen_nonneg|]. intros i Hi. rewrite zlen_zrange in Hi by apply zlen_nonneg.
      rewrite !rd_map, rd_zrange by lia. cbn [option_map]. destruct (rd_in_bound ls i Hi) as (x & Ex). destruct (rd_in_bound tl i ltac:(lia)) as (m & Em). rewrite Ex, Em, (ComposeProps.rd_combine ls tl i x m Ex Em). reflexivity.
    - intros i Hi. apply in_zrange in Hi. destruct (rd_in_bound ls i Hi) as (x & ->). destruct (rd_in_bound tl i ltac:(lia)) as (m & ->). reflexivity. }
  split; [|split].
  - intros xs ->. rewrite R. cbn [reduce_losses]. now rewrite SUM.
  - intros xs -> Z _. rewrite R. cbn [reduce_losses]. rewrite zlen_map in *. replace (zlen xs =? zlen tl) with true by lia.
    pose proof (MEAN _ eq_refl ltac:(rewrite zlen_map; exact Z)) as M. rewrite zlen_map in M. rewrite M.
    assert (EM : map (fun p => option_map (fun r => (r / IZR (snd p))%R) (fst p)) (combine (map Some xs) tl) = map Some (map (fun p => (fst p / IZR (snd p))%R) (combine xs tl))).
    { clear -Z. revert tl Z. induction xs as [|x xs IH]; intros tl Z; [reflexivity|]. destruct tl as [|t tl]; [reflexivity|]. cbn [map combine fst snd option_map]. rewrite IH; [reflexivity|]. rewrite !zlen_cons in Z. lia. }
    rewrite EM, SUM, sumf_map. cbn [option_map]. rewrite !zlen_map. do 4 f_equal. unfold zlen in *. rewrite combine_length. f_equal. lia.
  - intros Hin Z _. rewrite !R. cbn [reduce_losses]. rewrite (INF _ Hin). split; [reflexivity|]. replace (zlen losses =? zlen tl) with true by lia. rewrite (MEAN _ eq_refl Z).
    rewrite INF; [reflexivity|]. apply in_map_iff. apply In_rd in Hin as (i & Hi & Ei). destruct (rd_in_bound tl i ltac:(lia)) as (m & Em). exists (None, m). split; [reflexivity|]. exact (rd_In _ _ _ (ComposeProps.rd_combine losses tl i None m Ei Em)).
Qed.
Print Assumptions C63_reductions.

(** ** Transcripts *)
Lemma size_sums ys : Forall (Forall (fun a => 1 <= a)) ys ->
  zlen (concat (map fsa_of (map (ctc_nested false) ys))) = 2 * zlen (concat ys) + 2 * zlen ys /\
  zlen (concat (concat (map fsa_of (map (ctc_nested false) ys)))) <= 5 * zlen (concat ys) + 2 * zlen ys.
Proof.
  induction 1 as [|y ys Hy _ (I1 & I2)]; [split; [reflexivity|change (0 <= 0); lia]|]. cbn [map concat]. rewrite concat_app, !zlen_app, zlen_cons. pose proof (arc_count y) as C.
  assert (E : zlen (fsa_of (ctc_nested false y)) = 2 * zlen y + 2) by (unfold fsa_of; rewrite zlen_map, zlen_ctc_nested; reflexivity).
  assert (E2 : zlen (concat (fsa_of (ctc_nested false y))) = zlen (concat (ctc_nested false y))) by (unfold fsa_of; rewrite <- concat_map, zlen_map; reflexivity).
  lia.
Qed.
Lemma ctc_inputs_loss ys logits n : ctc_inputs ys logits n -> loss_inputs (map fsa_of (map (ctc_nested false) ys)) logits n.
Proof.
  intros (H1 & H2 & H3 & H4 & H5 & H6).
  assert (P : Forall (Forall (fun a => 1 <= a)) ys) by (apply Forall_forall; intros y Hy; destruct (H4 y Hy) as (X & _); eapply Forall_impl; [|exact X]; cbn; lia).
  destruct (size_sums ys P) as (S1 & S2). pose proof (zlen_nonneg (concat ys)). split; [rewrite !zlen_map; exact H1|]. split; [rewrite !zlen_map; exact H2|]. split; [lia|]. split; [|split; [|exact H6]].
  - intros f Hf. rewrite map_map in Hf. apply in_map_iff in Hf as (y & <- & Hy). destruct (H4 y Hy) as (Y1 & Y2). assert (PY : Forall (fun a => 1 <= a) y) by (eapply Forall_impl; [|exact Y1]; cbn; lia).
    split; [now apply ctc_valid|]. split; [unfold fsa_of; rewrite zlen_map, zlen_ctc_nested; lia|]. intros a Ha. apply (label_bound y n a); [lia| |exact Ha]. eapply Forall_impl; [|exact Y1]; cbn; lia.
  - intros lg Hl. destruct (H5 lg Hl) as (L1 & L2 & L3). split; [exact L1|]. split; [exact L2|]. rewrite S1. split; [exact L3|]. pose proof (zlen_nonneg lg). nia.
Qed.

(** The scores of alignments are bounded, so there is a best one *)
Lemma acoustic_bound lg : exists B, forall x, acoustic lg x <= B.
Proof.
  induction lg as [|r lg (B & IH)]; [exists 0; intros; cbn; lia|]. assert (R : exists C, forall l, at0 r l <= C).
  { clear. induction r as [|v r (C & IH)]; [exists 0; intros l; unfold at0; rewrite rd_nil; lia|]. exists (Z.max v (Z.max 0 C)). intros l. unfold at0. rewrite rd_cons. destruct (l =? 0); [lia|]. specialize (IH (l - 1)). unfold at0 in IH. lia. }
  destruct R as (C & R). exists (Z.max 0 (C + B)). intros [|l x]; cbn [acoustic]; [lia|]. specialize (R l). specialize (IH x). lia.
Qed.

(** The CTC loss of transcripts: the loss of a sequence is minus the log of the sum of
    the probabilities of alignments of its transcript with its frames, each counted
    once: of all the alignments with a score less than [beam] below that of any other,
    and possibly more.  If no two scores differ by [beam] or more it is the sum over
    all the alignments.  With a penalty, the log-probability of an alignment is
    changed by the penalty times its delay.  The loss is infinite iff the transcript
    has no alignment. *)
Theorem C63_ctc_loss : forall ys logits n u delay_penalty beam ord fuel dec lp sched ord' target_lengths,
  (forall m, is_sched m (ord m)) -> (forall x l t, 0 < x -> 0 < dec x l t) -> is_sched (zlen ys * 2 ^ Z.of_nat lp) sched -> fair ord' ->
  ctc_inputs ys logits n -> 0 < beam ->
  exists graphs aux_labels losses,
    ctc_graphs (splits_of ys) (concat ys) false = Some (graphs, aux_labels) /\
    ctc_loss ord (S fuel) dec lp sched ord' u graphs aux_labels (dense_of n logits) beam delay_penalty red_none target_lengths = Some losses /\
    zlen losses = zlen ys /\
    forall k y lg, rd ys k = Some y -> rd logits k = Some lg ->
      let aligned := alignment n (zlen lg) y in
      exists L, NoDup L /\ (forall a, In a L -> aligned a) /\
        (forall a, aligned a -> (forall a', aligned a' -> acoustic lg a' - beam < acoustic lg a) -> In a L) /\
        ((forall a a', aligned a -> aligned a' -> acoustic lg a' - acoustic lg a < beam) -> forall a, aligned a -> In a L) /\
        (L = [] <-> forall a, ~ aligned a) /\
        rd losses k = Some (minus_log_sum (alignment_weight u delay_penalty lg) L).
Proof.
  intros ys logits n u dp beam ord fuel dec lp sched ord' tl Ho Hd Hs Ho' HI Hb. pose proof (ctc_inputs_loss ys logits n HI) as LI.
  set (Ts := map (ctc_nested false) ys) in *. set (auxs := map (fun T : nfst => map snd (concat T)) Ts).
  pose proof HI as (H1 & H2 & H3 & H4 & H5 & H6).
  destruct (C63_decoding_graph (map fsa_of Ts) auxs logits n u dp beam ord fuel dec lp sched ord' tl Ho Hd) as (losses & E & Z & HL); try assumption.
  { unfold Ts. rewrite !zlen_map. exact Hs. }
  { unfold auxs. rewrite !map_map. apply map_ext. intros T. rewrite zlen_map. unfold all_arcs, fsa_of. rewrite <- concat_map, zlen_map. reflexivity. }
  exists (vec_of Ts), (map snd (concat (concat Ts))), losses. split.
  { apply ctc_graphs_ok. intros Hin. apply in_concat in Hin as (l & Hl & Hx). destruct (H4 l Hl) as (X & _). rewrite Forall_forall in X. specialize (X _ Hx). lia. }
  assert (EA : concat auxs = map snd (concat (concat Ts))) by (unfold auxs; rewrite <- (map_map (@concat _) (map snd)), <- concat_map, concat_map_concat; reflexivity).
  rewrite EA in E. split; [exact E|]. split; [unfold Ts in Z; rewrite !zlen_map in Z; exact Z|].
  intros k y lg Hy Hl aligned. destruct (H4 y (rd_In _ _ _ Hy)) as (Y1 & _). assert (PY : Forall (fun a => 1 <= a) y) by (eapply Forall_impl; [|exact Y1]; cbn; lia). assert (PY' : Forall (fun a => a < n) y) by (eapply Forall_impl; [|exact Y1]; cbn; lia).
  set (T := ctc_nested false y). set (f := fsa_of T). set (aux := map snd (concat T)).
  assert (RT : rd Ts k = Some T) by (unfold Ts; rewrite rd_map, Hy; reflexivity).
  destruct (HL k f aux lg) as (L & ND & L1 & L2 & L3); [rewrite rd_map, RT; reflexivity|unfold auxs; rewrite rd_map, RT; reflexivity|exact Hl|].
  (* paths and alignments *)
  set (un := fun p => removelast (labels (arcs_at f p))).
  assert (PA : forall p, fits f lg p -> aligned (un p) /\ labels (arcs_at f p) = un p ++ [-1] /\ path_score f lg p = acoustic lg (un p) /\ path_delay aux (zlen lg) p = delay (un p)).
  { intros p (P1 & P2). destruct (path_alignment y PY p P1) as (x & X1 & X2 & X3 & X4 & X5 & X6). fold T f in X1, X3. assert (EU : un p = x) by (unfold un; rewrite X1; apply removelast_last). rewrite EU.
    assert (ZX : zlen x = zlen lg) by lia. split; [|split; [exact X1|split; [|rewrite <- ZX; exact X6]]].
    - split; [exact ZX|]. split; [|exact X2]. apply Forall_forall. intros l Hin. rewrite Forall_forall in X4. split; [now apply X4|]. destruct P1 as (_ & P1). pose proof (labels_bound y n 0 p _ ltac:(lia) PY' P1) as LB. fold T f in LB. rewrite X1 in LB. rewrite Forall_forall in LB. apply LB. apply in_or_app. now left.
    - unfold path_score. rewrite X3, X1, acoustic_app by exact ZX. lia. }
  assert (AP : forall a, aligned a -> exists p, fits f lg p /\ un p = a).
  { intros a (A1 & A2 & A3). destruct (alignment_path y PY a A3) as (p & P1 & P2). fold T f in P1, P2. exists p. destruct (path_alignment y PY p P1) as (x & X1 & _ & _ & _ & X5 & _). fold T f in X1. rewrite P2 in X1. apply app_inj_tail in X1 as (X1 & _). subst x. split; [split; [exact P1|lia]|]. unfold un. rewrite P2. apply removelast_last. }
  assert (CL : forall a, aligned a -> (forall a', aligned a' -> acoustic lg a' - beam < acoustic lg a) -> In a (map un L)).
  { intros a Ha HM. destruct (AP a Ha) as (p & P1 & P2). apply in_map_iff. exists p. split; [exact P2|]. apply L2; [exact P1|]. intros p' P1'. destruct (PA p P1) as (_ & _ & S1 & _). destruct (PA p' P1') as (A' & _ & S2 & _). rewrite S1, S2, P2. exact (HM _ A'). }
  exists (map un L). split; [|split; [|split; [exact CL|split; [|split]]]].
  - apply NoDup_map_in; [exact ND|]. intros p p' Hp Hp' EU. destruct (PA p (L1 p Hp)) as (_ & X1 & _). destruct (PA p' (L1 p' Hp')) as (_ & X2 & _). destruct (L1 p Hp) as ((_ & A1) & _). destruct (L1 p' Hp') as ((_ & A2) & _). apply (path_det y PY 0 p _ A1 p' _ A2). fold T f. congruence.
  - intros a Ha. apply in_map_iff in Ha as (p & <- & Hp). apply PA. now apply L1.
  - intros HB a Ha. apply CL; [exact Ha|]. intros a' Ha'. specialize (HB a a' Ha Ha'). lia.
  - split.
    + intros EL a Ha. destruct (acoustic_bound lg) as (B & HB).
      assert (G : forall m b, aligned b -> B - acoustic lg b < Z.of_nat m -> False).
      { induction m as [|m IH]; intros b Hb' Hm; [specialize (HB b); lia|]. assert (N : ~ In b (map un L)) by (rewrite EL; intros []). apply N. apply CL; [exact Hb'|]. intros a' Ha'. destruct (Z_lt_dec (acoustic lg a' - beam) (acoustic lg b)) as [|G]; [assumption|]. exfalso. apply (IH a' Ha'). lia. }
      apply (G (Z.to_nat (B - acoustic lg a + 1)) a Ha). specialize (HB a). lia.
    + intros H. destruct (map un L) as [|a l] eqn:EL; [reflexivity|]. exfalso. apply (H a). assert (Hin : In a (map un L)) by (rewrite EL; now left). apply in_map_iff in Hin as (p & <- & Hp). apply PA. now apply L1.
  - rewrite L3, minus_log_sum_map. f_equal. apply minus_log_sum_ext. intros p Hp. destruct (PA p (L1 p Hp)) as (_ & _ & S1 & S2). unfold path_weight, alignment_weight. rewrite S1, S2. reflexivity.
Qed.
Print Assumptions C63_ctc_loss.

(** The hypotheses hold, for instance, for three transcripts -- one with a repeated
    symbol, one too long for its frames, one empty --, and any schedules *)
Definition loss_ex_ys : list (list Z) := [[1; 1]; [2; 1; 2]; []].
Definition loss_ex_logits : list (list (list Z)) := [[[-1; -2; -3]; [-4; -1; -2]; [-2; -2; -2]; [-1; -5; -1]]; [[-1; -1; -4]; [-3; -2; -1]]; [[-1; -1; -4]]].
Example C63_inputs_ex : ctc_inputs loss_ex_ys loss_ex_logits 3 /\ loss_inputs (map fsa_of (map (ctc_nested false) loss_ex_ys)) loss_ex_logits 3 /\
  (forall m, is_sched m (zrange m)) /\
  (* the first has alignments, the second has none *)
  alignment 3 4 [1; 1] [1; 0; 1; 0] /\ alignment 3 4 [1; 1] [1; 1; 0; 1] /\ (forall a, ~ alignment 3 2 [2; 1; 2] a) /\ alignment 3 1 [] [0] /\
  (* emitted on frames 0 and 2, and on frames 0 and 3 *)
  delay [1; 0; 1; 0] = -2 /\ delay [1; 1; 0; 1] = -1.
Proof.
  assert (I : ctc_inputs loss_ex_ys loss_ex_logits 3).
  { split; [split; reflexivity|]. split; [reflexivity|]. split; [lia|]. split; [|split].
    - intros y Hy. split; [|cbn in Hy; repeat destruct Hy as [<-|Hy]; try contradiction; reflexivity]. cbn in Hy; repeat destruct Hy as [<-|Hy]; try contradiction; repeat (apply Forall_cons; [lia|]); apply Forall_nil.
    - intros lg Hl. cbn in Hl; repeat destruct Hl as [<-|Hl]; try contradiction; (split; [reflexivity|]; split; [repeat (apply Forall_cons; [reflexivity|]); apply Forall_nil|vm_compute; discriminate]).
    - intros i j lg lg' Hij Hi Hj. pose proof (rd_Some_bound _ _ _ Hi). pose proof (rd_Some_bound _ _ _ Hj). change (zlen loss_ex_logits) with 3 in *.
      assert (i = 0 \/ i = 1 \/ i = 2) as [->|[->| ->]] by lia; assert (j = 0 \/ j = 1 \/ j = 2) as [->|[->| ->]] by lia; try lia; cbn in Hi, Hj; injection Hi as <-; injection Hj as <-; vm_compute; congruence. }
  split; [exact I|]. split; [now apply ctc_inputs_loss|]. split; [intros m; apply is_sched_zrange|].
  assert (A : forall n T y a, zlen a = T -> forallb (fun l => (0 <=? l) && (l <? n)) a = true -> collapse a = y -> alignment n T y a).
  { intros n T y a E F C. split; [exact E|]. split; [|exact C]. apply Forall_forall. intros l Hl. rewrite forallb_forall in F. specialize (F l Hl). lia. }
  split; [now apply A|]. split; [now apply A|]. split; [|split; [now apply A|split; reflexivity]].
  intros a (E & _ & C). destruct a as [|a0 [|b [|c d]]]; cbn in E; try discriminate E.
  - unfold collapse in C. apply (f_equal (@length Z)) in C. revert C. cbn. repeat (match goal with |- context [if ?t then _ else _] => destruct t | |- context [negb ?t] => destruct t end; cbn); lia.
  - rewrite !zlen_cons in E. pose proof (zlen_nonneg d). lia.
Qed.
