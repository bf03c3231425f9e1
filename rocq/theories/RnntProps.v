(** * C43: the pruning ranges of RNN-T. *)
From Coq Require Import ZArith List Lia Bool.
From Coq Require Import ZifyBool ZifyNat.
From Verif Require Import Base RaggedOpsProofs OpsModel RnntModel RnntSpec RnntProofs.
Import ListNotations.
Open Scope Z_scope.

(** What the caller must supply: one boundary per utterance, with at least one
    frame, not longer than the tensors; in the modified topology at most one
    symbol per frame; in the regular one at least one symbol in the batch and
    s_range >= 2. *)
Definition ranges_input (B S T1 T s_range : Z) (boundary : list (Z * Z * Z * Z)) : Prop :=
  0 <= S /\ zlen boundary = B /\ 1 <= s_range /\
  (T1 = T \/ (T1 = T + 1 /\ 1 <= B /\ 1 <= S /\ 2 <= s_range)) /\
  Forall (fun b => 0 <= b_S b <= S /\ 1 <= b_T b <= T /\ (T1 = T -> b_S b <= b_T b)) boundary.

Lemma fold_max l : forall x, exists y, In y (x :: l) /\ fold_left Z.max l x = y /\ forall z, In z (x :: l) -> z <= y.
Proof.
  induction l as [|a l IH]; intros x.
  - exists x. split; [now left|]. split; [reflexivity|]. intros z [->|[]]. lia.
  - cbn [fold_left]. destruct (IH (Z.max x a)) as (y & Y1 & Y2 & Y3). exists y. split.
    + destruct Y1 as [Y1|Y1]; [|right; now right]. destruct (Z.max_spec x a) as [(_ & E)|(_ & E)]; rewrite E in Y1; [right; left; auto|left; auto].
    + split; [exact Y2|]. intros z Hz. pose proof (Y3 (Z.max x a) (or_introl eq_refl)).
      destruct Hz as [->|[->|Hz]]; [lia|lia|]. apply Y3. now right.
Qed.

Lemma mapM_in {A B} (f : A -> option B) l ys : mapM f l = Some ys -> forall y, In y ys <-> exists x, In x l /\ f x = Some y.
Proof.
  revert ys. induction l as [|x l IH]; intros ys H y; cbn [mapM] in H.
  - injection H as <-. split; [intros []|intros (? & [] & _)].
  - destruct (f x) as [v|] eqn:E; [|discriminate]. destruct (mapM f l) as [vs|] eqn:E2; [|discriminate]. injection H as <-.
    cbn [In]. rewrite (IH vs eq_refl). split.
    + intros [<-|(z & Z1 & Z2)]; [exists x|exists z]; auto.
    + intros (z & [->|Z1] & Z2); [left; congruence|right; eauto].
Qed.

(** The effective number of symbols kept per frame. *)
Lemma effective_range_ok B S T1 T s_range boundary : ranges_input B S T1 T s_range boundary ->
  exists r, effective_range S T (negb (T1 =? T)) boundary s_range = Some r /\ 1 <= r <= S + 1 /\
    (T1 = T -> r = Z.min s_range (S + 1)) /\
    (T1 = T + 1 -> 2 <= r /\ Z.min s_range (S + 1) <= r /\
       (Z.min s_range (S + 1) < r -> exists b, In b boundary /\ (r - 2) * b_T b < b_S b) /\
       forall b, In b boundary -> b_S b <= (r - 1) * b_T b).
Proof.
  intros (HS & HB & Hr & HT & HF). rewrite Forall_forall in HF. unfold effective_range.
  destruct HT as [->|(-> & HB1 & HS1 & Hr2)].
  - rewrite Z.eqb_refl. cbn [negb]. eexists. split.
    + replace (1 <=? (if S <? s_range then S + 1 else s_range)) with true by (destruct (S <? s_range) eqn:?; lia). reflexivity.
    + split; [destruct (S <? s_range) eqn:?; lia|]. split; [|lia]. intros _. destruct (S <? s_range) eqn:?; lia.
  - replace (T + 1 =? T) with false by lia. cbn [negb].
    destruct (mapM (fun b => check (negb (b_T b =? 0));; Some (Z.quot (b_S b - 1) (b_T b) + 2)) boundary) as [mins|] eqn:E.
    2:{ exfalso. clear - E HF. induction boundary as [|b bs IH]; [discriminate|]. cbn [mapM] in E.
        destruct (HF b (or_introl eq_refl)) as (_ & Hb & _). replace (b_T b =? 0) with false in E by lia. cbn [negb] in E.
        match type of E with context [mapM ?f bs] => destruct (mapM f bs) eqn:E2 end; [discriminate|].
        apply IH; auto. intros b' Hb'. apply HF. now right. }
    destruct mins as [|m0 mins].
    { apply mapM_length in E. destruct boundary; [change (zlen (@nil (Z*Z*Z*Z))) with 0 in HB; lia|discriminate]. }
    cbn [tmax]. destruct (fold_max mins m0) as (K & K1 & K2 & K3). rewrite K2.
    pose proof (mapM_in _ _ _ E) as MI.
    assert (Q : forall b, In b boundary -> Z.quot (b_S b - 1) (b_T b) + 2 <= K).
    { intros b Hb. apply K3, MI. exists b. split; auto. destruct (HF b Hb) as (_ & Hb' & _). now replace (b_T b =? 0) with false by lia. }
    assert (QB : forall b, In b boundary -> b_S b <= (K - 1) * b_T b).
    { intros b Hb. specialize (Q b Hb). destruct (HF b Hb) as (H1 & H2 & _).
      destruct (Z.eq_dec (b_S b) 0) as [E0|E0].
      - rewrite E0 in Q |- *. change (0 - 1) with (- (1)) in Q. rewrite Z.quot_opp_l in Q by lia.
        destruct (Z.eq_dec (b_T b) 1) as [E1|E1].
        + rewrite E1 in *. change (1 ÷ 1) with 1 in Q. lia.
        + rewrite Z.quot_small in Q by lia. nia.
      - pose proof (Z.quot_rem' (b_S b - 1) (b_T b)). pose proof (Z.rem_bound_pos (b_S b - 1) (b_T b) ltac:(lia) ltac:(lia)). nia. }
    apply MI in K1 as (bk & Hbk & EK). destruct (HF bk Hbk) as (F1 & F2 & _). replace (b_T bk =? 0) with false in EK by lia. cbn [negb] in EK.
    injection EK as EK. set (r1 := if s_range <? K then K else s_range).
    assert (R1 : s_range <= r1 /\ K <= r1 /\ (r1 = s_range \/ (s_range < K /\ r1 = K))) by (unfold r1; destruct (s_range <? K) eqn:?; lia).
    set (r2 := if S <? r1 then S + 1 else r1).
    assert (R2 : r2 = Z.min r1 (S + 1)) by (unfold r2; destruct (S <? r1) eqn:?; lia).
    exists r2. replace (2 <=? r2) with true by lia. split; [reflexivity|]. split; [lia|]. split; [lia|]. intros _.
    split; [lia|]. split; [lia|]. split.
    + intros HL. exists bk. split; auto. assert (s_range < K) by lia.
      assert (b_S bk <> 0).
      { intros E0. rewrite E0 in EK. change (0 - 1) with (- (1)) in EK. rewrite Z.quot_opp_l in EK by lia.
        pose proof (Z.quot_pos 1 (b_T bk) ltac:(lia) ltac:(lia)). lia. }
      pose proof (Z.quot_rem' (b_S bk - 1) (b_T bk)). pose proof (Z.rem_bound_pos (b_S bk - 1) (b_T bk) ltac:(lia) ltac:(lia)).
      assert (r2 - 2 <= (b_S bk - 1) ÷ b_T bk) by lia. nia.
    + intros b Hb. specialize (QB b Hb). destruct (HF b Hb) as (G1 & G2 & _).
      destruct (Z_le_gt_dec K (S + 1)); [nia|]. replace r2 with (S + 1) by lia. nia.
Qed.

(** C43.  Whatever the gradients are and however argmax breaks ties (or treats
    NaN), for every utterance with end_symbol Sb and end_frame Tb:
    - the kept positions of the frames are windows of r consecutive symbol
      positions in [0, S], starting at 0, never moving back and moving by less
      than r (regular) or by at most 1 (modified) per frame;
    - the last position Sb is kept on the last frame;
    - at least one complete alignment uses kept positions only.
    r is the requested s_range, capped at S + 1 and (regular) raised only when
    some utterance has more symbols than (r-1) per frame could emit. *)
Theorem C43_prune_ranges : forall (G : Type) (gzero : G) gadd gsub argmax,
  (forall l, l <> [] -> 0 <= argmax l < zlen l) ->
  forall B S T1 T px_grad py_grad boundary s_range,
  ranges_input B S T1 T s_range boundary ->
  shape3 B S T1 px_grad = true -> shape3 B (S + 1) T py_grad = true ->
  exists ranges r,
    get_rnnt_prune_ranges gzero gadd gsub argmax B S T1 T px_grad py_grad boundary s_range = Some ranges /\
    zlen ranges = B /\ 1 <= r <= S + 1 /\
    (T1 = T -> r = Z.min s_range (S + 1)) /\
    (T1 = T + 1 -> Z.min s_range (S + 1) <= r /\
       (Z.min s_range (S + 1) < r -> exists b, In b boundary /\ (r - 2) * b_T b < b_S b)) /\
    forall b rg sb tb Sb Tb, rd ranges b = Some rg -> rd boundary b = Some (sb, tb, Sb, Tb) ->
      windows S T r (if T1 =? T then 1 else r - 1) rg /\
      (T1 = T + 1 -> kept rg Sb (Tb - 1) /\ aligns Regular (kept rg) 0 0 Sb Tb) /\
      (T1 = T -> (2 <= r \/ Sb < Tb -> kept rg Sb (Tb - 1)) /\ aligns Modified (kept rg) 0 0 Sb Tb /\
                 (2 <= r -> aligns Constrained (kept rg) 0 0 Sb Tb)).
Proof.
  intros G gzero gadd gsub argmax AM B S T1 T px_grad py_grad boundary s_range HI HX HY.
  destruct (effective_range_ok _ _ _ _ _ _ HI) as (r & ER & R1 & R2 & R3).
  destruct HI as (HS & HB & Hr & HT & HF). rewrite Forall_forall in HF.
  destruct (shape3_ok _ _ _ _ HX) as (X1 & X2). destruct (shape3_ok _ _ _ _ HY) as (Y1 & Y2).
  pose proof (zlen_nonneg boundary) as HB0. rewrite HB in HB0.
  unfold get_rnnt_prune_ranges. cbv zeta.
  replace ((T1 =? T) || (T1 =? T + 1)) with true by lia. rewrite HX, HY. cbn [andb]. rewrite HB, Z.eqb_refl.
  assert (EV : validate_st_lengths S T (negb (T1 =? T)) (Some boundary) = Some tt).
  { unfold validate_st_lengths. replace (0 <=? S) with true by lia.
    replace (negb (T1 =? T) || forallb (fun b => b_S b <=? b_T b) boundary) with true; [reflexivity|].
    symmetry. destruct (T1 =? T) eqn:E; [|reflexivity]. cbn [negb orb]. apply forallb_forall. intros b Hb.
    destruct (HF b Hb) as (_ & _ & H). specialize (H ltac:(lia)). lia. }
  rewrite EV, ER.
  set (st := if T1 =? T then 2 else r).
  set (F := fun b => px <- rd px_grad b;; py <- rd py_grad b;; bd <- rd boundary b;;
    row <- s_begin_row gzero gadd gsub argmax S T r px py bd;;
    Some (map (fun s => map (fun j => s + j) (zrange r)) (adjust_pruning_lower_bound st row))).
  assert (FB : forall b, 0 <= b < B -> exists px py bd row, rd px_grad b = Some px /\ rd py_grad b = Some py /\ rd boundary b = Some bd /\
     s_begin_row gzero gadd gsub argmax S T r px py bd = Some row /\ zlen row = T /\
    (forall t v, rd row t = Some v -> 0 <= v <= S - r + 1) /\
    (forall t v, b_T bd - 1 <= t -> rd row t = Some v -> v = Z.max 0 (b_S bd - r + 1))).
  { intros b Hb. destruct (rd_in_bound px_grad b) as (px & Hpx); [lia|]. destruct (rd_in_bound py_grad b) as (py & Hpy); [lia|].
    destruct (rd_in_bound boundary b) as (bd & Hbd); [lia|]. destruct (HF bd (rd_In _ _ _ Hbd)) as (F1 & F2 & F3).
    destruct (s_begin_row_ok gzero gadd gsub argmax AM S T T1 r px py bd) as (row & W1 & W2 & W3 & W4); auto; [lia|eapply X2; eauto|eapply Y2; eauto|].
    exists px, py, bd, row. auto 10. }
  destruct (tabM_all B F) as (ranges & ET & EL & EP); [lia| |].
  { intros b Hb. destruct (FB b Hb) as (px & py & bd & row & E1 & E2 & E3 & E4 & _). unfold F. rewrite E1, E2, E3, E4. eexists. reflexivity. }
  exists ranges, r. split; [exact ET|]. split; [exact EL|]. split; [exact R1|]. split; [exact R2|].
  split; [intros H; destruct (R3 H) as (_ & A1 & A2 & _); auto|].
  intros b rg sb tb Sb Tb Hrg Hbd. pose proof (rd_Some_bound _ _ _ Hrg) as Bb. rewrite EL in Bb.
  destruct (FB b Bb) as (px & py & bd & row & E1 & E2 & E3 & E4 & L & W1 & W2). rewrite Hbd in E3. injection E3 as <-.
  apply EP in Hrg. unfold F in Hrg. rewrite E1, E2, Hbd, E4 in Hrg. injection Hrg as <-.
  destruct (HF _ (rd_In _ _ _ Hbd)) as (F1 & F2 & F3). change (b_S (sb, tb, Sb, Tb)) with Sb in *. change (b_T (sb, tb, Sb, Tb)) with Tb in *.
  assert (ST : 1 <= st) by (unfold st; destruct (T1 =? T); lia).
  set (a := adjust_pruning_lower_bound st row).
  assert (LA : zlen a = T) by (unfold a; now rewrite zlen_a).
  set (w := fun t => match rd a t with Some v => v | None => 0 end).
  assert (WA : forall t, 0 <= t < T -> rd a t = Some (w t)).
  { intros t Ht. unfold w. destruct (rd_in_bound a t) as (v & ->); [lia|reflexivity]. }
  assert (WR : forall t, 0 <= t < T -> 0 <= w t /\ w t + r - 1 <= S).
  { intros t Ht. pose proof (WA t Ht) as Hw. split; [apply (a_nonneg st (S - r + 1) row ST W1 t); exact Hw|].
    pose proof (a_upper st (S - r + 1) row ST W1 t _ Hw). lia. }
  assert (W0 : w 0 = 0).
  { pose proof (WA 0 ltac:(lia)) as Hw. unfold a in Hw. rewrite (a_first st (S - r + 1) row W1) in Hw by lia. now injection Hw. }
  assert (WS : forall t, 0 <= t -> t + 1 < T -> w t <= w (t + 1) <= w t + (st - 1)).
  { intros t H1 H2. apply (a_step st (S - r + 1) row ST W1 t); auto; apply WA; lia. }
  assert (WE : w (Tb - 1) = Z.min ((st - 1) * (Tb - 1)) (Z.max 0 (Sb - r + 1))).
  { pose proof (WA (Tb - 1) ltac:(lia)) as Hw. unfold a in Hw.
    rewrite (a_const st (S - r + 1) row ST W1 (Tb - 1) _ ltac:(lia) W2) in Hw. now injection Hw. }
  set (rg := map _ a).
  assert (RG : forall t, 0 <= t < T -> rd rg t = Some (map (fun j => w t + j) (zrange r))).
  { intros t Ht. unfold rg. rewrite rd_map, (WA t Ht). reflexivity. }
  assert (OK : forall s t, 0 <= t < T -> w t <= s <= w t + r - 1 -> kept rg s t).
  { intros s t Ht Hs. eexists. split; [apply RG; auto|]. apply in_map_iff. exists (s - w t). split; [lia|]. apply in_zrange. lia. }
  assert (OKb : forall s t, 0 <= t < Tb -> w t <= s <= w t + r - 1 -> kept rg s t) by (intros; apply OK; auto; lia).
  split.
  { exists w. split; [unfold rg; rewrite zlen_map; exact LA|]. split; [exact RG|]. split; [exact WR|]. split; [exact W0|].
    intros t H1 H2. pose proof (WS t H1 H2) as H. unfold st in H. destruct (T1 =? T); lia. }
  split.
  - intros HTT. destruct (R3 HTT) as (A0 & _ & _ & A3). pose proof (A3 _ (rd_In _ _ _ Hbd)) as A4.
    change (b_S (sb, tb, Sb, Tb)) with Sb in A4. change (b_T (sb, tb, Sb, Tb)) with Tb in A4.
    assert (ES : st = r) by (unfold st; replace (T1 =? T) with false by lia; reflexivity). rewrite ES in *.
    assert (WE' : w (Tb - 1) = Z.max 0 (Sb - r + 1)) by nia.
    split; [apply OK; lia|]. apply (regular_survives w r Sb Tb); try assumption; try lia.
  - intros HTT. assert (ES : st = 2) by (unfold st; replace (T1 =? T) with true by lia; reflexivity). rewrite ES in *.
    specialize (F3 HTT). change (b_S (sb, tb, Sb, Tb)) with Sb in F3. change (b_T (sb, tb, Sb, Tb)) with Tb in F3.
    split; [intros H; apply OK; lia|].
    split.
    + apply (modified_survives w r Sb Tb); try assumption; try lia. left; split; [reflexivity|lia].
    + intros H2r. apply (modified_survives w r Sb Tb); try assumption; try lia. right; split; [reflexivity|lia].
Qed.
Print Assumptions C43_prune_ranges.

(** Non-trivial instance: integers as gradients, first maximum; two utterances
    of different lengths, S = 4, T = 3, s_range raised from 2 to 3. *)
Definition zargmax (l : list Z) : Z :=
  match l with [] => 0 | x :: l' =>
    snd (fold_left (fun acc v => match acc with (i, m, b) => if m <? v then (i + 1, v, i) else (i + 1, m, b) end) l' (1, x, 0))
  end.
Lemma zargmax_range l : l <> [] -> 0 <= zargmax l < zlen l.
Proof.
  destruct l as [|x l]; [congruence|]. intros _. unfold zargmax. rewrite zlen_cons.
  assert (G : forall l i m b, 0 <= b < i ->
     0 <= snd (fold_left (fun acc v => match acc with (i, m, b) => if m <? v then (i + 1, v, i) else (i + 1, m, b) end) l (i, m, b)) < i + zlen l).
  { clear. induction l as [|v l IH]; intros i m b H; cbn [fold_left snd].
    - change (zlen (@nil Z)) with 0. lia.
    - rewrite zlen_cons. destruct (m <? v); [pose proof (IH (i + 1) v i)|pose proof (IH (i + 1) m b)]; lia. }
  pose proof (G l 1 x 0). lia.
Qed.

Definition ex_px : list (list (list Z)) :=
  [[[5;1;0;0];[0;7;1;0];[0;0;2;0];[0;0;9;0]]; [[1;0;0;0];[0;1;0;0];[0;0;0;0];[0;0;0;0]]].
Definition ex_py : list (list (list Z)) :=
  [[[1;0;0];[4;0;0];[0;1;0];[0;0;3];[0;0;9]]; [[1;0;0];[0;1;0];[0;0;0];[0;0;0];[0;0;0]]].
Definition ex_bd : list (Z * Z * Z * Z) := [(0, 0, 4, 3); (0, 0, 2, 2)].

Example C43_ex : ranges_input 2 4 4 3 2 ex_bd /\ shape3 2 4 4 ex_px = true /\ shape3 2 5 3 ex_py = true /\
  get_rnnt_prune_ranges 0 Z.add Z.sub zargmax 2 4 4 3 ex_px ex_py ex_bd 2 =
  Some [[[0;1;2];[0;1;2];[2;3;4]]; [[0;1;2];[0;1;2];[0;1;2]]].
Proof.
  split; [|split; [reflexivity|split; [reflexivity|vm_compute; reflexivity]]].
  unfold ranges_input. split; [lia|]. split; [reflexivity|]. split; [lia|]. split; [right; lia|].
  constructor; [|constructor; [|constructor]]; cbn; lia.
Qed.

(** The requirement 1 <= S for the regular topology cannot be dropped: a batch
    whose transcripts are all empty is rejected (the window is first cut to one
    position and then required to have two). *)
Theorem C43_empty_transcripts_refuted : forall (G : Type) (gzero : G) gadd gsub argmax B T px_grad py_grad boundary s_range,
  get_rnnt_prune_ranges gzero gadd gsub argmax B 0 (T + 1) T px_grad py_grad boundary s_range = None.
Proof.
  intros. unfold get_rnnt_prune_ranges. cbv zeta. replace (T + 1 =? T) with false by lia. cbn [negb orb].
  destruct (T + 1 =? T + 1); [|reflexivity]. destruct (shape3 _ _ _ _ && _); [|reflexivity]. destruct (zlen boundary =? B); [|reflexivity].
  destruct (validate_st_lengths 0 T true (Some boundary)); [|reflexivity]. unfold effective_range.
  match goal with |- context [mapM ?f boundary] => destruct (mapM f boundary) as [l|] end; [|reflexivity].
  destruct (tmax l) as [k|]; [|reflexivity].
  set (r1 := if s_range <? k then k else s_range). destruct (0 <? r1) eqn:E; [reflexivity|].
  replace (2 <=? r1) with false by lia. reflexivity.
Qed.
Print Assumptions C43_empty_transcripts_refuted.

(** In the constrained topology s_range = 1 is accepted, but no alignment that
    emits a symbol survives. *)
Theorem C43_constrained_range_one_refuted :
  ranges_input 1 1 2 2 1 [(0, 0, 1, 2)] /\
  exists rg, get_rnnt_prune_ranges 0 Z.add Z.sub zargmax 1 1 2 2 [[[3; 0]]] [[[0; 0]; [0; 3]]] [(0, 0, 1, 2)] 1 = Some [rg] /\
    ~ aligns Constrained (kept rg) 0 0 1 2.
Proof.
  split.
  { unfold ranges_input. split; [lia|]. split; [reflexivity|]. split; [lia|]. split; [left; lia|].
    constructor; [|constructor]; cbn; lia. }
  exists [[0]; [1]]. split; [vm_compute; reflexivity|]. intros H.
  assert (K : forall s t, kept [[0]; [1]] s t -> s = t).
  { intros s t (row & Hr & Hs). pose proof (rd_Some_bound _ _ _ Hr) as B. change (zlen [[0]; [1]]) with 2 in B.
    assert (t = 0 \/ t = 1) as [-> | ->] by lia; injection Hr as <-; destruct Hs as [<-|[]]; reflexivity. }
  assert (Gm : forall s t s' t', aligns Constrained (kept [[0]; [1]]) s t s' t' -> s = 0 -> s' = 1 -> False).
  { intros s t s' t' HA. induction HA as [s t|s t s' t' H1 HA IH|s t s' t' E H1 HA IH|s t s' t' E H1 HA IH|s t s' t' E H1 H2 HA IH]; intros E0 E1; try congruence; try (apply IH; assumption); try lia.
    apply K in H1. apply K in H2. lia. }
  eapply Gm; eauto.
Qed.
Print Assumptions C43_constrained_range_one_refuted.
