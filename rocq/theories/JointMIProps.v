(** * C74: joint_mutual_information_recursion splits the total log-probability into terms *)
From Coq Require Import ZArith List Lia Bool Reals Lra.
From Coq Require Import ZifyBool.
From Verif Require Import Base OpsModel RnntModel RnntSpec RnntProofs RnntPrunedProps LogReal MutualInfoModel MutualInfoSpec MutualInfoProofs MutualInfoProps JointMIModel JointMISpec JointMIProofs.
Import ListNotations.
Open Scope Z_scope.

Lemma rd3_rd2 {A} (x : list (list (list A))) b xb s t : rd x b = Some xb -> rd3 x b s t = rd2 xb s t.
Proof. unfold rd3. now intros ->. Qed.
Definition at3 (x : list (list (list (option R)))) (b : Z) : list (list (option R)) := match rd x b with Some y => y | None => [] end.
Lemma slices_ok px py b : (forall x, In x px -> exists y, rd x b = Some y) -> (forall x, In x py -> exists y, rd x b = Some y) ->
  slices px py b = Some (combine (map (fun x => at3 x b) px) (map (fun x => at3 x b) py)).
Proof.
  intros H1 H2. unfold slices.
  rewrite (mapM_Some_map (fun x => rd x b) (fun x => at3 x b) px) by (intros x Hx; unfold at3; destruct (H1 x Hx) as (y & ->); reflexivity).
  rewrite (mapM_Some_map (fun x => rd x b) (fun x => at3 x b) py) by (intros x Hx; unfold at3; destruct (H2 x Hx) as (y & ->); reflexivity).
  reflexivity.
Qed.
Lemma sum_terms_ok B n m terms : Forall (fun x => shape3 B n m x = true) terms ->
  sum_terms B n m terms = Some (tab B (fun b => summed n m (map (fun x => at3 x b) terms))).
Proof.
  intros HF. unfold sum_terms, summed. apply tabM_fun. intros b Hb. apply tabM2_fun. intros s t Hs Ht.
  rewrite (mapM_Some_map (fun x => rd3 x b s t) (fun x => entry (at3 x b) (s, t))); [rewrite map_map; reflexivity|].
  intros x Hx. rewrite Forall_forall in HF. destruct (shape3_ok _ _ _ _ (HF x Hx)) as (L & K).
  destruct (rd_in_bound x b) as (y & Hy); [lia|]. unfold at3. rewrite Hy. rewrite (rd3_rd2 _ _ _ _ _ Hy).
  destruct (shape2_ok _ _ _ (K b y Hy)) as (_ & J). destruct (J s t Hs Ht) as (v & Hv). unfold entry. cbn [fst snd]. now rewrite Hv.
Qed.
Lemma shape3_tab {A} B n m (g : Z -> Z -> Z -> A) : 0 <= B -> 0 <= n -> 0 <= m -> shape3 B n m (tab B (fun b => tab n (fun s => tab m (g b s)))) = true.
Proof.
  intros HB Hn Hm. unfold shape3. rewrite zlen_tab, Z.eqb_refl by auto. cbn [andb]. apply forallb_forall. intros x Hx.
  apply in_map_iff in Hx as (i & <- & _). apply shape2_tab; auto.
Qed.
Lemma grads_ans B S T1 T px py boundary res b ans g :
  mutual_information_grads lzero lninf ladd (logadd None) lderiv B S T1 T px py boundary = Some res -> rd res b = Some (ans, g) ->
  exists fw p, mutual_information_recursion lzero lninf ladd (logadd None) B S T1 T px py boundary = Some fw /\ rd fw b = Some (ans, p).
Proof.
  unfold mutual_information_grads. destruct (mutual_information_recursion lzero lninf ladd (logadd None) B S T1 T px py boundary) as [fw|]; [|discriminate].
  intros H Hb. unfold tabM in H. destruct (mapM_rd _ _ _ _ _ H Hb) as (i & Hi & E). assert (i = b) as ->.
  { pose proof (rd_Some_bound _ _ _ Hi) as Q1. destruct (Z_le_gt_dec 0 B).
    - rewrite zlen_zrange in Q1 by auto. rewrite rd_zrange in Hi by lia. congruence.
    - exfalso. apply rd_In in Hi. apply in_zrange in Hi. lia. }
  cbv beta in E. destruct (rd px b) as [x|]; [|discriminate]. destruct (rd fw b) as [[a p]|] eqn:Ef; [|discriminate].
  match type of E with context [match ?q with Some _ => _ | None => None end] => destruct q as [bd|]; [|discriminate] end.
  match type of E with context [match ?q with Some _ => _ | None => None end] => destruct q as [gg|]; [|discriminate] end.
  injection E as <- <-. eauto.
Qed.
Lemma inner_ok n m lo g x : (forall s t, 0 <= s < n -> 0 <= t < m -> exists v, g s t = Some v) -> shape2 n m x = true ->
  inner_product n m lo g x = Some (grid n m (fun s t => cell g s t * clamp_min lo (entry x (s, t))))%R.
Proof.
  intros Hg Hx. unfold inner_product. destruct (shape2_ok _ _ _ Hx) as (_ & J).
  rewrite (tabM2_fun n m _ (fun s t => cell g s t * clamp_min lo (entry x (s, t)))%R).
  - f_equal. unfold grid, tab. rewrite sumf_map. apply sumf_ext. intros s _. rewrite sumf_map. reflexivity.
  - intros s t Hs Ht. unfold mget, inb. destruct (Hg s t Hs Ht) as (v & Hv). destruct (J s t Hs Ht) as (w & Hw).
    replace ((0 <=? s) && (s <? n) && (0 <=? t) && (t <? m)) with true by lia. unfold cell, entry. cbn [fst snd]. now rewrite Hv, Hw.
Qed.

(** The values returned for an utterance sum to the log of the total probability of the
    paths, the probability of a path being the product of those of all terms; and each
    of them, except the first, is the mean over the paths of the score of its term. *)
Theorem C74_joint : forall lo B S T1 T px py boundary,
  0 <= B -> 0 <= S -> 0 <= T -> T1 = T \/ T1 = T + 1 -> px <> [] -> zlen py = zlen px ->
  Forall (fun x => shape3 B S T1 x = true) px -> Forall (fun y => shape3 B (S + 1) T y = true) py -> bounds_ok B S T boundary ->
  (forall b terms sb tb se te L, slices px py b = Some terms -> bounds S T boundary b = Some (sb, tb, se, te) ->
     all_paths (T1 =? T) (sb, tb) (se, te) L -> (0 < joint_total (T1 =? T) terms (sb, tb) L)%R) ->
  exists res, joint_mutual_information_recursion lo B S T1 T px py boundary = Some res /\ zlen res = zlen px /\
    forall b terms sb tb se te, slices px py b = Some terms -> bounds S T boundary b = Some (sb, tb, se, te) ->
      exists vs : list R, zlen vs = zlen px /\ (forall n v, rd vs n = Some v -> rd2 res n b = Some (Some v)) /\
        forall L, all_paths (T1 =? T) (sb, tb) (se, te) L ->
          exp (sumf (fun v => v) vs) = joint_total (T1 =? T) terms (sb, tb) L /\
          forall n v xy, n <> 0 -> rd vs n = Some v -> rd terms n = Some xy -> v = mean_score (T1 =? T) lo terms xy (sb, tb) L.
Proof.
  intros lo B S T1 T px py boundary HB HS HT HT1 Hne HL FX FY BO POS.
  assert (HT0 : 0 <= T1) by lia.
  set (PX := tab B (fun b => summed S T1 (map (fun x => at3 x b) px))).
  set (PY := tab B (fun b => summed (S + 1) T (map (fun x => at3 x b) py))).
  assert (SX : shape3 B S T1 PX = true) by (apply shape3_tab; auto).
  assert (SY : shape3 B (S + 1) T PY = true) by (apply shape3_tab; lia).
  assert (RX : forall x b, In x px -> 0 <= b < B -> rd x b = Some (at3 x b) /\ shape2 S T1 (at3 x b) = true).
  { intros x b Hx Hb. rewrite Forall_forall in FX. destruct (shape3_ok _ _ _ _ (FX x Hx)) as (L1 & K). destruct (rd_in_bound x b) as (y & Hy); [lia|].
    unfold at3. rewrite Hy. split; [reflexivity|eauto]. }
  assert (RY : forall x b, In x py -> 0 <= b < B -> rd x b = Some (at3 x b) /\ shape2 (S + 1) T (at3 x b) = true).
  { intros x b Hx Hb. rewrite Forall_forall in FY. destruct (shape3_ok _ _ _ _ (FY x Hx)) as (L1 & K). destruct (rd_in_bound x b) as (y & Hy); [lia|].
    unfold at3. rewrite Hy. split; [reflexivity|eauto]. }
  set (TM := fun b => combine (map (fun x => at3 x b) px) (map (fun x => at3 x b) py)).
  assert (SL : forall b, 0 <= b < B -> slices px py b = Some (TM b)).
  { intros b Hb. apply slices_ok; intros x Hx; [destruct (RX x b Hx Hb)|destruct (RY x b Hx Hb)]; eauto. }
  assert (BX : forall b terms, slices px py b = Some terms -> 0 <= b < B).
  { intros b terms H. destruct px as [|x px]; [congruence|]. unfold slices in H. cbn [mapM] in H. destruct (rd x b) as [y|] eqn:E; [|discriminate].
    apply rd_Some_bound in E. inversion FX; subst. destruct (shape3_ok _ _ _ _ H2) as (L1 & _). lia. }
  assert (WT : forall b c l, 0 <= b < B -> expo (weight (T1 =? T) (summed S T1 (map (fun x => at3 x b) px)) (summed (S + 1) T (map (fun x => at3 x b) py)) c l) = joint_prob (T1 =? T) (TM b) c l).
  { intros b c l Hb. unfold TM. apply weight_summed; auto; try lia.
    - destruct px; [congruence|discriminate].
    - rewrite !map_length. unfold zlen in HL. lia.
    - apply Forall_forall. intros y Hy. apply in_map_iff in Hy as (x & <- & Hx). now apply RX.
    - apply Forall_forall. intros y Hy. apply in_map_iff in Hy as (x & <- & Hx). now apply RY. }
  assert (TT : forall b c L, 0 <= b < B -> total (T1 =? T) (summed S T1 (map (fun x => at3 x b) px)) (summed (S + 1) T (map (fun x => at3 x b) py)) c L = joint_total (T1 =? T) (TM b) c L).
  { intros b c L Hb. unfold total, joint_total. apply sumf_ext. intros l _. now apply WT. }
  assert (PXb : forall b x, rd PX b = Some x -> 0 <= b < B /\ x = summed S T1 (map (fun x => at3 x b) px)).
  { intros b x H. pose proof (rd_Some_bound _ _ _ H) as Q1. unfold PX in Q1. rewrite zlen_tab in Q1 by auto. unfold PX in H. rewrite rd_tab in H by auto. split; [auto|congruence]. }
  assert (PYb : forall b x, rd PY b = Some x -> x = summed (S + 1) T (map (fun x => at3 x b) py)).
  { intros b x H. pose proof (rd_Some_bound _ _ _ H) as Q1. unfold PY in Q1. rewrite zlen_tab in Q1 by auto. unfold PY in H. rewrite rd_tab in H by auto. congruence. }
  destruct (C46_gradients B S T1 T PX PY boundary) as (gr & EG & LG & PG); auto.
  { intros b x y sb tb se te Hx Hy Hbd L HLp. destruct (PXb b x Hx) as (Hb & ->). rewrite (PYb b y Hy). rewrite TT by auto. eapply POS; eauto. }
  destruct (C45_mutual_information B S T1 T PX PY boundary) as (fw & EF & LF & PF); auto.
  assert (BD : forall b, 0 <= b < B -> exists sb tb se te, bounds S T boundary b = Some (sb, tb, se, te) /\ 0 <= sb <= se /\ se <= S /\ 0 <= tb <= te /\ te <= T).
  { intros b Hb. unfold bounds_ok in BO. unfold bounds. destruct boundary as [bs|].
    - destruct BO as (L1 & K). destruct (rd_in_bound bs b) as ([[[sb tb] se] te] & E); [lia|]. exists sb, tb, se, te. split; [exact E|]. eapply K. eapply rd_In. exact E.
    - exists 0, 0, S, T. split; [reflexivity|lia]. }
  assert (GR : forall b, 0 <= b < B -> exists a g, rd gr b = Some (Some a, g) /\
     forall sb tb se te, bounds S T boundary b = Some (sb, tb, se, te) -> forall L, all_paths (T1 =? T) (sb, tb) (se, te) L ->
       exp a = joint_total (T1 =? T) (TM b) (sb, tb) L /\
       (forall s t, 0 <= s < S -> 0 <= t < T1 -> g_px g s t = Some (posterior (T1 =? T) (summed S T1 (map (fun x => at3 x b) px)) (summed (S + 1) T (map (fun x => at3 x b) py)) (sb, tb) L (s, t) true)) /\
       (forall s t, 0 <= s < S + 1 -> 0 <= t < T -> g_py g s t = Some (posterior (T1 =? T) (summed S T1 (map (fun x => at3 x b) px)) (summed (S + 1) T (map (fun x => at3 x b) py)) (sb, tb) L (s, t) false))).
  { intros b Hb. destruct (BD b Hb) as (sb & tb & se & te & Eb & RB).
    assert (HX : rd PX b = Some (summed S T1 (map (fun x => at3 x b) px))) by (unfold PX; now rewrite rd_tab).
    assert (HY : rd PY b = Some (summed (S + 1) T (map (fun x => at3 x b) py))) by (unfold PY; now rewrite rd_tab).
    destruct (PG b _ _ _ _ _ _ HX HY Eb) as (ans & g & Eg & Kg). destruct (PF b _ _ _ _ _ _ HX HY Eb) as (ans2 & p & Ep & Kp & _).
    destruct (grads_ans _ _ _ _ _ _ _ _ _ _ _ EG Eg) as (fw' & p' & EF' & Ep'). rewrite EF in EF'. injection EF' as <-. rewrite Ep in Ep'. injection Ep' as <- <-.
    destruct (C45_paths_enumerable (T1 =? T) (sb, tb) (se, te)) as (L0 & HL0).
    destruct (expo_pos_Some ans2) as (a & ->). { rewrite (Kp L0 HL0), TT by auto. eapply POS; eauto. }
    exists a, g. split; [exact Eg|]. intros sb' tb' se' te' Eb' L HLp. rewrite Eb in Eb'. injection Eb' as <- <- <- <-.
    split; [specialize (Kp L HLp); cbn [expo] in Kp; rewrite Kp; now apply TT|]. destruct (Kg L HLp) as (G1 & G2 & _). split; [exact G1|]. intros s t H1 H2. apply G2; lia. }
  set (N := zlen px). assert (HN : 0 < N) by (unfold N; destruct px; [congruence|rewrite zlen_cons; pose proof (zlen_nonneg px); lia]).
  set (G := fun b => match rd gr b with Some g => snd g | None => mkG (fun _ _ => None) (fun _ _ => None) (fun _ _ => None) end).
  set (A := fun b => match rd gr b with Some (Some a, _) => a | _ => 0%R end).
  set (sx := fun (p : list (list (list (list (option R))))) n b => match rd2 p n b with Some x => x | None => [] end).
  set (P := fun n b => (grid S T1 (fun s t => cell (g_px (G b)) s t * clamp_min lo (entry (sx px n b) (s, t))) +
                        grid (S + 1) T (fun s t => cell (g_py (G b)) s t * clamp_min lo (entry (sx py n b) (s, t))))%R).
  assert (NX : forall n b, 0 <= n < N -> 0 <= b < B -> exists x, rd px n = Some x /\ rd2 px n b = Some (at3 x b) /\ sx px n b = at3 x b /\ shape2 S T1 (at3 x b) = true).
  { intros n b Hn Hb. destruct (rd_in_bound px n) as (x & Hx); [exact Hn|]. destruct (RX x b) as (K1 & K2); [eapply rd_In; eauto|auto|].
    exists x. assert (E : rd2 px n b = Some (at3 x b)) by (unfold rd2; rewrite Hx; exact K1). unfold sx. rewrite E. auto. }
  assert (NY : forall n b, 0 <= n < N -> 0 <= b < B -> exists x, rd py n = Some x /\ rd2 py n b = Some (at3 x b) /\ sx py n b = at3 x b /\ shape2 (S + 1) T (at3 x b) = true).
  { intros n b Hn Hb. destruct (rd_in_bound py n) as (x & Hx); [lia|]. destruct (RY x b) as (K1 & K2); [eapply rd_In; eauto|auto|].
    exists x. assert (E : rd2 py n b = Some (at3 x b)) by (unfold rd2; rewrite Hx; exact K1). unfold sx. rewrite E. auto. }
  set (V := fun n b => if n =? 0 then (P n b + (A b + - sumf (fun v => v) (tab N (fun k => P k b))))%R else P n b).
  exists (tab N (fun n => tab B (fun b => Some (V n b)))). split; [|split].
  - unfold joint_mutual_information_recursion. fold N.
    replace ((zlen py =? N) && (0 <? N)) with true by lia. replace ((T1 =? T) || (T1 =? T + 1)) with true by lia.
    assert (C1 : forallb (shape3 B S T1) px = true) by (apply forallb_forall; rewrite Forall_forall in FX; exact FX).
    assert (C2 : forallb (shape3 B (S + 1) T) py = true) by (apply forallb_forall; rewrite Forall_forall in FY; exact FY).
    rewrite C1, C2. cbn [andb]. rewrite !sum_terms_ok by auto. fold PX. fold PY. rewrite EG.
    rewrite (tabM2_fun N B _ P).
    2:{ intros n b Hn Hb. destruct (NX n b Hn Hb) as (x & _ & -> & E1 & S1). destruct (NY n b Hn Hb) as (y & _ & -> & E2 & S2).
        destruct (GR b Hb) as (a & g & Eg & Kg). destruct (BD b Hb) as (sb & tb & se & te & Eb & _).
        destruct (C45_paths_enumerable (T1 =? T) (sb, tb) (se, te)) as (L0 & HL0). destruct (Kg _ _ _ _ Eb L0 HL0) as (_ & G1 & G2).
        unfold P, G. rewrite Eg, E1, E2. cbn [snd]. rewrite !inner_ok by (auto; intros s t Hs Ht; eauto). reflexivity. }
    rewrite (tabM_fun B _ (fun b => Some (A b + - sumf (fun v => v) (tab N (fun k => P k b)))%R)).
    2:{ intros b Hb. destruct (GR b Hb) as (a & g & Eg & _). unfold A. rewrite Eg.
        rewrite (tabM_fun N _ (fun k => P k b)) by (intros k Hk; now rewrite rd2_tab). reflexivity. }
    apply tabM2_fun. intros n b Hn Hb. rewrite rd2_tab by auto. unfold V. destruct (n =? 0); [|reflexivity]. rewrite rd_tab by auto. reflexivity.
  - apply zlen_tab. lia.
  - intros b terms sb tb se te Hs Eb. pose proof (BX b terms Hs) as Hb. rewrite (SL b Hb) in Hs. injection Hs as <-.
    exists (tab N (fun n => V n b)). split; [apply zlen_tab; lia|]. split.
    { intros n v Hv. pose proof (rd_Some_bound _ _ _ Hv) as Q1. rewrite zlen_tab in Q1 by lia. rewrite rd_tab in Hv by auto. rewrite rd2_tab by auto. congruence. }
    intros L HLp. destruct (GR b Hb) as (a & g & Eg & Kg). destruct (Kg _ _ _ _ Eb L HLp) as (K1 & G1 & G2). split.
    + rewrite <- K1. f_equal. unfold tab. rewrite sumf_map.
      rewrite (sumf_ext _ (fun n => P n b + (if n =? 0 then A b + - sumf (fun v => v) (tab N (fun k => P k b)) else 0))%R) by (intros n _; unfold V; destruct (n =? 0); lra).
      rewrite sumf_plus, sumf_delta by (try apply NoDup_zrange; apply in_zrange; lia). unfold tab. rewrite sumf_map. unfold A. rewrite Eg. lra.
    + intros n v xy Hn0 Hv Hxy. pose proof (rd_Some_bound _ _ _ Hv) as Q1. rewrite zlen_tab in Q1 by lia. rewrite rd_tab in Hv by auto. injection Hv as <-.
      unfold V. replace (n =? 0) with false by lia.
      destruct (NX n b Q1 Hb) as (x & X1 & _ & E1 & _). destruct (NY n b Q1 Hb) as (y & Y1 & _ & E2 & _).
      assert (xy = (at3 x b, at3 y b)) as ->.
      { unfold TM in Hxy. clear - Hxy X1 Y1. revert n py X1 Y1 Hxy. induction px as [|x0 px IH]; intros n py X1 Y1 Hxy; [now rewrite rd_nil in X1|].
        destruct py as [|y0 py]; [now rewrite rd_nil in Y1|]. cbn [map combine] in Hxy. destruct (Z.eq_dec n 0) as [->|Hn].
        - change (Some x0 = Some x) in X1. change (Some y0 = Some y) in Y1. change (Some (at3 x0 b, at3 y0 b) = Some xy) in Hxy. congruence.
        - pose proof (rd_Some_bound _ _ _ X1). rewrite RnntProofs.rd_cons_pos in X1 by lia. rewrite RnntProofs.rd_cons_pos in Y1 by lia.
          change (rd ((at3 x0 b, at3 y0 b) :: combine (map (fun x => at3 x b) px) (map (fun x => at3 x b) py)) n = Some xy) in Hxy.
          rewrite RnntProofs.rd_cons_pos in Hxy by lia. eauto. }
      unfold P, mean_score. rewrite E1, E2. unfold G. rewrite Eg. cbn [snd].
      assert (M1 : T1 = if T1 =? T then T else T + 1) by (destruct (T1 =? T) eqn:E; lia).
      destruct (BD b Hb) as (sb' & tb' & se' & te' & Eb' & RB). rewrite Eb in Eb'. injection Eb' as <- <- <- <-.
      pose proof (mean_ok S T (T1 =? T) (fun a s t => clamp_min lo (edge (at3 x b) (at3 y b) (s, t) a))
        (summed S T1 (map (fun x => at3 x b) px)) (summed (S + 1) T (map (fun x => at3 x b) py)) (sb, tb) (se, te) L (joint_total (T1 =? T) (TM b) (sb, tb) L)) as MO.
      cbn [fst snd] in MO. specialize (MO ltac:(lia) ltac:(lia) ltac:(lia) ltac:(lia) HLp). rewrite <- M1 in MO.
      rewrite (sumf_ext (fun l => joint_prob (T1 =? T) (TM b) (sb, tb) l * score (T1 =? T) lo (at3 x b, at3 y b) (sb, tb) l)%R
        (fun l => expo (weight (T1 =? T) (summed S T1 (map (fun x => at3 x b) px)) (summed (S + 1) T (map (fun x => at3 x b) py)) (sb, tb) l) *
          along (T1 =? T) (fun a s t => clamp_min lo (edge (at3 x b) (at3 y b) (s, t) a)) (sb, tb) l)%R) by (intros l _; now rewrite WT, along_score).
      rewrite <- MO. f_equal; apply grid_ext; intros s t Hs Ht; unfold cell.
      * rewrite G1 by auto. unfold posterior. rewrite TT by auto. reflexivity.
      * rewrite G2 by auto. unfold posterior. rewrite TT by auto. reflexivity.
Qed.
Print Assumptions C74_joint.

(** No entry is strictly between -inf and [lo]: true of floating-point numbers *)
Definition no_lower (lo : R) (m : list (list (option R))) : Prop := forall s t r, rd2 m s t = Some (Some r) -> (lo <= r)%R.
Lemma prodf_pos {A} (f : A -> R) l a : (forall a, (0 <= f a)%R) -> (0 < prodf f l)%R -> In a l -> (0 < f a)%R.
Proof.
  intros Hf. induction l as [|b l IH]; intros H K; [destruct K|]. cbn [prodf fold_right] in H. fold (prodf f l) in H. destruct K as [->|K].
  - destruct (Hf a) as [P|E]; [exact P|]. rewrite <- E, Rmult_0_l in H. lra.
  - apply IH; [|exact K]. assert (N : (0 <= prodf f l)%R).
    { clear - Hf. induction l as [|c l IH]; cbn [prodf fold_right]; [lra|]. apply Rmult_le_pos; auto. }
    destruct N as [P|E]; [exact P|]. rewrite <- E, Rmult_0_r in H. lra.
Qed.
(** Replacing -inf does not change the score of any path of positive probability. *)
Theorem C74_score : forall m lo terms x y c l, In (x, y) terms -> no_lower lo x -> no_lower lo y ->
  (0 < joint_prob m terms c l)%R -> weight m x y c l = Some (score m lo (x, y) c l).
Proof.
  intros m lo terms x y c l Hin Hx Hy HP.
  assert (W : (0 < expo (weight m x y c l))%R).
  { apply (prodf_pos (fun xy => expo (weight m (fst xy) (snd xy) c l)) terms (x, y)); auto. intros a. apply expo_nonneg. }
  clear HP Hin. revert c W. induction l as [|a l IH]; intros c W; cbn [weight score fst snd] in *; [reflexivity|].
  rewrite expo_ladd in W. destruct (edge x y c a) as [r|] eqn:E; [|cbn [expo] in W; lra].
  rewrite IH.
  2:{ pose proof (expo_nonneg (weight m x y (move m c a) l)) as [P|Q]; [exact P|]. rewrite <- Q, Rmult_0_r in W. lra. }
  cbn [ladd above_lo]. destruct (Rlt_dec r lo) as [Q|Q]; [exfalso|reflexivity].
  unfold edge, entry in E. destruct a.
  - destruct (rd2 x (fst c) (snd c)) as [v|] eqn:F; [|discriminate]. subst v. apply Hx in F. lra.
  - destruct (rd2 y (fst c) (snd c)) as [v|] eqn:F; [|discriminate]. subst v. apply Hy in F. lra.
Qed.
Print Assumptions C74_score.

Lemma sumf_In_le {A} (f : A -> R) l a : (forall a, (0 <= f a)%R) -> In a l -> (f a <= sumf f l)%R.
Proof.
  intros Hf. induction l as [|b l IH]; intros K; [destruct K|]. rewrite sumf_cons. destruct K as [->|K].
  - pose proof (sumf_nonneg f l Hf). lra.
  - specialize (IH K). specialize (Hf b). lra.
Qed.
Lemma joint_prob_nonneg m terms c l : (0 <= joint_prob m terms c l)%R.
Proof. induction terms as [|a q IH]; cbn [joint_prob fold_right]; [lra|]. apply Rmult_le_pos; [apply expo_nonneg|exact IH]. Qed.

(** Two terms, one symbol and one frame; the second term forbids one of the two paths. *)
Example C74_ex :
  let px := [[[[Some (-1); Some (-2)]]]; [[[Some (-3); None]]]]%R in
  let py := [[[[Some (-1)]; [Some (-4)]]]; [[[Some (-5)]; [Some (-6)]]]]%R in
  Forall (fun x => shape3 1 1 2 x = true) px /\ Forall (fun y => shape3 1 (1 + 1) 1 y = true) py /\ bounds_ok 1 1 1 None /\
  (forall b terms sb tb se te L, slices px py b = Some terms -> bounds 1 1 None b = Some (sb, tb, se, te) ->
     all_paths (2 =? 1) (sb, tb) (se, te) L -> (0 < joint_total (2 =? 1) terms (sb, tb) L)%R).
Proof.
  cbv zeta. split; [repeat constructor|]. split; [repeat constructor|]. split; [exact I|].
  intros b terms sb tb se te L Hs Hb (_ & HL). injection Hb as <- <- <- <-.
  assert (b = 0) as ->.
  { unfold slices in Hs. cbn [mapM] in Hs. match type of Hs with context [rd ?q b] => destruct (rd q b) as [z|] eqn:E end; [|discriminate].
    apply rd_Some_bound in E. change (0 <= b < 1) in E. lia. }
  injection Hs as <-. assert (In [true; false] L) as K by (apply HL; reflexivity).
  eapply Rlt_le_trans; [|apply (sumf_In_le _ L [true; false]); [intros; apply joint_prob_nonneg|exact K]].
  cbn. repeat apply Rmult_lt_0_compat; try apply exp_pos. lra.
Qed.
