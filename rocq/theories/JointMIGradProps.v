(** * C74: the gradients of joint_mutual_information_recursion *)
From Coq Require Import ZArith List Lia Bool Reals Lra.
From Coq Require Import ZifyBool.
From Verif Require Import Base OpsModel RnntModel RnntSpec RnntProofs RnntPrunedProps LogReal MutualInfoModel MutualInfoSpec MutualInfoProofs MutualInfoProps MutualInfoGradProps JointMIModel JointMISpec JointMIProofs JointMIProps.
Import ListNotations.
Open Scope Z_scope.

(** The probability, given all terms, that a path makes move a at position q *)
Definition joint_posterior (m : bool) (terms : list term) (c : Z * Z) (L : list (list bool)) (q : Z * Z) (a : bool) : R :=
  (sumf (joint_prob m terms c) (filter (fun l => uses m c l q a) L) / joint_total m terms c L)%R.

Lemma prodf_app {A} (f : A -> R) l l' : prodf f (l ++ l') = (prodf f l * prodf f l')%R.
Proof. induction l as [|a l IH]; cbn [app prodf fold_right]; [unfold prodf; ring|]. fold (prodf f (l ++ l')). rewrite IH. unfold prodf. ring. Qed.

(** It is the derivative of the log of the total probability (the sum of the returned
    values, C74_joint) as a function of the entry of this move in any one of the terms. *)
Theorem C74_derivative : forall m before after px py (pxf pyf : R -> list (list (option R))) s t a r c L,
  edge px py (s, t) a = Some r -> (forall x, edge (pxf x) (pyf x) (s, t) a = Some x) ->
  (forall x q y, q <> (s, t) \/ y <> a -> edge (pxf x) (pyf x) q y = edge px py q y) ->
  (0 < joint_total m (before ++ (px, py) :: after) c L)%R ->
  derivable_pt_lim (fun x => ln (joint_total m (before ++ (pxf x, pyf x) :: after) c L)) r
    (joint_posterior m (before ++ (px, py) :: after) c L (s, t) a).
Proof.
  intros m before after px py pxf pyf s t a r c L E1 E2 EO HP. set (terms := before ++ (px, py) :: after) in *.
  assert (PV : forall x l, joint_prob m (before ++ (pxf x, pyf x) :: after) c l = ((if uses m c l (s, t) a then exp (x - r) else 1) * joint_prob m terms c l)%R).
  { intros x l. unfold terms. change joint_prob with (fun m terms c l => prodf (fun xy => expo (weight m (fst xy) (snd xy) c l)) terms). cbv beta.
    rewrite !prodf_app. cbn [prodf fold_right fst snd]. rewrite (weight_vary m px py (pxf x) (pyf x) s t a r x E1 (E2 x) (EO x)). ring. }
  set (M := sumf (joint_prob m terms c) (filter (fun l => uses m c l (s, t) a) L)).
  set (f := (mult_real_fct (M * exp (- r)) exp + fct_cte (joint_total m terms c L - M))%F).
  assert (FE : forall x, joint_total m (before ++ (pxf x, pyf x) :: after) c L = f x).
  { intros x. unfold f, plus_fct, mult_real_fct, fct_cte, M, joint_total. rewrite sumf_filter. clear HP f M. induction L as [|l L IH]; [cbn; ring|].
    rewrite !sumf_cons, IH, PV. destruct (uses m c l (s, t) a); [|ring]. unfold Rminus. rewrite exp_plus. ring. }
  assert (F0 : f r = joint_total m terms c L).
  { unfold f, plus_fct, mult_real_fct, fct_cte. rewrite Rmult_assoc, <- exp_plus, Rplus_opp_l, exp_0. ring. }
  assert (D : derivable_pt_lim f r M).
  { replace M with (M * exp (- r) * exp r + 0)%R by (rewrite Rmult_assoc, <- exp_plus, Rplus_opp_l, exp_0; ring).
    apply derivable_pt_lim_plus; [apply derivable_pt_lim_scal, derivable_pt_lim_exp|apply derivable_pt_lim_const]. }
  assert (D2 : derivable_pt_lim (comp ln f) r (/ joint_total m terms c L * M)%R).
  { apply derivable_pt_lim_comp; [exact D|]. rewrite F0. now apply derivable_pt_lim_ln. }
  unfold joint_posterior. fold M. unfold Rdiv. rewrite Rmult_comm.
  intros eps He. destruct (D2 eps He) as (d & Hd). exists d. intros h H1 H2. specialize (Hd h H1 H2). unfold comp in Hd. rewrite !FE. exact Hd.
Qed.
Print Assumptions C74_derivative.

(** px_grad and py_grad, with which autograd differentiates the values returned for the
    terms (each value is a constant plus their inner product with its term), are these. *)
Theorem C74_occupation : forall B S T1 T px py boundary,
  0 <= B -> 0 <= S -> 0 <= T -> T1 = T \/ T1 = T + 1 -> px <> [] -> zlen py = zlen px ->
  Forall (fun x => shape3 B S T1 x = true) px -> Forall (fun y => shape3 B (S + 1) T y = true) py -> bounds_ok B S T boundary ->
  (forall b terms sb tb se te L, slices px py b = Some terms -> bounds S T boundary b = Some (sb, tb, se, te) ->
     all_paths (T1 =? T) (sb, tb) (se, te) L -> (0 < joint_total (T1 =? T) terms (sb, tb) L)%R) ->
  exists px_tot py_tot gr, sum_terms B S T1 px = Some px_tot /\ sum_terms B (S + 1) T py = Some py_tot /\
    mutual_information_grads lzero lninf ladd (logadd None) lderiv B S T1 T px_tot py_tot boundary = Some gr /\
    forall b terms sb tb se te, slices px py b = Some terms -> bounds S T boundary b = Some (sb, tb, se, te) ->
      exists ans g, rd gr b = Some (ans, g) /\
        forall L, all_paths (T1 =? T) (sb, tb) (se, te) L ->
          (forall s t, 0 <= s < S -> 0 <= t < T1 -> g_px g s t = Some (joint_posterior (T1 =? T) terms (sb, tb) L (s, t) true)) /\
          (forall s t, 0 <= s <= S -> 0 <= t < T -> g_py g s t = Some (joint_posterior (T1 =? T) terms (sb, tb) L (s, t) false)).
Proof.
  intros B S T1 T px py boundary HB HS HT HT1 Hne HL FX FY BO POS.
  assert (HT0 : 0 <= T1) by lia.
  set (PX := tab B (fun b => summed S T1 (map (fun x => at3 x b) px))).
  set (PY := tab B (fun b => summed (S + 1) T (map (fun x => at3 x b) py))).
  assert (SX : shape3 B S T1 PX = true) by (apply shape3_tab; auto).
  assert (SY : shape3 B (S + 1) T PY = true) by (apply shape3_tab; lia).
  assert (RX : forall x b, In x px -> 0 <= b < B -> rd x b = Some (at3 x b) /\ shape2 S T1 (at3 x b) = true).
  { intros x b Hx Hb. rewrite Forall_forall in FX. destruct (shape3_ok _ _ _ _ (FX x Hx)) as (L1 & K). destruct (rd_in_bound x b) as (y & Hy); [lia|].
    unfold at3. rewrite Hy. split; [reflexivity|eauto]. }
  assert (RY : forall x b, In x py -> 0 <= b < B -> rd x b = Some (at3 x b) /\ shape2 (S + 1) T (at3 x b) = true).
  { intros x b Hx Hb. rewrite Forall_forall in FY. destruct (shape3_ok _ _ _ _ (FY x Hx)) as (L1 & K). destruct (rd_in_bound x b) as (y & Hy); [lia|].
    unfold at3. rewrite Hy. split; [reflexivity|eauto]. }
  set (TM := fun b => combine (map (fun x => at3 x b) px) (map (fun x => at3 x b) py)).
  assert (SL : forall b, 0 <= b < B -> slices px py b = Some (TM b)).
  { intros b Hb. apply slices_ok; intros x Hx; [destruct (RX x b Hx Hb)|destruct (RY x b Hx Hb)]; eauto. }
  assert (BX : forall b terms, slices px py b = Some terms -> 0 <= b < B).
  { intros b terms H. destruct px as [|x px]; [congruence|]. unfold slices in H. cbn [mapM] in H. destruct (rd x b) as [y|] eqn:E; [|discriminate].
    apply rd_Some_bound in E. inversion FX; subst. destruct (shape3_ok _ _ _ _ H2) as (L1 & _). lia. }
  assert (WT : forall b c l, 0 <= b < B -> expo (weight (T1 =? T) (summed S T1 (map (fun x => at3 x b) px)) (summed (S + 1) T (map (fun x => at3 x b) py)) c l) = joint_prob (T1 =? T) (TM b) c l).
  { intros b c l Hb. unfold TM. apply weight_summed; auto; try lia.
    - destruct px; [congruence|discriminate].
    - rewrite !map_length. unfold zlen in HL. lia.
    - apply Forall_forall. intros y Hy. apply in_map_iff in Hy as (x & <- & Hx). now apply RX.
    - apply Forall_forall. intros y Hy. apply in_map_iff in Hy as (x & <- & Hx). now apply RY. }
  assert (TT : forall b c L, 0 <= b < B -> total (T1 =? T) (summed S T1 (map (fun x => at3 x b) px)) (summed (S + 1) T (map (fun x => at3 x b) py)) c L = joint_total (T1 =? T) (TM b) c L).
  { intros b c L Hb. unfold total, joint_total. apply sumf_ext. intros l _. now apply WT. }
  assert (JP : forall b c L q a, 0 <= b < B -> posterior (T1 =? T) (summed S T1 (map (fun x => at3 x b) px)) (summed (S + 1) T (map (fun x => at3 x b) py)) c L q a = joint_posterior (T1 =? T) (TM b) c L q a).
  { intros b c L q a Hb. unfold posterior, joint_posterior. rewrite TT by auto. f_equal. unfold mass. apply sumf_ext. intros l _. now apply WT. }
  exists PX, PY. destruct (C46_gradients B S T1 T PX PY boundary) as (gr & EG & LG & PG); auto.
  { intros b x y sb tb se te Hx Hy Hbd L HLp. pose proof (rd_Some_bound _ _ _ Hx) as Hb. unfold PX in Hb. rewrite zlen_tab in Hb by auto.
    unfold PX in Hx. unfold PY in Hy. rewrite rd_tab in Hx, Hy by auto. injection Hx as <-. injection Hy as <-. rewrite TT by auto. eapply POS; eauto. }
  exists gr. split; [now apply sum_terms_ok|]. split; [now apply sum_terms_ok|]. split; [exact EG|].
  intros b terms sb tb se te Hs Eb. pose proof (BX b terms Hs) as Hb. rewrite (SL b Hb) in Hs. injection Hs as <-.
  assert (HX : rd PX b = Some (summed S T1 (map (fun x => at3 x b) px))) by (unfold PX; now rewrite rd_tab).
  assert (HY : rd PY b = Some (summed (S + 1) T (map (fun x => at3 x b) py))) by (unfold PY; now rewrite rd_tab).
  destruct (PG b _ _ _ _ _ _ HX HY Eb) as (ans & g & Eg & Kg). exists ans, g. split; [exact Eg|]. intros L HLp. destruct (Kg L HLp) as (G1 & G2 & _).
  split; intros s t H1 H2; [rewrite G1 by auto|rewrite G2 by auto]; now rewrite JP.
Qed.
Print Assumptions C74_occupation.

(** The second of two terms varies at (0, 1); the tensors of C46_derivative_ex. *)
Example C74_derivative_ex :
  let px := [[Some (-1); Some (-2)]]%R in let py := [[Some (-1)]; [None]]%R in let pxf := fun x => [[Some (-1); Some x]]%R in
  edge px py (0, 1) true = Some (-2)%R /\ (forall x, edge (pxf x) py (0, 1) true = Some x) /\
  (forall x q y, q <> (0, 1) \/ y <> true -> edge (pxf x) py q y = edge px py q y) /\
  (0 < joint_total false ([(px, py)] ++ (px, py) :: []) (0%Z, 0%Z) [[true; false]; [false; true]])%R.
Proof.
  pose proof C46_derivative_ex as H. cbv zeta in *. destruct H as (H1 & H2 & H3 & _ & _). split; [exact H1|]. split; [exact H2|]. split; [exact H3|].
  unfold joint_total. eapply Rlt_le_trans; [|apply (sumf_In_le _ _ [false; true]); [intros; apply joint_prob_nonneg|right; left; reflexivity]].
  change (0 < exp (-1 + (-2 + 0)) * (exp (-1 + (-2 + 0)) * 1))%R. repeat apply Rmult_lt_0_compat; try apply exp_pos. lra.
Qed.
