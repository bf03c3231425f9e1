(** * C46: the gradients of the mutual information recursion are derivatives *)
From Coq Require Import ZArith List Lia Bool Reals Lra.
From Coq Require Import ZifyBool.
From Verif Require Import Base OpsModel RnntModel RnntSpec RnntProofs LogReal MutualInfoModel MutualInfoSpec MutualInfoProofs MutualInfoProps.
Import ListNotations.
Open Scope Z_scope.

Lemma uses_later m q x l : forall c, uses m c l q x = true -> fst c <= fst q /\ snd c <= snd q.
Proof.
  induction l as [|y l IH]; intros c H; cbn [uses] in H; [discriminate|]. apply orb_prop in H as [H|H]; [lia|].
  apply IH in H. unfold move in H. destruct y, m; cbn [fst snd] in H; lia.
Qed.
(** If the two tensors differ in one move only, a path's probability changes by the factor
    of this move if it takes it, and not at all otherwise. *)
Lemma weight_vary m px py px' py' s t a r x : edge px py (s, t) a = Some r -> edge px' py' (s, t) a = Some x ->
  (forall q y, q <> (s, t) \/ y <> a -> edge px' py' q y = edge px py q y) -> forall l c,
  expo (weight m px' py' c l) = ((if uses m c l (s, t) a then exp (x - r) else 1) * expo (weight m px py c l))%R.
Proof.
  intros E1 E2 EO. induction l as [|y l IH]; intros c; cbn [weight uses]; [lra|]. rewrite !expo_ladd, IH. cbn [fst snd].
  destruct ((fst c =? s) && (snd c =? t) && Bool.eqb a y) eqn:E; cbn [orb].
  - assert (c = (s, t)) as -> by (destruct c; cbn [fst snd] in E; f_equal; lia). assert (y = a) as -> by (destruct a, y; cbn in E; try reflexivity; rewrite andb_false_r in E; discriminate).
    destruct (uses m (move m (s, t) a) l (s, t) a) eqn:U.
    { apply uses_later in U. unfold move in U. destruct a, m; cbn [fst snd] in U; lia. }
    rewrite E1, E2. cbn [expo]. replace (exp x) with (exp (x - r) * exp r)%R by (rewrite <- exp_plus; f_equal; ring). ring.
  - rewrite EO; [ring|]. destruct c as [c1 c2]. cbn [fst snd] in E. destruct (Z.eq_dec c1 s) as [->|]; [|left; congruence].
    destruct (Z.eq_dec c2 t) as [->|]; [|left; congruence]. right. intros ->. rewrite !Z.eqb_refl in E. destruct a; discriminate.
Qed.
Lemma total_vary m px py px' py' s t a r x c L : edge px py (s, t) a = Some r -> edge px' py' (s, t) a = Some x ->
  (forall q y, q <> (s, t) \/ y <> a -> edge px' py' q y = edge px py q y) ->
  total m px' py' c L = (mass m px py c (fun l => uses m c l (s, t) a) L * exp (- r) * exp x + (total m px py c L - mass m px py c (fun l => uses m c l (s, t) a) L))%R.
Proof.
  intros E1 E2 EO. unfold total, mass. rewrite sumf_filter. induction L as [|l L IH]; [cbn; ring|]. rewrite !sumf_cons, IH.
  rewrite (weight_vary m px py px' py' s t a r x E1 E2 EO). destruct (uses m c l (s, t) a); [|ring].
  unfold Rminus. rewrite exp_plus. ring.
Qed.

(** The posterior of a move is the derivative of the log of the total probability, as a
    function of the entry of this move, all other entries being fixed. *)
Theorem C46_derivative : forall m px py (pxf pyf : R -> list (list (option R))) s t a r c L,
  edge px py (s, t) a = Some r -> (forall x, edge (pxf x) (pyf x) (s, t) a = Some x) ->
  (forall x q y, q <> (s, t) \/ y <> a -> edge (pxf x) (pyf x) q y = edge px py q y) ->
  (0 < total m px py c L)%R ->
  derivable_pt_lim (fun x => ln (total m (pxf x) (pyf x) c L)) r (posterior m px py c L (s, t) a).
Proof.
  intros m px py pxf pyf s t a r c L E1 E2 EO HP.
  set (M := mass m px py c (fun l => uses m c l (s, t) a) L).
  set (f := (mult_real_fct (M * exp (- r)) exp + fct_cte (total m px py c L - M))%F).
  assert (FE : forall x, total m (pxf x) (pyf x) c L = f x).
  { intros x. rewrite (total_vary m px py (pxf x) (pyf x) s t a r x c L E1 (E2 x) (EO x)). reflexivity. }
  assert (F0 : f r = total m px py c L).
  { unfold f, plus_fct, mult_real_fct, fct_cte. rewrite Rmult_assoc, <- exp_plus, Rplus_opp_l, exp_0. ring. }
  assert (D : derivable_pt_lim f r M).
  { replace M with (M * exp (- r) * exp r + 0)%R by (rewrite Rmult_assoc, <- exp_plus, Rplus_opp_l, exp_0; ring).
    apply derivable_pt_lim_plus; [apply derivable_pt_lim_scal, derivable_pt_lim_exp|apply derivable_pt_lim_const]. }
  assert (D2 : derivable_pt_lim (comp ln f) r (/ total m px py c L * M)%R).
  { apply derivable_pt_lim_comp; [exact D|]. rewrite F0. now apply derivable_pt_lim_ln. }
  unfold posterior. fold M. unfold Rdiv. rewrite Rmult_comm.
  intros eps He. destruct (D2 eps He) as (d & Hd). exists d. intros h H1 H2. specialize (Hd h H1 H2). unfold comp in Hd. rewrite !FE. exact Hd.
Qed.
Print Assumptions C46_derivative.

(** px_grad and py_grad (for ans_grad = 1) are the derivatives of the score that the
    recursion returns for utterance b, as a function f of one entry of px (a = true) or
    py (a = false): pxf x and pyf x are px and py with this entry replaced by x. *)
Theorem C46_recursion_derivative : forall B S T1 T px py pxf pyf boundary b x0 y0 xf yf (a : bool) s t r f,
  0 <= B -> 0 <= S -> 0 <= T -> T1 = T \/ T1 = T + 1 ->
  shape3 B S T1 px = true -> shape3 B (S + 1) T py = true -> bounds_ok B S T boundary ->
  (forall b x y sb tb se te, rd px b = Some x -> rd py b = Some y -> bounds S T boundary b = Some (sb, tb, se, te) ->
     forall L, all_paths (T1 =? T) (sb, tb) (se, te) L -> (0 < total (T1 =? T) x y (sb, tb) L)%R) ->
  (forall x, shape3 B S T1 (pxf x) = true /\ shape3 B (S + 1) T (pyf x) = true) ->
  rd px b = Some x0 -> rd py b = Some y0 -> (forall x, rd (pxf x) b = Some (xf x) /\ rd (pyf x) b = Some (yf x)) ->
  (if a then 0 <= s < S /\ 0 <= t < T1 else 0 <= s <= S /\ 0 <= t < T) ->
  edge x0 y0 (s, t) a = Some r -> (forall x, edge (xf x) (yf x) (s, t) a = Some x) ->
  (forall x q y, q <> (s, t) \/ y <> a -> edge (xf x) (yf x) q y = edge x0 y0 q y) ->
  (forall x, exists res p, mutual_information_recursion lzero lninf ladd (logadd None) B S T1 T (pxf x) (pyf x) boundary = Some res /\ rd res b = Some (Some (f x), p)) ->
  exists gr ans g d, mutual_information_grads lzero lninf ladd (logadd None) lderiv B S T1 T px py boundary = Some gr /\ rd gr b = Some (ans, g) /\
    (if a then g_px g s t else g_py g s t) = Some d /\ derivable_pt_lim f r d.
Proof.
  intros B S T1 T px py pxf pyf boundary b x0 y0 xf yf a s t r f HB HS HT HT1 SX SY BO POS SF Hx Hy Hf Rst E1 E2 EO HR.
  destruct (C46_gradients B S T1 T px py boundary) as (gr & EG & LG & PG); auto.
  assert (Hb : 0 <= b < B) by (destruct (shape3_ok _ _ _ _ SX) as (L1 & _); pose proof (rd_Some_bound _ _ _ Hx); lia).
  assert (BD : exists sb tb se te, bounds S T boundary b = Some (sb, tb, se, te)).
  { unfold bounds_ok in BO. unfold bounds. destruct boundary as [bs|]; [|eauto]. destruct BO as (L1 & _).
    destruct (rd_in_bound bs b) as ([[[sb tb] se] te] & E); [lia|]. eauto. }
  destruct BD as (sb & tb & se & te & Eb). destruct (PG b x0 y0 _ _ _ _ Hx Hy Eb) as (ans & g & Eg & Kg).
  destruct (C45_paths_enumerable (T1 =? T) (sb, tb) (se, te)) as (L & HL). destruct (Kg L HL) as (G1 & G2 & _).
  exists gr, ans, g, (posterior (T1 =? T) x0 y0 (sb, tb) L (s, t) a). split; [exact EG|]. split; [exact Eg|]. split.
  { destruct a; [apply G1|apply G2]; tauto. }
  assert (FE : forall x, f x = ln (total (T1 =? T) (xf x) (yf x) (sb, tb) L)).
  { intros x. destruct (HR x) as (res & p & E & Ep). destruct (SF x) as (S1 & S2). destruct (Hf x) as (F1 & F2).
    destruct (C45_mutual_information B S T1 T (pxf x) (pyf x) boundary) as (res' & E' & _ & K); auto. rewrite E in E'. injection E' as <-.
    destruct (K b _ _ _ _ _ _ F1 F2 Eb) as (a' & p' & Ea & Ka & _). rewrite Ep in Ea. injection Ea as <- <-. rewrite <- (Ka L HL). cbn [expo]. now rewrite ln_exp. }
  pose proof (C46_derivative (T1 =? T) x0 y0 xf yf s t a r (sb, tb) L E1 E2 EO (POS b x0 y0 _ _ _ _ Hx Hy Eb L HL)) as D.
  intros eps He. destruct (D eps He) as (d & Hd). exists d. intros h H1 H2. rewrite !FE. auto.
Qed.
Print Assumptions C46_recursion_derivative.

(** The entry at (0, 1) of px varies, from -2. *)
Example C46_derivative_ex :
  let px := [[Some (-1); Some (-2)]]%R in let py := [[Some (-1)]; [None]]%R in let pxf := fun x => [[Some (-1); Some x]]%R in
  edge px py (0, 1) true = Some (-2)%R /\ (forall x, edge (pxf x) py (0, 1) true = Some x) /\
  (forall x q y, q <> (0, 1) \/ y <> true -> edge (pxf x) py q y = edge px py q y) /\
  (0 < total false px py (0%Z, 0%Z) [[true; false]; [false; true]])%R /\
  (exists res p v, mutual_information_recursion lzero lninf ladd (logadd None) 1 1 2 1 [px] [py] None = Some res /\ rd res 0 = Some (Some v, p)).
Proof.
  cbv zeta. split; [reflexivity|]. split; [reflexivity|]. split; [|split].
  - intros x [q1 q2] y H. unfold edge, entry, rd2. cbn [fst snd]. destruct y; [|reflexivity]. destruct H as [H|H]; [|congruence].
    destruct (Z.eq_dec q1 0) as [->|N1].
    + change (rd [[Some (-1)%R; Some x]] 0) with (Some [Some (-1)%R; Some x]). change (rd [[Some (-1)%R; Some (-2)%R]] 0) with (Some [Some (-1)%R; Some (-2)%R]). cbv iota.
      destruct (Z.eq_dec q2 0) as [->|N2]; [reflexivity|]. destruct (Z.eq_dec q2 1) as [->|N3]; [congruence|].
      rewrite !(proj2 (rd_None _ q2)) by (rewrite !zlen_cons, zlen_nil; lia). reflexivity.
    + rewrite !(proj2 (rd_None _ q1)) by (rewrite !zlen_cons, zlen_nil; lia). reflexivity.
  - change (0 < 0 + (exp (-1 + (-2 + 0)) + 0))%R. pose proof (exp_pos (-1 + (-2 + 0))). lra.
  - vm_compute. eexists _, _, _. split; reflexivity.
Qed.
