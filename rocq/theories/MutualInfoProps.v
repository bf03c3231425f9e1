(** * C45, C46: the mutual-information recursion and its gradients; C44: the
    pruned RNN-T loss. *)
From Coq Require Import ZArith List Lia Bool Reals Lra.
From Coq Require Import ZifyBool ZifyNat.
From Verif Require Import Base OpsModel RnntModel RnntSpec RnntProofs RnntProps RnntPrunedProps
  LogReal MutualInfoModel MutualInfoSpec MutualInfoProofs.
Import ListNotations.
Open Scope Z_scope.

(** There are finitely many paths between two positions. *)
Theorem C45_paths_enumerable : forall m c d, exists L, all_paths m c d L.
Proof. intros m c d. exists (paths m c d). apply paths_ok. Qed.
Print Assumptions C45_paths_enumerable.

(** The modified topology is recognised by the number of columns of px. *)
Lemma mi_ok cut B S T1 T px py boundary :
  0 <= B -> 0 <= S -> 0 <= T -> T1 = T \/ T1 = T + 1 ->
  shape3 B S T1 px = true -> shape3 B (S + 1) T py = true -> bounds_ok B S T boundary ->
  exists res, mutual_information_recursion lzero lninf ladd (logadd cut) B S T1 T px py boundary = Some res /\
    zlen res = B /\
    forall b x y sb tb se te, rd px b = Some x -> rd py b = Some y -> bounds S T boundary b = Some (sb, tb, se, te) ->
      0 <= sb <= se /\ se <= S /\ 0 <= tb <= te /\ te <= T /\
      exists ans p, rd res b = Some (ans, p) /\ fq cut (T1 =? T) x y sb tb se te ans /\
        forall s t, sb <= s <= se -> tb <= t <= te -> good cut (T1 =? T) x y sb tb p s t.
Proof.
  intros HB HS HT HT1 SX SY BO. unfold mutual_information_recursion.
  destruct (shape3_ok _ _ _ _ SX) as (X1 & X2). destruct (shape3_ok _ _ _ _ SY) as (Y1 & Y2).
  replace ((T1 =? T) || (T1 =? T + 1)) with true by lia. rewrite SX, SY. cbn [andb].
  assert (EB : match boundary with None => true | Some bs => (zlen bs =? B) && forallb (boundary_ok S T) bs end = true).
  { destruct boundary as [bs|]; [|reflexivity]. destruct BO as (E & BF). replace (zlen bs =? B) with true by lia. cbn [andb].
    apply forallb_forall. intros (((sb, tb), se), te) H. apply BF in H. unfold boundary_ok. lia. }
  rewrite EB.
  assert (BD : forall b, 0 <= b < B -> exists sb tb se te, bounds S T boundary b = Some (sb, tb, se, te)).
  { intros b Hb. unfold bounds. destruct boundary as [bs|]; [|eauto 6]. destruct BO as (E & _).
    destruct (rd_in_bound bs b) as ((((sb, tb), se), te) & Hx); [lia|]. rewrite Hx. eauto 6. }
  assert (BR : forall b sb tb se te, bounds S T boundary b = Some (sb, tb, se, te) -> (0 <= sb <= se /\ se <= S) /\ (0 <= tb <= te /\ te <= T)).
  { intros b sb tb se te H. unfold bounds in H. destruct boundary as [bs|]; [|injection H as <- <- <- <-; lia].
    destruct BO as (_ & BF). apply rd_In, BF in H. lia. }
  assert (ROW : forall b x y sb tb se te, rd px b = Some x -> rd py b = Some y -> bounds S T boundary b = Some (sb, tb, se, te) ->
    exists ans p, mi_forward lzero lninf ladd (logadd cut) (T1 =? T) S T x y (sb, tb, se, te) = Some (ans, p) /\
      fq cut (T1 =? T) x y sb tb se te ans /\ forall s t, sb <= s <= se -> tb <= t <= te -> good cut (T1 =? T) x y sb tb p s t).
  { intros b x y sb tb se te Hx Hy Hb. destruct (BR b sb tb se te Hb) as (R1 & R2). apply forward_ok; auto.
    - intros s t H1 H2. destruct (shape2_ok _ _ _ (X2 b x Hx)) as (_ & K). apply K; auto. destruct (T1 =? T) eqn:E; lia.
    - intros s t H1 H2. destruct (shape2_ok _ _ _ (Y2 b y Hy)) as (_ & K). apply K; auto. }
  match goal with |- context [tabM B ?f] => set (F := f); destruct (tabM_all B F) as (res & E & EL & EP) end; [lia| |].
  { intros b Hb. destruct (rd_in_bound px b) as (x & Hx); [lia|]. destruct (rd_in_bound py b) as (y & Hy); [lia|].
    destruct (BD b Hb) as (sb & tb & se & te & Hbd). destruct (ROW b x y sb tb se te Hx Hy Hbd) as (ans & p & Q & _).
    exists (ans, p). unfold F. rewrite Hx, Hy. unfold bounds in Hbd. rewrite Hbd. exact Q. }
  exists res. split; [exact E|]. split; [exact EL|]. intros b x y sb tb se te Hx Hy Hbd.
  destruct (BR b sb tb se te Hbd) as ((R1 & R2) & R3 & R4). do 4 (split; [lia|]).
  destruct (ROW b x y sb tb se te Hx Hy Hbd) as (ans & p & Q & Q1 & Q2). exists ans, p. split; [|auto].
  pose proof (rd_Some_bound _ _ _ Hx) as Bx. destruct (rd_in_bound res b) as (r & Hr); [lia|]. pose proof (EP b r Hr) as Er.
  unfold F in Er. rewrite Hx, Hy in Er. unfold bounds in Hbd. rewrite Hbd in Er. rewrite Hr. congruence.
Qed.

(** C45, exact log-sum-exp.  For every utterance, the returned score is the
    log of the summed probability of all monotone paths from (s_begin, t_begin)
    to (s_end, t_end), and p[s][t] that of all the partial paths to (s, t). *)
Theorem C45_mutual_information : forall B S T1 T px py boundary,
  0 <= B -> 0 <= S -> 0 <= T -> T1 = T \/ T1 = T + 1 ->
  shape3 B S T1 px = true -> shape3 B (S + 1) T py = true -> bounds_ok B S T boundary ->
  exists res, mutual_information_recursion lzero lninf ladd (logadd None) B S T1 T px py boundary = Some res /\
    zlen res = B /\
    forall b x y sb tb se te, rd px b = Some x -> rd py b = Some y -> bounds S T boundary b = Some (sb, tb, se, te) ->
      exists ans p, rd res b = Some (ans, p) /\
        (forall L, all_paths (T1 =? T) (sb, tb) (se, te) L -> expo ans = total (T1 =? T) x y (sb, tb) L) /\
        (forall s t L, sb <= s <= se -> tb <= t <= te -> all_paths (T1 =? T) (sb, tb) (s, t) L ->
           exists v, p s t = Some v /\ expo v = total (T1 =? T) x y (sb, tb) L).
Proof.
  intros B S T1 T px py boundary HB HS HT HT1 SX SY BO.
  destruct (mi_ok None B S T1 T px py boundary HB HS HT HT1 SX SY BO) as (res & E & EL & P).
  exists res. split; [exact E|]. split; [exact EL|]. intros b x y sb tb se te Hx Hy Hbd.
  destruct (P b x y sb tb se te Hx Hy Hbd) as (R1 & R2 & R3 & R4 & ans & p & Hr & Q1 & Q2). exists ans, p. split; [exact Hr|].
  assert (EX : forall s t v, fq None (T1 =? T) x y sb tb s t v -> expo v = tot (T1 =? T) x y (sb, tb) (s, t)).
  { intros s t v (K1 & K2). unfold eps in K2. rewrite Rplus_0_r, pow1 in K2. lra. }
  split.
  - intros L HL. rewrite (EX se te ans Q1). symmetry. apply (tot_all (T1 =? T) x y (sb, tb) (se, te) L HL).
  - intros s t L H1 H2 HL. destruct (Q2 s t H1 H2) as (v & Ev & Qv). exists v. split; auto.
    rewrite (EX s t v Qv). symmetry. apply (tot_all (T1 =? T) x y (sb, tb) (s, t) L HL).
Qed.
Print Assumptions C45_mutual_information.

(** C45 with the cut-off of LogAdd (terms smaller than exp(c) relatively to the
    larger one are dropped): the result never exceeds the sum over the paths,
    and falls short of it by at most a factor (1 + exp c) per step. *)
Theorem C45_mutual_information_cutoff : forall c B S T1 T px py boundary,
  0 <= B -> 0 <= S -> 0 <= T -> T1 = T \/ T1 = T + 1 ->
  shape3 B S T1 px = true -> shape3 B (S + 1) T py = true -> bounds_ok B S T boundary ->
  exists res, mutual_information_recursion lzero lninf ladd (logadd (Some c)) B S T1 T px py boundary = Some res /\
    zlen res = B /\
    forall b x y sb tb se te, rd px b = Some x -> rd py b = Some y -> bounds S T boundary b = Some (sb, tb, se, te) ->
      exists ans p, rd res b = Some (ans, p) /\
        forall L, all_paths (T1 =? T) (sb, tb) (se, te) L ->
          (expo ans <= total (T1 =? T) x y (sb, tb) L <=
           (1 + exp c) ^ (Z.to_nat (se - sb + (te - tb))) * expo ans)%R.
Proof.
  intros c B S T1 T px py boundary HB HS HT HT1 SX SY BO.
  destruct (mi_ok (Some c) B S T1 T px py boundary HB HS HT HT1 SX SY BO) as (res & E & EL & P).
  exists res. split; [exact E|]. split; [exact EL|]. intros b x y sb tb se te Hx Hy Hbd.
  destruct (P b x y sb tb se te Hx Hy Hbd) as (R1 & R2 & R3 & R4 & ans & p & Hr & Q1 & Q2). exists ans, p. split; [exact Hr|].
  intros L HL. pose proof (tot_all (T1 =? T) x y (sb, tb) (se, te) L HL) as ET. cbv beta in ET. unfold total. rewrite ET. exact Q1.
Qed.
Print Assumptions C45_mutual_information_cutoff.

Lemma move_off m s t : move m (s, t) true = (s + 1, t - (if m then -1 else 0)).
Proof. unfold move. cbn [fst snd]. destruct m; f_equal; lia. Qed.

(** The value of a gradient cell *)
Definition cell (g : Z -> Z -> option R) (s t : Z) : R := match g s t with Some v => v | None => 0%R end.

(** C46.  For every utterance that has a path of positive probability, every
    cell of px_grad and py_grad is initialised, and is the posterior
    probability that a path takes the corresponding move; and for every frame
    the moves that leave it have occupancies summing to one. *)
Theorem C46_gradients : forall B S T1 T px py boundary,
  0 <= B -> 0 <= S -> 0 <= T -> T1 = T \/ T1 = T + 1 ->
  shape3 B S T1 px = true -> shape3 B (S + 1) T py = true -> bounds_ok B S T boundary ->
  (forall b x y sb tb se te, rd px b = Some x -> rd py b = Some y -> bounds S T boundary b = Some (sb, tb, se, te) ->
     forall L, all_paths (T1 =? T) (sb, tb) (se, te) L -> (0 < total (T1 =? T) x y (sb, tb) L)%R) ->
  exists res, mutual_information_grads lzero lninf ladd (logadd None) lderiv B S T1 T px py boundary = Some res /\
    zlen res = B /\
    forall b x y sb tb se te, rd px b = Some x -> rd py b = Some y -> bounds S T boundary b = Some (sb, tb, se, te) ->
      exists ans g, rd res b = Some (ans, g) /\
        forall L, all_paths (T1 =? T) (sb, tb) (se, te) L ->
          (forall s t, 0 <= s < S -> 0 <= t < T1 -> g_px g s t = Some (posterior (T1 =? T) x y (sb, tb) L (s, t) true)) /\
          (forall s t, 0 <= s <= S -> 0 <= t < T -> g_py g s t = Some (posterior (T1 =? T) x y (sb, tb) L (s, t) false)) /\
          (forall t, tb <= t < te ->
             sumf (fun s => (cell (g_py g) s t + if T1 =? T then cell (g_px g) s t else 0)%R) (zrange (S + 1)) = 1%R).
Proof.
  intros B S T1 T px py boundary HB HS HT HT1 SX SY BO POS.
  destruct (mi_ok None B S T1 T px py boundary HB HS HT HT1 SX SY BO) as (fw & E & EL & P).
  unfold mutual_information_grads. rewrite E.
  destruct (shape3_ok _ _ _ _ SX) as (X1 & X2). destruct (shape3_ok _ _ _ _ SY) as (Y1 & Y2).
  set (m := T1 =? T) in *. set (hb := match boundary with None => false | _ => true end).
  assert (EX : forall x y sb tb s t v, fq None m x y sb tb s t v -> expo v = tot m x y (sb, tb) (s, t)).
  { intros x y sb tb s t v (K1 & K2). unfold eps in K2. rewrite Rplus_0_r, pow1 in K2. lra. }
  assert (ROW : forall b x y sb tb se te, rd px b = Some x -> rd py b = Some y -> bounds S T boundary b = Some (sb, tb, se, te) ->
    exists ans p st, rd fw b = Some (ans, p) /\ mi_backward ladd lderiv m hb S T x (sb, tb, se, te) p 1 = Some st /\
      (forall s t, g_px st s t = if (sb <=? s) && (s + 1 <=? se) && (tb <=? t) && (t - (if m then -1 else 0) <=? te)
          then Some (gX m x y sb tb se te 1 s t) else if hb then Some 0%R else None) /\
      (forall s t, g_py st s t = if (sb <=? s) && (s <=? se) && (tb <=? t) && (t + 1 <=? te)
          then Some (gY m x y sb tb se te 1 s t) else if hb then Some 0%R else None)).
  { intros b x y sb tb se te Hx Hy Hbd. destruct (P b x y sb tb se te Hx Hy Hbd) as (R1 & R2 & R3 & R4 & ans & p & Hr & Q1 & Q2).
    destruct (backward_ok m hb S T x y sb tb se te) with (p := p) (g := 1%R) as (st & E1 & E2 & E3 & _); auto.
    - intros s t H1 H2. destruct (shape2_ok _ _ _ (X2 b x Hx)) as (_ & K). apply K; auto. unfold m in H2. destruct (T1 =? T) eqn:ET; lia.
    - intros s t H1 H2. destruct (Q2 s t H1 H2) as (v & Ev & Qv). exists v. split; auto.
    - pose proof (POS b x y sb tb se te Hx Hy Hbd _ (paths_ok m (sb, tb) (se, te))) as K. exact K.
    - exists ans, p, st. auto. }
  match goal with |- context [tabM B ?f] => set (F := f); destruct (tabM_all B F) as (res & ER & ELR & EP) end; [lia| |].
  { intros b Hb. destruct (rd_in_bound px b) as (x & Hx); [lia|]. destruct (rd_in_bound py b) as (y & Hy); [lia|].
    assert (BD : exists sb tb se te, bounds S T boundary b = Some (sb, tb, se, te)).
    { unfold bounds. destruct boundary as [bs|]; [|eauto 6]. destruct BO as (EB & _).
      destruct (rd_in_bound bs b) as ((((sb, tb), se), te) & Hq); [lia|]. rewrite Hq. eauto 6. }
    destruct BD as (sb & tb & se & te & Hbd). destruct (ROW b x y sb tb se te Hx Hy Hbd) as (ans & p & st & Q0 & Q & _).
    exists (ans, st). unfold F. rewrite Hx, Q0. unfold bounds in Hbd. rewrite Hbd. cbn [snd fst]. fold hb. rewrite Q. reflexivity. }
  exists res. split; [exact ER|]. split; [exact ELR|]. intros b x y sb tb se te Hx Hy Hbd.
  destruct (P b x y sb tb se te Hx Hy Hbd) as (R1 & R2 & R3 & R4 & _).
  destruct (ROW b x y sb tb se te Hx Hy Hbd) as (ans & p & st & Q0 & Q & QX & QY). exists ans, st. split.
  { pose proof (rd_Some_bound _ _ _ Hx) as Bx. destruct (rd_in_bound res b) as (r & Hr); [lia|]. pose proof (EP b r Hr) as Er.
    unfold F in Er. rewrite Hx, Q0 in Er. unfold bounds in Hbd. rewrite Hbd in Er. cbn [snd fst] in Er. fold hb in Er. rewrite Q in Er. rewrite Hr. congruence. }
  intros L HL. set (prob := posterior m x y (sb, tb) L). pose proof (POS b x y sb tb se te Hx Hy Hbd L HL) as PL.
  pose proof (tot_all m x y (sb, tb) (se, te) L HL) as ET. cbv beta in ET. fold (total m x y (sb, tb) L) in ET.
  assert (PX : forall s t, prob (s, t) true = gX m x y sb tb se te 1 s t).
  { intros s t. unfold prob, posterior. rewrite (mass_uses m x y _ _ _ _ _ HL), ET. unfold gX. rewrite move_off. cbn [edge]. rewrite Rmult_1_l. reflexivity. }
  assert (PY : forall s t, prob (s, t) false = gY m x y sb tb se te 1 s t).
  { intros s t. unfold prob, posterior. rewrite (mass_uses m x y _ _ _ _ _ HL), ET. unfold gY. change (move m (s, t) false) with (s, t + 1). cbn [edge]. rewrite Rmult_1_l. reflexivity. }
  assert (OUTX : forall s t, (sb <=? s) && (s + 1 <=? se) && (tb <=? t) && (t - (if m then -1 else 0) <=? te) = false -> gX m x y sb tb se te 1 s t = 0%R).
  { intros s t H. unfold gX. destruct (Z_lt_ge_dec s sb) as [K|K]; [rewrite (tot_0 m x y (sb, tb) (s, t)) by (cbn [fst snd]; lia); lra|].
    destruct (Z_lt_ge_dec t tb) as [K'|K']; [rewrite (tot_0 m x y (sb, tb) (s, t)) by (cbn [fst snd]; lia); lra|].
    rewrite (tot_0 m x y (s + 1, t - (if m then -1 else 0)) (se, te)) by (cbn [fst snd]; destruct m; lia). lra. }
  assert (OUTY : forall s t, (sb <=? s) && (s <=? se) && (tb <=? t) && (t + 1 <=? te) = false -> gY m x y sb tb se te 1 s t = 0%R).
  { intros s t H. unfold gY. destruct (Z_lt_ge_dec s sb) as [K|K]; [rewrite (tot_0 m x y (sb, tb) (s, t)) by (cbn [fst snd]; lia); lra|].
    destruct (Z_lt_ge_dec t tb) as [K'|K']; [rewrite (tot_0 m x y (sb, tb) (s, t)) by (cbn [fst snd]; lia); lra|].
    rewrite (tot_0 m x y (s, t + 1) (se, te)) by (cbn [fst snd]; lia). lra. }
  assert (GX : forall s t, 0 <= s < S -> 0 <= t < T1 -> g_px st s t = Some (prob (s, t) true)).
  { intros s t H1 H2. rewrite QX, PX. destruct ((sb <=? s) && (s + 1 <=? se) && (tb <=? t) && _) eqn:C; [reflexivity|].
    rewrite (OUTX s t C). destruct hb eqn:EH; [reflexivity|]. exfalso. unfold hb in EH. destruct boundary; [discriminate|].
    cbn [bounds] in Hbd. injection Hbd as <- <- <- <-. unfold m in C. destruct (T1 =? T) eqn:EM; lia. }
  assert (GY : forall s t, 0 <= s <= S -> 0 <= t < T -> g_py st s t = Some (prob (s, t) false)).
  { intros s t H1 H2. rewrite QY, PY. destruct ((sb <=? s) && (s <=? se) && (tb <=? t) && (t + 1 <=? te)) eqn:C; [reflexivity|].
    rewrite (OUTY s t C). destruct hb eqn:EH; [reflexivity|]. exfalso. unfold hb in EH. destruct boundary; [discriminate|].
    cbn [bounds] in Hbd. injection Hbd as <- <- <- <-. lia. }
  split; [exact GX|]. split; [exact GY|]. intros t Htt.
  (* each path leaves frame t exactly once *)
  assert (CX : forall s, m = true -> 0 <= s <= S -> cell (g_px st) s t = prob (s, t) true).
  { intros s Em H. unfold cell. destruct (Z.eq_dec s S) as [->|]; [|rewrite GX; auto; unfold m in Em; lia].
    rewrite QX, PX. replace ((sb <=? S) && (S + 1 <=? se) && (tb <=? t) && (t - (if m then -1 else 0) <=? te)) with false by lia.
    rewrite OUTX by lia. destruct hb; reflexivity. }
  rewrite (sumf_ext _ (fun s => prob (s, t) false + if m then prob (s, t) true else 0)%R).
  2:{ intros s Hs. apply in_zrange in Hs. f_equal; [unfold cell; now rewrite GY by lia|]. destruct m eqn:Em; [|reflexivity]. apply CX; auto. lia. }
  unfold prob, posterior, mass.
  set (W := fun l => expo (weight m x y (sb, tb) l)).
  set (ind := fun l s => ((if uses m (sb, tb) l (s, t) false then 1 else 0) + (if m && uses m (sb, tb) l (s, t) true then 1 else 0))%R).
  rewrite (sumf_ext _ (fun s => sumf (fun l => W l / total m x y (sb, tb) L * ind l s)%R L)).
  2:{ intros s _. rewrite !sumf_filter.
      assert (IE : forall q, (sumf (fun a => if uses m (sb, tb) a (s, t) q then expo (weight m x y (sb, tb) a) else 0) L / total m x y (sb, tb) L)%R =
                   sumf (fun l => W l / total m x y (sb, tb) L * (if uses m (sb, tb) l (s, t) q then 1 else 0))%R L).
      { intros q. unfold Rdiv at 1. rewrite Rmult_comm, <- sumf_scale. apply sumf_ext. intros l _. unfold W.
        destruct (uses m (sb, tb) l (s, t) q); field; lra. }
      rewrite !IE. unfold ind. destruct m; cbn [andb].
      - rewrite <- sumf_plus. apply sumf_ext. intros l _. ring.
      - rewrite Rplus_0_r. apply sumf_ext. intros l _. ring. }
  rewrite sumf_swap. rewrite (sumf_ext _ (fun l => / total m x y (sb, tb) L * W l)%R).
  - rewrite sumf_scale. change (sumf W L) with (total m x y (sb, tb) L). field. lra.
  - intros l Hl. apply HL in Hl.
    rewrite (sumf_scale (fun s => ind l s) (W l / total m x y (sb, tb) L)%R). unfold ind. rewrite leave_once.
    + field. lra.
    + apply NoDup_zrange.
    + rewrite Hl. cbn [fst snd]. lia.
    + rewrite Hl. cbn [fst snd]. intros s Hs. apply in_zrange. lia.
Qed.
Print Assumptions C46_gradients.

(** ** Instances *)
(** Two symbols, two frames; one transition is forbidden.  The hypotheses of
    C45 and C46 hold and the sum has five non-zero terms. *)
Example C45_ex : exists px py L,
  shape3 1 2 3 px = true /\ shape3 1 3 2 py = true /\ bounds_ok 1 2 2 None /\
  all_paths false (0, 0) (2, 2) L /\ length L = 6%nat /\
  exists x y, rd px 0 = Some x /\ rd py 0 = Some y /\ (0 < total false x y (0%Z, 0%Z) L)%R /\ total false x y (0, 0) L = 5%R.
Proof.
  exists [[[Some 0%R; Some 0%R; Some 0%R]; [None; Some 0%R; Some 0%R]]],
         [[[Some 0%R; Some 0%R]; [Some 0%R; Some 0%R]; [Some 0%R; Some 0%R]]], (paths false (0, 0) (2, 2)).
  split; [reflexivity|]. split; [reflexivity|]. split; [exact I|]. split; [apply paths_ok|]. split; [reflexivity|].
  do 2 eexists. split; [reflexivity|]. split; [reflexivity|].
  match goal with |- (0 < ?t)%R /\ _ => assert (E : t = 5%R) end.
  { cbv -[Rplus IZR exp]. rewrite !Rplus_0_r, exp_0. lra. }
  rewrite E. split; [lra|reflexivity].
Qed.

(** C46 needs a path of positive probability: when every path of an utterance
    has probability zero (total score -inf), the occupation probabilities
    returned are not all zero.  Here the only symbol is forbidden everywhere,
    yet the gradient of the forbidden transition px[0][0] is 1. *)
Theorem C46_no_path_refuted : exists px py res ans g,
  shape3 1 1 2 px = true /\ shape3 1 2 1 py = true /\
  mutual_information_grads lzero lninf ladd (logadd None) lderiv 1 1 2 1 px py None = Some res /\
  rd res 0 = Some (ans, g) /\ ans = None /\
  (exists x, rd px 0 = Some x /\ rd2 x 0 0 = Some None) /\
  exists v, g_px g 0 0 = Some v /\ v = 1%R.
Proof.
  exists [[[None; None]]], [[[Some 0%R]; [Some 0%R]]].
  eexists _, _, _. split; [reflexivity|]. split; [reflexivity|]. split; [cbv -[Rmult Rplus Rminus IZR exp]; reflexivity|].
  split; [reflexivity|]. split; [reflexivity|]. split; [eexists; split; reflexivity|].
  eexists. split; [reflexivity|]. lra.
Qed.
Print Assumptions C46_no_path_refuted.

(** ** C44: the pruned loss *)
Lemma keptb_iff rg s t : keptb rg s t = true <-> kept rg s t.
Proof.
  unfold keptb, kept. destruct (rd rg t) as [row|]; [|split; [discriminate|intros (? & ? & _); discriminate]].
  rewrite existsb_exists. split.
  - intros (x & H & E). exists row. split; auto. now replace s with x by lia.
  - intros (row' & E & H). injection E as <-. exists s. split; auto. lia.
Qed.

Lemma masked_weight k S T rg p f l : masked None k S T rg p f -> forall c,
  0 <= fst c -> 0 <= snd c ->
  fst (walk (negb (is_reg k)) c l) <= S -> snd (walk (negb (is_reg k)) c l) <= T ->
  expo (weight (negb (is_reg k)) (fst p) (snd p) c l) =
  if stays k rg c l then expo (weight (negb (is_reg k)) (fst f) (snd f) c l) else 0%R.
Proof.
  intros (_ & _ & MX & MY). induction l as [|x l IH]; intros (s, t) H1 H2 H3 H4; [reflexivity|].
  rewrite walk_cons in H3, H4. cbn [weight stays]. rewrite !expo_ladd. cbn [fst snd] in *.
  pose proof (walk_eq (negb (is_reg k)) l (move (negb (is_reg k)) (s, t) x)) as WE. pose proof (nT_nonneg l). pose proof (nF_nonneg l).
  assert (M0 : 0 <= fst (move (negb (is_reg k)) (s, t) x) /\ 0 <= snd (move (negb (is_reg k)) (s, t) x)).
  { destruct x, k; cbn [is_reg negb move fst snd]; lia. }
  rewrite (IH (move (negb (is_reg k)) (s, t) x)) by (auto; lia).
  assert (MV : fst (move (negb (is_reg k)) (s, t) x) <= S /\ snd (move (negb (is_reg k)) (s, t) x) <= T).
  { rewrite WE in H3, H4. cbn [fst snd] in H3, H4. destruct (negb (is_reg k)); lia. }
  set (okb := keptb rg s t && match k with Constrained => if x then keptb rg (s + 1) t else true | _ => true end).
  assert (E : expo (edge (fst p) (snd p) (s, t) x) = if okb then expo (edge (fst f) (snd f) (s, t) x) else 0%R).
  { destruct x; cbn [edge].
    - destruct (MX s t) as (v & Ev & V1 & V2). { cbn [move fst snd] in MV. lia. } { destruct k; cbn [is_reg negb move fst snd] in MV; lia. }
      rewrite (rd2_entry _ _ _ _ Ev). destruct okb eqn:EO; unfold okb in EO.
      + apply andb_prop in EO as (E1 & E2). apply keptb_iff in E1.
        rewrite (rd2_entry (fst f) s t v); [reflexivity|]. apply V1. split; [exact E1|]. intros ->. now apply keptb_iff.
      + rewrite V2; [reflexivity|]. intros (K1 & K2). apply keptb_iff in K1. rewrite K1 in EO. cbn [andb] in EO. destruct k; try discriminate.
        specialize (K2 eq_refl). apply keptb_iff in K2. congruence.
    - destruct (MY s t) as (v & Ev & V1 & V2). { cbn [move fst snd] in MV. lia. } { cbn [move fst snd] in MV. lia. }
      rewrite (rd2_entry _ _ _ _ Ev).
      assert (okb = keptb rg s t) as -> by (unfold okb; destruct k; now rewrite andb_true_r).
      destruct (keptb rg s t) eqn:EO.
      + apply keptb_iff in EO. rewrite (rd2_entry (snd f) s t v); [reflexivity|]. auto.
      + rewrite V2; [reflexivity|]. intros K. apply keptb_iff in K. congruence. }
  rewrite E. destruct okb; cbn [andb]; [|lra]. destruct (stays k rg _ l); lra.
Qed.

(** C44.  The pruned loss: the score that rnnt_loss_pruned negates is the log
    of the sum, over exactly the alignments that stay in the windows, of their
    probabilities computed from the full (unpruned) log-probabilities. *)
Theorem C44_pruned_loss : forall vsub lse k B T S r step C
    (full pruned : list (list (list (list (option R))))) symbols ranges term boundary,
  0 <= B -> 0 <= T -> 0 <= S -> 1 <= r <= S + 1 ->
  shape4 B T (S + 1) C full = true -> shape4 B T r C pruned = true ->
  shape3 B T r ranges = true -> shape2 B S symbols = true ->
  Forall (windows S T r step) ranges -> gathered ranges pruned full ->
  Forall (Forall (fun c => 0 <= c < C)) symbols -> 0 <= term < C ->
  bounds_ok B S T boundary ->
  match boundary with
  | None => k <> Regular -> S <= T
  | Some bs => k <> Regular -> Forall (fun b => b_S b <= b_T b) bs
  end ->
  let T1 := match k with Regular => T + 1 | _ => T end in
  exists lp lf res,
    get_rnnt_logprobs_pruned lninf ladd vsub lse k B T r C S pruned symbols ranges term boundary = Some lp /\
    get_rnnt_logprobs_joint lninf ladd vsub lse k B T (S + 1) C full symbols term boundary = Some lf /\
    mutual_information_recursion lzero lninf ladd (logadd None) B S T1 T (map fst lp) (map snd lp) boundary = Some res /\
    forall b rg pxf pyf sb tb se te L, rd ranges b = Some rg -> rd lf b = Some (pxf, pyf) -> bounds S T boundary b = Some (sb, tb, se, te) ->
      all_paths (negb (is_reg k)) (sb, tb) (se, te) L ->
      exists ans p, rd res b = Some (ans, p) /\
        expo ans = total (negb (is_reg k)) pxf pyf (sb, tb) (filter (stays k rg (sb, tb)) L).
Proof.
  intros vsub lse k B T S r step C full pruned symbols ranges term boundary HB HT HS Hr SF SP SR SS WD GA SC TC BO BK T1.
  destruct (C44_pruned_logprobs (option R) lninf ladd vsub lse k B T S r step C full pruned symbols ranges term boundary)
    as (lp & lf & E1 & E2 & L1 & L2 & MM); auto.
  { intros _ x. destruct x; auto. }
  { destruct boundary as [bs|]; [|exact BK]. destruct BO as (BL & BF). split; auto. apply Forall_forall. intros (((sb, tb), se), te) Hb.
    specialize (BF _ _ _ _ Hb). change (b_T (sb, tb, se, te)) with te. split; [lia|]. intros Hk. specialize (BK Hk). rewrite Forall_forall in BK. now apply BK. }
  destruct (shape3_ok _ _ _ _ SR) as (R1 & _).
  assert (SH : forall b p, rd lp b = Some p -> shape2 S T1 (fst p) = true /\ shape2 (S + 1) T (snd p) = true).
  { intros b p Hp. pose proof (rd_Some_bound _ _ _ Hp). destruct (rd_in_bound ranges b) as (rg & Hrg); [lia|].
    destruct (rd_in_bound lf b) as (f & Hf); [lia|]. destruct (MM b rg p f Hrg Hp Hf) as (A1 & A2 & _). auto. }
  assert (SH3 : shape3 B S T1 (map fst lp) = true /\ shape3 B (S + 1) T (map snd lp) = true).
  { unfold shape3. rewrite !zlen_map, L1, Z.eqb_refl. cbn [andb]. split; apply forallb_forall; intros x Hx; apply in_map_iff in Hx as (p & <- & Hp);
    apply In_rd in Hp as (b & _ & Hp); apply (SH b p Hp). }
  destruct SH3 as (SX & SY).
  assert (EM : (T1 =? T) = negb (is_reg k)) by (unfold T1; destruct k; cbn [is_reg negb]; lia).
  destruct (C45_mutual_information B S T1 T (map fst lp) (map snd lp) boundary) as (res & ER & EL & Q); auto.
  { unfold T1. destruct k; auto. }
  exists lp, lf, res. do 3 (split; [assumption|]).
  intros b rg pxf pyf sb tb se te L Hrg Hf Hbd HL. pose proof (rd_Some_bound _ _ _ Hf) as Bf.
  destruct (rd_in_bound lp b) as (p & Hp); [lia|].
  destruct (Q b (fst p) (snd p) sb tb se te) as (ans & pm & Hr1 & Q1 & _); auto; try (rewrite rd_map, Hp; reflexivity).
  exists ans, pm. split; [exact Hr1|]. rewrite EM in Q1. rewrite (Q1 L HL). unfold total. rewrite sumf_filter. apply sumf_ext. intros l Hl.
  apply HL in Hl. pose proof (MM b rg p (pxf, pyf) Hrg Hp Hf) as MK.
  assert (BR : (0 <= sb <= se /\ se <= S) /\ (0 <= tb <= te /\ te <= T)).
  { unfold bounds in Hbd. destruct boundary as [bs|]; [|injection Hbd as <- <- <- <-; lia]. destruct BO as (_ & BF). apply rd_In, BF in Hbd. lia. }
  apply (masked_weight k S T rg p (pxf, pyf) l MK (sb, tb)); cbn [fst snd]; [lia|lia| |]; rewrite Hl; cbn [fst snd]; lia.
Qed.
Print Assumptions C44_pruned_loss.

(** Whatever is accepted is well-shaped: a result is only returned when px and
    py have the documented shapes and every boundary lies inside the lattice. *)
Theorem C45_checks : forall cut B S T1 T px py boundary res,
  mutual_information_recursion lzero lninf ladd (logadd cut) B S T1 T px py boundary = Some res ->
  (T1 = T \/ T1 = T + 1) /\ zlen px = B /\ zlen py = B /\
  (forall b x i row, rd px b = Some x -> rd x i = Some row -> zlen x = S /\ zlen row = T1) /\
  (forall b y i row, rd py b = Some y -> rd y i = Some row -> zlen y = S + 1 /\ zlen row = T) /\
  bounds_ok B S T boundary.
Proof.
  intros cut B S T1 T px py boundary res. unfold mutual_information_recursion.
  destruct ((T1 =? T) || (T1 =? T + 1)) eqn:E1; [|discriminate].
  destruct (shape3 B S T1 px) eqn:E2; [|discriminate]. destruct (shape3 B (S + 1) T py) eqn:E3; [|discriminate]. cbn [andb].
  destruct (match boundary with None => true | Some bs => (zlen bs =? B) && forallb (boundary_ok S T) bs end) eqn:E4; [|discriminate].
  intros _. destruct (shape3_ok _ _ _ _ E2) as (X1 & X2). destruct (shape3_ok _ _ _ _ E3) as (Y1 & Y2).
  split; [lia|]. split; [auto|]. split; [auto|].
  assert (G : forall n m (x : list (list (option R))) i row, shape2 n m x = true -> rd x i = Some row -> zlen x = n /\ zlen row = m).
  { intros n m x i row H Hr. unfold shape2 in H. apply andb_true_iff in H as (H1 & H2). split; [lia|].
    rewrite forallb_forall in H2. apply rd_In, H2 in Hr. unfold shape1 in Hr. lia. }
  assert (G3 : forall n m l (x : list (list (list (option R)))) b r, shape3 n m l x = true -> rd x b = Some r -> shape2 m l r = true).
  { intros n m l x b r H Hr. unfold shape3 in H. apply andb_true_iff in H as (H1 & H2). rewrite forallb_forall in H2. apply H2. eapply rd_In; eauto. }
  split; [intros; eapply G; eauto|]. split; [intros; eapply G; eauto|].
  destruct boundary as [bs|]; [|exact I]. apply andb_true_iff in E4 as (E4 & E5). split; [lia|]. rewrite forallb_forall in E5.
  intros sb tb se te H. apply E5 in H. unfold boundary_ok in H. lia.
Qed.
Print Assumptions C45_checks.
