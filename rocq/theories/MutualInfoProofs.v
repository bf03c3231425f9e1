(** * Proofs: the mutual-information recursion. *)
From Coq Require Import ZArith List Lia Bool Reals Lra Permutation.
From Coq Require Import ZifyBool ZifyNat.
From Verif Require Import Base OpsModel RnntModel RnntProofs LogReal MutualInfoModel MutualInfoSpec.
Import ListNotations.
Open Scope R_scope.

(** ** Log-probabilities *)
Lemma expo_nonneg x : 0 <= expo x.
Proof. destruct x; cbn; [left; apply exp_pos|lra]. Qed.
Lemma expo_ladd x y : expo (ladd x y) = expo x * expo y.
Proof. destruct x, y; cbn; try lra. apply exp_plus. Qed.
Lemma expo_zero : expo lzero = 1.
Proof. cbn. apply exp_0. Qed.
Lemma expo_pos_Some x : 0 < expo x -> exists r, x = Some r.
Proof. destruct x; cbn; [eauto|lra]. Qed.
Lemma expo_0_None x : expo x = 0 -> x = None.
Proof. destruct x as [r|]; cbn; auto. pose proof (exp_pos r). lra. Qed.

(** what the cut-off of LogAdd may drop, relatively *)
Definition eps (cutoff : option R) : R := match cutoff with None => 0 | Some c => exp c end.
Lemma eps_nonneg c : 0 <= eps c.
Proof. destruct c; cbn; [left; apply exp_pos|lra]. Qed.

Lemma logadd_bounds c x y : expo (logadd c x y) <= expo x + expo y <= (1 + eps c) * expo (logadd c x y).
Proof.
  pose proof (eps_nonneg c) as E0.
  destruct x as [a|], y as [b|]; unfold logadd; cbn [expo]; [|pose proof (exp_pos a); nra|pose proof (exp_pos b); nra|nra].
  assert (G : forall m d, (d <= 0) -> expo (if above c d then Some (m + ln (1 + exp d)) else Some m) <= exp m + exp (m + d) <=
              (1 + eps c) * expo (if above c d then Some (m + ln (1 + exp d)) else Some m)).
  { intros m d Hd. pose proof (exp_pos m). pose proof (exp_pos d). destruct (above c d) eqn:E; cbn [expo].
    - rewrite !exp_plus, exp_ln by lra.
      assert (P1 : 0 <= exp m * (1 + exp d)) by (apply Rmult_le_pos; lra).
      pose proof (Rmult_le_pos _ _ E0 P1). lra.
    - destruct c as [c|]; cbn in E |- *; [|discriminate]. destruct (Rle_dec c d) as [|Hc]; [discriminate|].
      rewrite exp_plus. assert (exp d <= exp c) by (left; apply exp_increasing; lra). nra. }
  destruct (Rlt_dec a b) as [H|H].
  - specialize (G b (a - b) ltac:(lra)). replace (b + (a - b)) with a in G by lra. lra.
  - specialize (G a (b - a) ltac:(lra)). replace (a + (b - a)) with b in G by lra. lra.
Qed.
Lemma logadd_exact x y : expo (logadd None x y) = expo x + expo y.
Proof. pose proof (logadd_bounds None x y) as H. unfold eps in H. lra. Qed.

(** ** Sums over lists *)
Lemma sumf_cons {A} (f : A -> R) a l : sumf f (a :: l) = f a + sumf f l.
Proof. reflexivity. Qed.
Lemma sumf_nil {A} (f : A -> R) : sumf f [] = 0.
Proof. reflexivity. Qed.
Lemma sumf_app {A} (f : A -> R) l l' : sumf f (l ++ l') = sumf f l + sumf f l'.
Proof. induction l as [|a l IH]; cbn [app]; [rewrite sumf_nil; lra|]. rewrite !sumf_cons, IH. lra. Qed.
Lemma sumf_map {A B} (f : B -> R) (g : A -> B) l : sumf f (map g l) = sumf (fun a => f (g a)) l.
Proof. induction l as [|a l IH]; [reflexivity|]. cbn [map]. rewrite !sumf_cons, IH. reflexivity. Qed.
Lemma sumf_ext {A} (f g : A -> R) l : (forall a, In a l -> f a = g a) -> sumf f l = sumf g l.
Proof.
  induction l as [|a l IH]; intros H; [reflexivity|]. rewrite !sumf_cons, IH, (H a); [reflexivity|now left|].
  intros b Hb. apply H. now right.
Qed.
Lemma sumf_scale {A} (f : A -> R) k l : sumf (fun a => k * f a) l = k * sumf f l.
Proof. induction l as [|a l IH]; [rewrite ?sumf_nil; lra|]. rewrite !sumf_cons, IH. lra. Qed.
Lemma sumf_plus {A} (f g : A -> R) l : sumf (fun a => f a + g a) l = sumf f l + sumf g l.
Proof. induction l as [|a l IH]; [rewrite ?sumf_nil; lra|]. rewrite !sumf_cons, IH. lra. Qed.
Lemma sumf_perm {A} (f : A -> R) l l' : Permutation l l' -> sumf f l = sumf f l'.
Proof. induction 1; rewrite ?sumf_cons; lra. Qed.
Lemma sumf_nonneg {A} (f : A -> R) l : (forall a, 0 <= f a) -> 0 <= sumf f l.
Proof. intros H. induction l as [|a l IH]; [rewrite ?sumf_nil; lra|]. rewrite sumf_cons. specialize (H a). lra. Qed.
Lemma sumf_0 {A} (f : A -> R) l : (forall a, In a l -> f a = 0) -> sumf f l = 0.
Proof. intros H. rewrite (sumf_ext f (fun _ => 0)) by auto. clear H. induction l as [|a l IH]; [reflexivity|]. rewrite sumf_cons. lra. Qed.
Lemma sumf_swap {A B} (f : A -> B -> R) l l' : sumf (fun a => sumf (f a) l') l = sumf (fun b => sumf (fun a => f a b) l) l'.
Proof.
  induction l as [|a l IH]; cbn [sumf fold_right]; [symmetry; apply sumf_0; reflexivity|].
  rewrite (sumf_ext (fun b => sumf (fun a => f a b) (a :: l)) (fun b => f a b + sumf (fun a => f a b) l)) by reflexivity.
  rewrite sumf_plus, <- IH. reflexivity.
Qed.
Lemma sumf_filter {A} (f : A -> R) P l : sumf f (filter P l) = sumf (fun a => if P a then f a else 0) l.
Proof. induction l as [|a l IH]; [reflexivity|]. cbn [filter]. rewrite sumf_cons. destruct (P a); rewrite ?sumf_cons, IH; lra. Qed.
Lemma sumf_prod {A B C} (f : A -> R) (g : B -> R) (h : C -> R) (k : A -> B -> C) l l' :
  (forall a b, In a l -> In b l' -> h (k a b) = f a * g b) ->
  sumf h (flat_map (fun a => map (k a) l') l) = sumf f l * sumf g l'.
Proof.
  intros H. induction l as [|a l IH]; cbn [flat_map]; [rewrite !sumf_nil; lra|]. rewrite sumf_app, IH, sumf_cons.
  - rewrite sumf_map, (sumf_ext _ (fun b => f a * g b)), sumf_scale; [lra|]. intros b Hb. apply H; auto. now left.
  - intros a' b Ha Hb. apply H; auto. now right.
Qed.

Open Scope Z_scope.
(** ** Enumerating paths *)
Fixpoint nT (l : list bool) : Z := match l with [] => 0 | b :: l' => (if b then 1 else 0) + nT l' end.
Fixpoint nF (l : list bool) : Z := match l with [] => 0 | b :: l' => (if b then 0 else 1) + nF l' end.
Lemma nT_nonneg l : 0 <= nT l. Proof. induction l as [|[] l IH]; cbn [nT]; lia. Qed.
Lemma nF_nonneg l : 0 <= nF l. Proof. induction l as [|[] l IH]; cbn [nF]; lia. Qed.
Lemma walk_cons m c x l : walk m c (x :: l) = walk m (move m c x) l. Proof. reflexivity. Qed.
Lemma walk_app m c l l' : walk m c (l ++ l') = walk m (walk m c l) l'.
Proof. unfold walk. apply fold_left_app. Qed.
Lemma walk_eq m l : forall c, walk m c l = (fst c + nT l, snd c + nF l + if m then nT l else 0).
Proof.
  induction l as [|x l IH]; intros (s, t).
  - cbn. f_equal; [lia|destruct m; lia].
  - rewrite walk_cons, IH. cbn [nT nF]. destruct x, m; cbn [move fst snd]; f_equal; lia.
Qed.
Lemma no_steps l : nT l = 0 -> nF l = 0 -> l = [].
Proof. destruct l as [|[] l]; cbn [nT nF]; auto; pose proof (nT_nonneg l); pose proof (nF_nonneg l); lia. Qed.
Lemma walk_self m c l : walk m c l = c -> l = [].
Proof.
  rewrite walk_eq. destruct c as (s, t). cbn [fst snd]. intros E. injection E as E1 E2. pose proof (nF_nonneg l).
  apply no_steps; [lia|]. destruct m; lia.
Qed.

Fixpoint inter (a : nat) : nat -> list (list bool) :=
  fix f b := match a, b with
             | O, _ => [repeat false b]
             | S a', O => [repeat true a]
             | S a', S b' => map (cons true) (inter a' b) ++ map (cons false) (f b')
             end.
Lemma inter_SS a b : inter (S a) (S b) = map (cons true) (inter a (S b)) ++ map (cons false) (inter (S a) b).
Proof. reflexivity. Qed.
Lemma nT_repeat_false n : nT (repeat false n) = 0. Proof. induction n; cbn [repeat nT]; lia. Qed.
Lemma nF_repeat_false n : nF (repeat false n) = Z.of_nat n. Proof. induction n; cbn [repeat nF]; lia. Qed.
Lemma nT_repeat_true n : nT (repeat true n) = Z.of_nat n. Proof. induction n; cbn [repeat nT]; lia. Qed.
Lemma nF_repeat_true n : nF (repeat true n) = 0. Proof. induction n; cbn [repeat nF]; lia. Qed.
Lemma all_false l : nT l = 0 -> l = repeat false (Z.to_nat (nF l)).
Proof.
  induction l as [|[] l IH]; cbn [nT nF]; intros H; [reflexivity| |]; pose proof (nT_nonneg l); pose proof (nF_nonneg l); [lia|].
  replace (Z.to_nat (1 + nF l)) with (S (Z.to_nat (nF l))) by lia. cbn [repeat]. f_equal. apply IH. lia.
Qed.
Lemma all_true l : nF l = 0 -> l = repeat true (Z.to_nat (nT l)).
Proof.
  induction l as [|[] l IH]; cbn [nT nF]; intros H; [reflexivity| |]; pose proof (nT_nonneg l); pose proof (nF_nonneg l); [ |lia].
  replace (Z.to_nat (1 + nT l)) with (S (Z.to_nat (nT l))) by lia. cbn [repeat]. f_equal. apply IH. lia.
Qed.
Lemma inter_spec a : forall b l, In l (inter a b) <-> nT l = Z.of_nat a /\ nF l = Z.of_nat b.
Proof.
  induction a as [|a IHa].
  - intros b l. assert (inter 0 b = [repeat false b]) as -> by (destruct b; reflexivity). cbn [In]. split.
    + intros [<-|[]]. rewrite nT_repeat_false, nF_repeat_false. auto.
    + intros (H1 & H2). left. rewrite (all_false l) by lia. f_equal. lia.
  - induction b as [|b IHb]; intros l.
    + change (inter (S a) 0) with [repeat true (S a)]. cbn [In]. split.
      * intros [<-|[]]. rewrite nT_repeat_true, nF_repeat_true. auto.
      * intros (H1 & H2). left. rewrite (all_true l) by lia. f_equal. lia.
    + rewrite inter_SS, in_app_iff, !in_map_iff. split.
      * intros [(l' & <- & H)|(l' & <- & H)]; [apply IHa in H|apply IHb in H]; cbn [nT nF]; lia.
      * destruct l as [|[] l]; cbn [nT nF]; intros (H1 & H2); [lia| |]; pose proof (nT_nonneg l); pose proof (nF_nonneg l).
        -- left. exists l. split; auto. apply IHa. lia.
        -- right. exists l. split; auto. apply IHb. lia.
Qed.
Lemma NoDup_2 (x : bool) (l1 l2 : list (list bool)) : NoDup l1 -> NoDup l2 -> NoDup (map (cons true) l1 ++ map (cons false) l2).
Proof.
  intros H1 H2. assert (M : forall y l, NoDup l -> NoDup (map (cons (y : bool)) l)).
  { intros y l H. apply FinFun.Injective_map_NoDup; auto. intros u v E. now injection E. }
  assert (G : forall l, (forall x, In x l -> ~ In x (map (cons false) l2)) -> NoDup l -> NoDup (l ++ map (cons false) l2)).
  { induction l as [|y l IH]; intros D N; [apply M; auto|]. inversion N; subst. cbn [app]. constructor.
    - rewrite in_app_iff. intros [K|K]; [auto|]. apply (D y); auto. now left.
    - apply IH; auto. intros z Hz. apply D. now right. }
  apply G; [|apply M; auto]. intros z Hz Hz'. apply in_map_iff in Hz as (u & <- & _). apply in_map_iff in Hz' as (v & E & _). discriminate.
Qed.
Lemma inter_NoDup a : forall b, NoDup (inter a b).
Proof.
  induction a as [|a IHa].
  - intros b. assert (inter 0 b = [repeat false b]) as -> by (destruct b; reflexivity). constructor; [intros []|constructor].
  - induction b as [|b IHb]; [constructor; [intros []|constructor]|]. rewrite inter_SS. apply NoDup_2; auto using true.
Qed.

Definition paths (m : bool) (c d : Z * Z) : list (list bool) :=
  let a := fst d - fst c in
  let b := snd d - snd c - (if m then a else 0) in
  if (0 <=? a) && (0 <=? b) then inter (Z.to_nat a) (Z.to_nat b) else [].
Lemma paths_ok m c d : all_paths m c d (paths m c d).
Proof.
  destruct c as (s, t), d as (s', t'). unfold paths. cbn [fst snd]. split.
  - match goal with |- context [if ?b then _ else _] => destruct b end; [apply inter_NoDup|constructor].
  - intros l. rewrite walk_eq. cbn [fst snd]. pose proof (nT_nonneg l). pose proof (nF_nonneg l).
    match goal with |- context [if ?b then inter _ _ else _] => destruct b eqn:E end.
    + rewrite inter_spec. split.
      * intros (H1 & H2). f_equal; [lia|destruct m; lia].
      * intros H1. injection H1 as E1 E2. split; [lia|destruct m; lia].
    + split; [intros []|]. intros H1. injection H1 as E1 E2. destruct m; lia.
Qed.

Section W.
Context (m : bool) (px py : list (list (option R))).
Let W c l := expo (weight m px py c l).
Definition tot (c d : Z * Z) : R := sumf (W c) (paths m c d).

Lemma tot_all c d L : all_paths m c d L -> sumf (W c) L = tot c d.
Proof.
  intros (N & H). apply sumf_perm. destruct (paths_ok m c d) as (N' & H'). apply NoDup_Permutation; auto.
  intros l. rewrite H, H'. reflexivity.
Qed.
Lemma tot_nonneg c d : (0 <= tot c d)%R.
Proof. apply sumf_nonneg. intros. apply expo_nonneg. Qed.
Lemma W_cons c x l : W c (x :: l) = (expo (edge px py c x) * W (move m c x) l)%R.
Proof. unfold W. cbn [weight]. apply expo_ladd. Qed.
Lemma W_app c l l' : W c (l ++ l') = (W c l * W (walk m c l) l')%R.
Proof.
  revert c. induction l as [|x l IH]; intros c.
  - cbn [app walk fold_left]. unfold W at 2. cbn [weight]. rewrite expo_zero. lra.
  - cbn [app]. rewrite !W_cons, IH, walk_cons. lra.
Qed.
Lemma tot_self c : tot c c = 1%R.
Proof.
  rewrite <- (tot_all c c [[]]).
  - rewrite sumf_cons. unfold W. cbn [weight]. rewrite expo_zero. cbn. lra.
  - split; [constructor; [intros []|constructor]|]. intros l. split; [intros [<-|[]]; reflexivity|]. intros H. left. symmetry. eapply walk_self; eauto.
Qed.
Lemma tot_0 c d : (fst d < fst c \/ snd d < snd c \/ (m = true /\ snd d - snd c < fst d - fst c)) -> tot c d = 0%R.
Proof.
  intros H. unfold tot. assert (paths m c d = []) as ->; [|reflexivity]. unfold paths.
  destruct ((0 <=? fst d - fst c) && _) eqn:E; [|reflexivity]. destruct m; destruct H as [H|[H|(H & H')]]; try discriminate; lia.
Qed.
Lemma tot_front c d : c <> d ->
  tot c d = (expo (edge px py c true) * tot (move m c true) d + expo (edge px py c false) * tot (move m c false) d)%R.
Proof.
  intros H. rewrite <- (tot_all c d (map (cons true) (paths m (move m c true) d) ++ map (cons false) (paths m (move m c false) d))).
  - rewrite sumf_app, !sumf_map. unfold tot. rewrite <- !sumf_scale. f_equal; apply sumf_ext; intros l _; apply W_cons.
  - destruct (paths_ok m (move m c true) d) as (N1 & H1). destruct (paths_ok m (move m c false) d) as (N2 & H2). split; [apply NoDup_2; auto using true|].
    intros l. rewrite in_app_iff, !in_map_iff. split.
    + intros [(l' & <- & K)|(l' & <- & K)]; [apply H1 in K|apply H2 in K]; exact K.
    + intros K. destruct l as [|[] l]; [cbn in K; contradiction|left|right]; exists l; (split; [reflexivity|]); [apply H1|apply H2]; exact K.
Qed.
(** the position before a move *)
Definition before (d : Z * Z) (x : bool) : Z * Z :=
  if x then (fst d - 1, if m then snd d - 1 else snd d) else (fst d, snd d - 1).
Lemma before_move d x c : move m c x = d <-> c = before d x.
Proof.
  destruct c as (s, t), d as (s', t'), x; unfold move, before; cbn [fst snd]; split; intros E; injection E as E1 E2; f_equal; destruct m; lia.
Qed.
Lemma tot_back c d : c <> d ->
  tot c d = (tot c (before d true) * expo (edge px py (before d true) true) + tot c (before d false) * expo (edge px py (before d false) false))%R.
Proof.
  intros H. set (sn := fun (x : bool) l => l ++ [x]).
  rewrite <- (tot_all c d (map (sn true) (paths m c (before d true)) ++ map (sn false) (paths m c (before d false)))).
  - rewrite sumf_app, !sumf_map. unfold tot. f_equal.
    + rewrite Rmult_comm, <- sumf_scale. apply sumf_ext. intros l Hl. destruct (paths_ok m c (before d true)) as (_ & K). apply K in Hl.
      unfold sn. rewrite W_app, Hl, W_cons. unfold W at 2. cbn [weight]. rewrite expo_zero. lra.
    + rewrite Rmult_comm, <- sumf_scale. apply sumf_ext. intros l Hl. destruct (paths_ok m c (before d false)) as (_ & K). apply K in Hl.
      unfold sn. rewrite W_app, Hl, W_cons. unfold W at 2. cbn [weight]. rewrite expo_zero. lra.
  - destruct (paths_ok m c (before d true)) as (N1 & H1). destruct (paths_ok m c (before d false)) as (N2 & H2).
    assert (MV : forall l x, walk m c (l ++ [x]) = d <-> walk m c l = before d x).
    { intros l x. rewrite walk_app. cbn. apply before_move. }
    split.
    + assert (IJ : forall x l, NoDup l -> NoDup (map (sn x) l)).
      { intros x l Hl. apply FinFun.Injective_map_NoDup; auto. intros u v E. unfold sn in E. now apply app_inj_tail in E. }
      assert (G : forall l, (forall x, In x l -> ~ In x (map (sn false) (paths m c (before d false)))) -> NoDup l ->
                   NoDup (l ++ map (sn false) (paths m c (before d false)))).
      { induction l as [|y l IH]; intros D N; [apply IJ; auto|]. inversion N; subst. cbn [app]. constructor.
        - rewrite in_app_iff. intros [K|K]; [auto|]. apply (D y); auto. now left.
        - apply IH; auto. intros z Hz. apply D. now right. }
      apply G; [|apply IJ; auto]. intros z Hz Hz'. apply in_map_iff in Hz as (u & <- & _). apply in_map_iff in Hz' as (v & E & _).
      unfold sn in E. apply app_inj_tail in E as (_ & E). discriminate.
    + intros l. rewrite in_app_iff, !in_map_iff. split.
      * intros [(l' & <- & K)|(l' & <- & K)]; [apply H1 in K|apply H2 in K]; apply MV; exact K.
      * intros K. destruct (exists_last (l := l)) as (l' & x & E). { intros ->. cbn in K. contradiction. }
        rewrite E in *. apply MV in K. destruct x; [left|right]; exists l'; (split; [reflexivity|]); [apply H1|apply H2]; exact K.
Qed.
End W.

(** ** Loops *)
Lemma foldM_up {St} (f : St -> Z -> option St) (I : Z -> St -> Prop) lo hi st : lo <= hi -> I lo st ->
  (forall k st, lo < k <= hi -> I (k - 1) st -> exists st', f st k = Some st' /\ I k st') ->
  exists st', foldM f (up lo hi) st = Some st' /\ I hi st'.
Proof.
  intros H H0 HS. unfold up.
  assert (G : forall n, (Z.of_nat n <= hi - lo) -> exists st', foldM f (map (fun k => lo + 1 + k) (zrange (Z.of_nat n))) st = Some st' /\ I (lo + Z.of_nat n) st').
  { induction n as [|n IH]; intros Hn.
    - exists st. split; [reflexivity|]. now replace (lo + Z.of_nat 0) with lo by lia.
    - destruct IH as (st' & E & HI); [lia|]. replace (Z.of_nat (S n)) with (Z.of_nat n + 1) by lia.
      rewrite zrange_S, map_app by lia.
      assert (FA : forall l s, foldM f (map (fun k => lo + 1 + k) l ++ map (fun k => lo + 1 + k) [Z.of_nat n]) s =
        (s' <- foldM f (map (fun k => lo + 1 + k) l) s;; f s' (lo + 1 + Z.of_nat n))).
      { induction l as [|x l IHl]; intros s; cbn [map app foldM]; [destruct (f s (lo + 1 + Z.of_nat n)); reflexivity|].
        destruct (f s (lo + 1 + x)); [apply IHl|reflexivity]. }
      rewrite FA, E. destruct (HS (lo + 1 + Z.of_nat n) st') as (st2 & E2 & I2); [lia|now replace (lo + 1 + Z.of_nat n - 1) with (lo + Z.of_nat n) by lia|].
      exists st2. split; auto. now replace (lo + (Z.of_nat n + 1)) with (lo + 1 + Z.of_nat n) by lia. }
  destruct (G (Z.to_nat (hi - lo))) as (st' & E & HI); [lia|]. rewrite Z2Nat.id in * by lia. exists st'. split; auto. now replace hi with (lo + (hi - lo)) by lia.
Qed.
Lemma foldM_down {St} (f : St -> Z -> option St) (I : Z -> St -> Prop) lo hi st : lo <= hi -> I hi st ->
  (forall k st, lo < k <= hi -> I k st -> exists st', f st k = Some st' /\ I (k - 1) st') ->
  exists st', foldM f (down lo hi) st = Some st' /\ I lo st'.
Proof.
  intros H H0 HS.
  assert (E : forall l st, foldM f (map (fun k => hi - k) l) st = foldM (fun s k => f s (- k)) (map (fun k => - hi + k) l) st).
  { induction l as [|x l IH]; intros s; cbn [map foldM]; [reflexivity|]. replace (- (- hi + x)) with (hi - x) by lia. destruct (f s (hi - x)); auto. }
  unfold down. rewrite E.
  destruct (foldM_up (fun s k => f s (- (k - 1))) (fun k => I (- k)) (- hi) (- lo) st) as (st' & F & J); [lia|now rewrite Z.opp_involutive| |].
  - intros k s Hk Hs. destruct (HS (- (k - 1)) s) as (s' & E1 & E2); [lia|auto|]. exists s'. split; auto. now replace (- k) with (- (k - 1) - 1) by lia.
  - exists st'. rewrite Z.opp_involutive in J. split; auto. rewrite <- F. unfold up.
    replace (- lo - - hi) with (hi - lo) by lia. clear. revert st. induction (zrange (hi - lo)) as [|x l IH]; intros s; cbn [map foldM]; [reflexivity|].
    replace (- hi + 1 + x - 1) with (- hi + x) by lia. destruct (f s (- (- hi + x))); auto.
Qed.

(** ** The forward pass *)
Lemma rd2_entry (x : list (list (option R))) s t v : rd2 x s t = Some v -> entry x (s, t) = v.
Proof. unfold entry. cbn [fst snd]. now intros ->. Qed.

Section F.
Context (cut : option R) (m : bool) (S T : Z) (px py : list (list (option R))) (sb tb se te : Z).
Let T1 := if m then T else T + 1.
Let off := if m then -1 else 0.
Hypothesis HX : forall s t, 0 <= s < S -> 0 <= t < T1 -> exists v, rd2 px s t = Some v.
Hypothesis HY : forall s t, 0 <= s < S + 1 -> 0 <= t < T -> exists v, rd2 py s t = Some v.
Hypothesis Hs : 0 <= sb <= se /\ se <= S.
Hypothesis Ht : 0 <= tb <= te /\ te <= T.
Let A s t := tot m px py (sb, tb) (s, t).
Let e1 := (1 + eps cut)%R.
Definition fq (s t : Z) (v : option R) : Prop :=
  (expo v <= A s t <= e1 ^ (Z.to_nat (s - sb + (t - tb))) * expo v)%R.
Definition good (p : Z -> Z -> option (option R)) s t := exists v, p s t = Some v /\ fq s t v.

Lemma e1_ge : (1 <= e1)%R.
Proof. unfold e1. pose proof (eps_nonneg cut). lra. Qed.
Lemma pow_mono (a b : nat) : (a <= b)%nat -> (e1 ^ a <= e1 ^ b)%R.
Proof. intros. apply Rle_pow; auto. apply e1_ge. Qed.

Lemma fq_start : fq sb tb lzero.
Proof. unfold fq, A. rewrite tot_self, expo_zero. pose proof e1_ge. pose proof (pow_R1_Rle e1 (Z.to_nat (sb - sb + (tb - tb))) e1_ge). lra. Qed.
Lemma fq_mono s t s' t' v : s + t <= s' + t' -> fq s t v -> (expo v <= A s t <= e1 ^ (Z.to_nat (s' - sb + (t' - tb))) * expo v)%R.
Proof.
  intros H (H1 & H2). split; auto. eapply Rle_trans; [exact H2|]. apply Rmult_le_compat_r; [apply expo_nonneg|]. apply pow_mono. lia.
Qed.
Lemma fq_edge s t v e s' t' : fq s t v -> s + t <= s' + t' -> A s' t' = (A s t * expo e)%R -> fq s' t' (ladd v e).
Proof.
  intros H L E. destruct (fq_mono s t s' t' v L H) as (H1 & H2). unfold fq. rewrite E, expo_ladd. pose proof (expo_nonneg e). split.
  - apply Rmult_le_compat_r; auto.
  - rewrite <- Rmult_assoc. apply Rmult_le_compat_r; auto.
Qed.
Lemma fq_step s t v1 v2 : sb < s -> tb < t -> fq (s - 1) (t + off) v1 -> fq s (t - 1) v2 ->
  fq s t (logadd cut (ladd v1 (entry px (s - 1, t + off))) (ladd v2 (entry py (s, t - 1)))).
Proof.
  intros L1 L2 H1 H2.
  assert (E : A s t = Rplus (Rmult (A (s - 1) (t + off)) (expo (entry px (s - 1, t + off)))) (Rmult (A s (t - 1)) (expo (entry py (s, t - 1))))).
  { unfold A. rewrite tot_back by (intros E; injection E; lia). unfold before, off. cbn [fst snd edge]. assert (EO : (if m then t - 1 else t) = t + (if m then -1 else 0)) by (case m; lia). rewrite EO. reflexivity. }
  set (x := ladd v1 (entry px (s - 1, t + off))). set (y := ladd v2 (entry py (s, t - 1))).
  assert (O : -1 <= off <= 0) by (unfold off; case m; lia).
  destruct (Z_le_gt_dec 0 (s - 1 - sb + (t + off - tb))) as [Q|Q]; [|lia].
  assert (F : forall s' t' v e, s' + t' <= s + t - 1 -> fq s' t' v ->
     (expo (ladd v e) <= A s' t' * expo e <= e1 ^ (Z.to_nat (s - sb + (t - tb) - 1)) * expo (ladd v e))%R).
  { intros s' t' v e L (K1 & K2). rewrite expo_ladd. pose proof (expo_nonneg e). split; [apply Rmult_le_compat_r; auto|].
    rewrite <- Rmult_assoc. apply Rmult_le_compat_r; auto. eapply Rle_trans; [exact K2|]. apply Rmult_le_compat_r; [apply expo_nonneg|]. apply pow_mono. lia. }
  pose proof (F (s - 1) (t + off) v1 (entry px (s - 1, t + off)) ltac:(lia) H1) as (G1 & G2).
  pose proof (F s (t - 1) v2 (entry py (s, t - 1)) ltac:(lia) H2) as (G3 & G4).
  fold x in G1, G2. fold y in G3, G4. pose proof (logadd_bounds cut x y) as (B1 & B2). fold e1 in B2.
  unfold fq. rewrite E. split; [lra|].
  replace (Z.to_nat (s - sb + (t - tb))) with (Datatypes.S (Z.to_nat (s - sb + (t - tb) - 1))) by lia. cbn [pow].
  set (k := (e1 ^ Z.to_nat (s - sb + (t - tb) - 1))%R) in *. assert (0 <= k)%R by (apply pow_le; pose proof e1_ge; lra).
  apply Rle_trans with (k * (expo x + expo y))%R; [lra|].
  replace (e1 * k * expo (logadd cut x y))%R with (k * (e1 * expo (logadd cut x y)))%R by ring. apply Rmult_le_compat_l; lra.
Qed.

Lemma good_get p s t : 0 <= s <= S -> 0 <= t <= T -> good p s t -> exists v, mget (S + 1) (T + 1) p s t = Some v /\ fq s t v.
Proof. intros H1 H2 (v & E & Q). exists v. unfold mget, inb. replace ((0 <=? s) && (s <? S + 1) && (0 <=? t) && (t <? T + 1)) with true by lia. auto. Qed.
Lemma good_set p i j v : 0 <= i <= S -> 0 <= j <= T -> fq i j v ->
  exists p', mset (S + 1) (T + 1) p i j v = Some p' /\ good p' i j /\ forall s t, good p s t -> good p' s t.
Proof.
  intros H1 H2 Q. unfold mset, inb. replace ((0 <=? i) && (i <? S + 1) && (0 <=? j) && (j <? T + 1)) with true by lia.
  eexists. split; [reflexivity|]. split.
  - exists v. now rewrite !Z.eqb_refl.
  - intros s t (w & E & W). unfold good. destruct ((s =? i) && (t =? j)) eqn:B.
    + exists v. split; auto. assert (s = i) by lia. assert (t = j) by lia. now subst.
    + eauto.
Qed.

Theorem forward_ok :
  exists ans p, mi_forward lzero lninf ladd (logadd cut) m S T px py (sb, tb, se, te) = Some (ans, p) /\ fq se te ans /\
    forall s t, sb <= s <= se -> tb <= t <= te -> good p s t.
Proof.
  unfold mi_forward. fold off. cbv zeta.
  destruct (good_set (fun _ _ => None) sb tb lzero) as (p0 & -> & G0 & _); [lia|lia|apply fq_start|].
  assert (C : exists p1, (if m
      then foldM (fun p s => mset (S + 1) (T + 1) p s tb lninf) (up sb se) p0
      else foldM (fun p s => a <- mget (S + 1) (T + 1) p (s - 1) tb;; x <- rd2 px (s - 1) tb;; mset (S + 1) (T + 1) p s tb (ladd a x)) (up sb se) p0) = Some p1 /\
      forall s, sb <= s <= se -> good p1 s tb).
  { destruct (Bool.bool_dec m true) as [Em|Em].
    - rewrite Em. destruct (foldM_up (fun p s => mset (S + 1) (T + 1) p s tb lninf) (fun k p => forall s, sb <= s <= k -> good p s tb) sb se p0) as (p1 & E & I); [lia| | |eauto].
      + intros s H. now replace s with sb by lia.
      + intros k p Hk I. destruct (good_set p k tb lninf) as (p' & -> & G1 & G2); [lia|lia| |].
        * unfold fq, A. rewrite tot_0 by (cbn [fst snd]; right; right; split; [exact Em|lia]). cbn [lninf expo]. lra.
        * exists p'. split; auto. intros s H. destruct (Z.eq_dec s k) as [->|]; auto. apply G2, I. lia.
    - apply Bool.not_true_is_false in Em. rewrite Em.
      destruct (foldM_up (fun p s => a <- mget (S + 1) (T + 1) p (s - 1) tb;; x <- rd2 px (s - 1) tb;; mset (S + 1) (T + 1) p s tb (ladd a x))
         (fun k p => forall s, sb <= s <= k -> good p s tb) sb se p0) as (p1 & E & I); [lia| | |eauto].
      + intros s H. now replace s with sb by lia.
      + intros k p Hk I. destruct (good_get p (k - 1) tb) as (a & -> & Qa); [lia|lia|apply I; lia|].
        destruct (HX (k - 1) tb) as (x & Ex); [lia|unfold T1; rewrite Em; lia|]. rewrite Ex.
        destruct (good_set p k tb (ladd a x)) as (p' & -> & G1 & G2); [lia|lia| |].
        * apply (fq_edge (k - 1) tb); auto; [lia|]. unfold A. rewrite tot_back by (intros E; injection E; lia).
          rewrite (tot_0 m px py (sb, tb) (before m (k, tb) false)) by (unfold before; cbn [fst snd]; lia).
          unfold before. rewrite Em. cbn [fst snd edge]. rewrite (rd2_entry _ _ _ _ Ex). lra.
        * exists p'. split; auto. intros s H. destruct (Z.eq_dec s k) as [->|]; auto. apply G2, I. lia. }
  destruct C as (p1 & E1 & I1). rewrite E1.
  destruct (foldM_up (fun p t => a <- mget (S + 1) (T + 1) p sb (t - 1);; y <- rd2 py sb (t - 1);; mset (S + 1) (T + 1) p sb t (ladd a y))
     (fun k p => (forall s, sb <= s <= se -> good p s tb) /\ forall t, tb <= t <= k -> good p sb t) tb te p1) as (p2 & -> & I2 & I3); [lia| | |].
  { split; auto. intros t H. replace t with tb by lia. apply I1. lia. }
  { intros k p Hk (J1 & J2). destruct (good_get p sb (k - 1)) as (a & -> & Qa); [lia|lia|apply J2; lia|].
    destruct (HY sb (k - 1)) as (y & Ey); [lia|lia|]. rewrite Ey.
    destruct (good_set p sb k (ladd a y)) as (p' & -> & G1 & G2); [lia|lia| |].
    - apply (fq_edge sb (k - 1)); auto; [lia|]. unfold A. rewrite tot_back by (intros E; injection E; lia).
      rewrite (tot_0 m px py (sb, tb) (before m (sb, k) true)) by (unfold before; cbn [fst snd]; lia).
      unfold before. cbn [fst snd edge]. rewrite (rd2_entry _ _ _ _ Ey). lra.
    - exists p'. split; auto. split; [auto|]. intros t H. destruct (Z.eq_dec t k) as [->|]; auto. apply G2, J2. lia. }
  set (BD := fun (p : Z -> Z -> option (option R)) (s : Z) => p_s_t1 <- mget (S + 1) (T + 1) p s tb;;
      r <- foldM (fun st t => let '(p3, p_s_t2) := st in
             a <- mget (S + 1) (T + 1) p3 (s - 1) (t + off);; x <- rd2 px (s - 1) (t + off);; y <- rd2 py s (t - 1);;
             p4 <- mset (S + 1) (T + 1) p3 s t (logadd cut (ladd a x) (ladd p_s_t2 y));;
             Some (p4, logadd cut (ladd a x) (ladd p_s_t2 y))) (up tb te) (p, p_s_t1);; Some (fst r)).
  destruct (foldM_up BD (fun k p => (forall s, sb <= s <= se -> good p s tb) /\ forall s t, sb <= s <= k -> tb <= t <= te -> good p s t)
     sb se p2) as (p3 & E3 & I4 & I5); [lia| | |].
  { split; auto. intros s t H1 H2. replace s with sb by lia. auto. }
  { intros s p Hk (J1 & J2). unfold BD. destruct (good_get p s tb) as (a0 & -> & Qa0); [lia|lia|apply J1; lia|].
    match goal with |- context [foldM ?f (up tb te) (p, a0)] => set (BT := f) end.
    destruct (foldM_up BT (fun k st => (forall s', sb <= s' <= se -> good (fst st) s' tb) /\ (forall s' t, sb <= s' <= s - 1 -> tb <= t <= te -> good (fst st) s' t) /\
         (forall t, tb <= t <= k -> good (fst st) s t) /\ fq s k (snd st)) tb te (p, a0)) as ((p4 & v4) & -> & K1 & K2 & K3 & K4); [lia| | |].
    - cbn [fst snd]. split; auto. split; auto. split; [|auto]. intros t H. replace t with tb by lia. apply J1. lia.
    - intros t (p5 & v5) Htt (K1 & K2 & K3 & K4). cbn [fst snd] in *. unfold BT.
      assert (O : -1 <= off <= 0) by (unfold off; case m; lia).
      destruct (good_get p5 (s - 1) (t + off)) as (a & -> & Qa); [lia|lia|apply K2; lia|].
      destruct (HX (s - 1) (t + off)) as (x & Ex); [lia|unfold T1, off; case m; lia|].
      rewrite Ex. destruct (HY s (t - 1)) as (y & Ey); [lia|lia|]. rewrite Ey.
      pose proof (fq_step s t a v5 ltac:(lia) ltac:(lia) Qa K4) as QQ. rewrite (rd2_entry _ _ _ _ Ex), (rd2_entry _ _ _ _ Ey) in QQ.
      destruct (good_set p5 s t _ ltac:(lia) ltac:(lia) QQ) as (p6 & -> & G1 & G2).
      eexists. split; [reflexivity|]. cbn [fst snd]. split; [auto|]. split; [auto|]. split; [|exact QQ].
      intros t' H. destruct (Z.eq_dec t' t) as [->|]; auto. apply G2, K3. lia.
    - exists p4. cbn [fst snd] in *. split; [reflexivity|]. split; [auto|]. intros s' t H1 H2. destruct (Z.eq_dec s' s) as [->|]; auto. apply K2; lia. }
  rewrite E3. destruct (good_get p3 se te) as (ans & -> & Q); [lia|lia|apply I5; lia|].
  exists ans, p3. split; [reflexivity|]. split; auto.
Qed.
End F.

(** ** Occupancies *)
Lemma uses_iff m l q x : forall c, uses m c l q x = true <-> exists l1 l2, l = l1 ++ x :: l2 /\ walk m c l1 = q.
Proof.
  induction l as [|y l IH]; intros c; cbn [uses].
  - split; [discriminate|]. intros (l1 & l2 & E & _). destruct l1; discriminate.
  - rewrite orb_true_iff, IH. split.
    + intros [H|(l1 & l2 & -> & H)].
      * exists [], l. apply andb_prop in H as (H1 & H2). apply eqb_prop in H2. subst y. split; [reflexivity|]. cbn. destruct c, q; cbn [fst snd] in *. f_equal; lia.
      * exists (y :: l1), l2. auto.
    + intros (l1 & l2 & E & H). destruct l1 as [|z l1].
      * injection E as -> ->. left. cbn in H. subst q. rewrite !Z.eqb_refl, eqb_reflx. reflexivity.
      * injection E as -> ->. right. exists l1, l2. auto.
Qed.
Lemma split_unique m c l1 r1 l2 r2 : l1 ++ r1 = l2 ++ r2 -> walk m c l1 = walk m c l2 -> l1 = l2 /\ r1 = r2.
Proof.
  intros E W. assert (exists u, (l1 = l2 ++ u /\ r2 = u ++ r1) \/ (l2 = l1 ++ u /\ r1 = u ++ r2)) as (u & [(A & B)|(A & B)]).
  { clear W. revert l2 E. induction l1 as [|a l1 IH]; intros l2 E; [exists l2; right; auto|]. destruct l2 as [|b l2].
    - exists (a :: l1). left. auto.
    - injection E as -> E. destruct (IH l2 E) as (u & [(-> & H)|(-> & H)]); exists u; [left|right]; auto. }
  - subst l1. rewrite walk_app in W. apply walk_self in W. subst u. rewrite app_nil_r in *. auto.
  - subst l2. rewrite walk_app in W. symmetry in W. apply walk_self in W. subst u. rewrite app_nil_r in *. auto.
Qed.

Lemma mass_uses m px py c d q x L : all_paths m c d L ->
  mass m px py c (fun l => uses m c l q x) L =
  (tot m px py c q * (expo (edge px py q x) * tot m px py (move m q x) d))%R.
Proof.
  intros (N & H). unfold mass. destruct (paths_ok m c q) as (N1 & H1). destruct (paths_ok m (move m q x) d) as (N2 & H2).
  set (L' := flat_map (fun l1 => map (fun l2 => l1 ++ x :: l2) (paths m (move m q x) d)) (paths m c q)).
  assert (P : Permutation (filter (fun l => uses m c l q x) L) L').
  { apply NoDup_Permutation.
    - now apply NoDup_filter.
    - unfold L'. clear L' H N L. revert N1.
      assert (HH : forall l, In l (paths m c q) -> walk m c l = q) by (intros l; apply H1). clear H1. revert HH.
      induction (paths m c q) as [|l1 l IH]; intros HH N1; cbn [flat_map]; [constructor|]. inversion N1; subst.
      assert (D : forall u, In u (map (fun l2 => l1 ++ x :: l2) (paths m (move m q x) d)) ->
                 ~ In u (flat_map (fun l1 => map (fun l2 => l1 ++ x :: l2) (paths m (move m q x) d)) l)).
      { intros u Hu Hu'. apply in_map_iff in Hu as (l2 & <- & _). apply in_flat_map in Hu' as (l1' & Hl & Hu').
        apply in_map_iff in Hu' as (l2' & E & _). apply (split_unique m c) in E as (-> & _); [contradiction|].
        rewrite (HH l1) by now left. apply HH. now right. }
      assert (NM : NoDup (map (fun l2 => l1 ++ x :: l2) (paths m (move m q x) d))).
      { apply FinFun.Injective_map_NoDup; auto. intros u v E. apply app_inv_head in E. now injection E. }
      assert (NR : NoDup (flat_map (fun l1 => map (fun l2 => l1 ++ x :: l2) (paths m (move m q x) d)) l)).
      { apply IH; auto. intros u Hu. apply HH. now right. }
      clear - D NM NR. induction (map (fun l2 => l1 ++ x :: l2) (paths m (move m q x) d)) as [|y ys IH]; [exact NR|].
      inversion NM; subst. cbn [app]. constructor.
      + rewrite in_app_iff. intros [K|K]; [auto|]. apply (D y); auto. now left.
      + apply IH; auto. intros u Hu. apply D. now right.
    - intros l. rewrite filter_In, H, uses_iff. unfold L'. rewrite in_flat_map. split.
      + intros (Hw & l1 & l2 & -> & W1). exists l1. rewrite H1. split; auto. apply in_map_iff. exists l2. split; auto. apply H2.
        rewrite walk_app, W1 in Hw. exact Hw.
      + intros (l1 & W1 & Hl). apply H1 in W1. apply in_map_iff in Hl as (l2 & <- & Hl). apply H2 in Hl. split; [|eauto].
        rewrite walk_app, W1. exact Hl. }
  rewrite (sumf_perm _ _ _ P). unfold L'.
  rewrite (sumf_prod (fun l => expo (weight m px py c l)) (fun l => (expo (edge px py q x) * expo (weight m px py (move m q x) l))%R)).
  - rewrite sumf_scale. reflexivity.
  - intros l1 l2 Hl1 Hl2. apply H1 in Hl1.
    pose proof (W_app m px py c l1 (x :: l2)) as WA. cbv beta in WA. rewrite WA, Hl1.
    pose proof (W_cons m px py q x l2) as WC. cbv beta in WC. rewrite WC. reflexivity.
Qed.

(** each path leaves each frame exactly once *)
Lemma uses_late m l q x : forall c, snd q < snd c -> uses m c l q x = false.
Proof.
  induction l as [|y l IH]; intros c H; cbn [uses]; [reflexivity|]. replace (snd c =? snd q) with false by lia. rewrite andb_false_r. cbn [andb orb].
  apply IH. destruct c as (s, t), y, m; cbn [move fst snd] in *; lia.
Qed.
Lemma leave_once m t l (rng : list Z) : NoDup rng -> forall c, snd c <= t < snd (walk m c l) ->
  (forall s, fst c <= s <= fst (walk m c l) -> In s rng) ->
  sumf (fun s => (if uses m c l (s, t) false then 1 else 0) + (if m && uses m c l (s, t) true then 1 else 0))%R rng = 1%R.
Proof.
  intros N. induction l as [|y l IH]; intros c Hc HR; [cbn in Hc; lia|].
  rewrite walk_cons in Hc, HR. pose proof (walk_eq m l (move m c y)) as WE. pose proof (nT_nonneg l). pose proof (nF_nonneg l).
  assert (F1 : fst c <= fst (move m c y) <= fst c + 1) by (destruct c, y; cbn [move fst snd]; lia).
  destruct (Z.eq_dec (snd c) t) as [Et|Et].
  - destruct (Bool.bool_dec (negb y || m) true) as [Ey|Ey].
    + (* leaves *)
      assert (S1 : snd (move m c y) = t + 1) by (destruct c, y, m; cbn [move fst snd negb orb] in *; try discriminate; lia).
      assert (EQ : forall s, ((if uses m c (y :: l) (s, t) false then 1 else 0) + (if m && uses m c (y :: l) (s, t) true then 1 else 0))%R =
                    (if Z.eq_dec s (fst c) then 1 else 0)%R).
      { intros s. cbn [uses fst snd]. rewrite !(uses_late m l (s, t)) by (cbn [snd]; lia). rewrite !orb_false_r.
        replace (snd c =? t) with true by lia. rewrite !andb_true_r.
        destruct (Z.eq_dec s (fst c)) as [->|Hs]; [rewrite Z.eqb_refl|replace (fst c =? s) with false by lia];
        destruct y, m; cbn; try discriminate; try (cbn in Ey; discriminate); lra. }
      rewrite (sumf_ext _ (fun s => if Z.eq_dec s (fst c) then 1 else 0)%R) by (intros; apply EQ).
      assert (IN : In (fst c) rng). { apply HR. rewrite WE. cbn [fst]. lia. }
      clear - N IN. induction rng as [|z rng IHr]; [contradiction|]. rewrite sumf_cons. inversion N; subst.
      destruct (Z.eq_dec z (fst c)) as [->|Hz].
      * rewrite sumf_0; [lra|]. intros a Ha. destruct (Z.eq_dec a (fst c)) as [->|]; [contradiction|reflexivity].
      * rewrite IHr; auto; [lra|]. destruct IN; [contradiction|auto].
    + assert (y = true /\ m = false) as (-> & ->) by (destruct y, m; cbn in Ey; auto; try (exfalso; apply Ey; reflexivity)).
      cbn [andb]. rewrite (sumf_ext _ (fun s => (if uses false (move false c true) l (s, t) false then 1 else 0) +
          (if false && uses false (move false c true) l (s, t) true then 1 else 0))%R).
      * apply IH; [cbn [move snd] in *; lia|]. intros s Hs. apply HR. lia.
      * intros s _. cbn [uses andb]. now rewrite andb_false_r.
  - assert (S1 : snd (move m c y) <= t) by (destruct c, y, m; cbn [move fst snd] in *; lia).
    rewrite (sumf_ext _ (fun s => (if uses m (move m c y) l (s, t) false then 1 else 0) +
          (if m && uses m (move m c y) l (s, t) true then 1 else 0))%R).
    + apply IH; [lia|]. intros s Hs. apply HR. lia.
    + intros s _. cbn [uses fst snd]. replace (snd c =? t) with false by lia. rewrite !andb_false_r. reflexivity.
Qed.

(** ** The backward pass *)
Section Bk.
Context (m hb : bool) (S T : Z) (px py : list (list (option R))) (sb tb se te : Z).
Let T1 := if m then T else T + 1.
Let off := if m then -1 else 0.
Hypothesis HX : forall s t, 0 <= s < S -> 0 <= t < T1 -> exists v, rd2 px s t = Some v.
Hypothesis Hs : 0 <= sb <= se /\ se <= S.
Hypothesis Ht : 0 <= tb <= te /\ te <= T.
Let A s t := tot m px py (sb, tb) (s, t).
Let B s t := tot m px py (s, t) (se, te).
Variable p : Z -> Z -> option (option R).
Hypothesis HP : forall s t, sb <= s <= se -> tb <= t <= te -> exists v, p s t = Some v /\ expo v = A s t.
Variable g : R.
Let Zt := A se te.
Hypothesis HZ : (0 < Zt)%R.
Let init : option R := if hb then Some 0%R else None.
Let ex s t := expo (entry px (s, t)).
Let ey s t := expo (entry py (s, t)).
Definition gX s t : R := (g * (A s t * (ex s t * B (s + 1)%Z (t - off)%Z)) / Zt)%R.
Definition gY s t : R := (g * (A s t * (ey s t * B s (t + 1)%Z)) / Zt)%R.
Definition gG s t : R := (g * (A s t * B s t) / Zt)%R.
Let e s t : R := if (s =? se) && (t =? te) then g else 0%R.

Lemma off_cases : -1 <= off <= 0.
Proof. unfold off. case m; lia. Qed.
Lemma mv s t : move m (s, t) true = (s + 1, t - off) /\ move m (s, t) false = (s, t + 1).
Proof. unfold move, off. cbn [fst snd]. split; [|reflexivity]. f_equal. case m; lia. Qed.

Lemma A_back s t : (s, t) <> (sb, tb) -> A s t = Rplus (A (s - 1) (t + off) * ex (s - 1)%Z (t + off)%Z)%R (A s (t - 1) * ey s (t - 1)%Z)%R.
Proof.
  intros H. unfold A. rewrite tot_back by congruence. unfold before, off, ex, ey. cbn [fst snd edge].
  assert (EO : (if m then t - 1 else t) = t + (if m then -1 else 0)) by (case m; lia). rewrite EO. reflexivity.
Qed.
Lemma B_front s t : (s, t) <> (se, te) -> B s t = Rplus (ex s t * B (s + 1) (t - off))%R (ey s t * B s (t + 1))%R.
Proof. intros H. unfold B. rewrite tot_front by congruence. destruct (mv s t) as (-> & ->). reflexivity. Qed.
Lemma B_out s t : se < s \/ te < t -> B s t = 0%R.
Proof. intros H. apply tot_0. cbn [fst snd]. lia. Qed.
Lemma A_out s t : s < sb \/ t < tb -> A s t = 0%R.
Proof. intros H. apply tot_0. cbn [fst snd]. lia. Qed.

Lemma G_split s t : Rplus (Rplus (e s t) (gX s t)) (gY s t) = gG s t.
Proof.
  pose proof off_cases as O. unfold e, gX, gY, gG. destruct ((s =? se) && (t =? te)) eqn:E.
  - assert (s = se) by lia. assert (t = te) by lia. subst s t. rewrite (B_out (se + 1)), (B_out se (te + 1)) by lia.
    unfold B. rewrite tot_self. fold Zt. field. lra.
  - rewrite (B_front s t); [field; lra|]. intros F. injection F. lia.
Qed.
Lemma ex_nonneg s t : (0 <= ex s t)%R. Proof. apply expo_nonneg. Qed.
Lemma ey_nonneg s t : (0 <= ey s t)%R. Proof. apply expo_nonneg. Qed.
Lemma A_nonneg s t : (0 <= A s t)%R. Proof. apply tot_nonneg. Qed.

Definition gInv (dx dy : Z -> Z -> bool) (st : grads) : Prop :=
  (forall s t, sb <= s <= se -> tb <= t <= te ->
     g_p st s t = Some (Rplus (Rplus (e s t) (if dx (s + 1) (t - off) then gX s t else 0%R)) (if dy s (t + 1) then gY s t else 0%R))) /\
  (forall s t, g_px st s t = if dx (s + 1) (t - off) then Some (gX s t) else init) /\
  (forall s t, g_py st s t = if dy s (t + 1) then Some (gY s t) else init).

Lemma gInv_ext dx dy dx' dy' st : (forall a b, dx a b = dx' a b) -> (forall a b, dy a b = dy' a b) -> gInv dx dy st -> gInv dx' dy' st.
Proof.
  intros E1 E2 (H1 & H2 & H3). split; [|split]; intros s t; rewrite <- ?E1, <- ?E2; auto.
Qed.
Definition complete (dx dy : Z -> Z -> bool) s t : Prop :=
  (s + 1 <= se -> t - off <= te -> dx (s + 1) (t - off) = true) /\ (t + 1 <= te -> dy s (t + 1) = true).
Lemma gInv_full dx dy st s t : sb <= s <= se -> tb <= t <= te -> complete dx dy s t -> gInv dx dy st -> g_p st s t = Some (gG s t).
Proof.
  intros H1 H2 (C1 & C2) (I & _). rewrite (I s t H1 H2). f_equal. rewrite <- G_split. f_equal; [f_equal|].
  - destruct (dx (s + 1) (t - off)) eqn:E; [reflexivity|]. unfold gX. rewrite B_out; [field; lra|].
    destruct (Z_le_gt_dec (s + 1) se); [|lia]. destruct (Z_le_gt_dec (t - off) te); [|lia]. specialize (C1 ltac:(lia) ltac:(lia)). discriminate.
  - destruct (dy s (t + 1)) eqn:E; [reflexivity|]. unfold gY. rewrite B_out; [field; lra|].
    destruct (Z_le_gt_dec (t + 1) te); [|lia]. specialize (C2 ltac:(lia)). discriminate.
Qed.

Lemma inb_true n k i j : 0 <= i < n -> 0 <= j < k -> inb n k i j = true.
Proof. unfold inb. lia. Qed.

Lemma lderiv_ok w total : expo total <> 0%R -> lderiv w total = (expo w / expo total)%R.
Proof.
  intros H. destruct total as [c|]; [|cbn in H; lra]. destruct w as [a|]; cbn; [|lra].
  unfold Rminus. rewrite exp_plus, exp_Ropp. field. apply Rgt_not_eq, exp_pos.
Qed.

Definition add (d : Z -> Z -> bool) (s t : Z) : Z -> Z -> bool := fun a b => d a b || ((a =? s) && (b =? t)).

(** derivative terms *)
Lemma terms s t a x total : sb < s -> tb < t -> s <= se -> t <= te ->
  expo a = A (s - 1) (t + off) -> expo x = ex (s - 1) (t + off) -> expo total = A s t ->
  (lderiv (ladd a x) total * gG s t)%R = gX (s - 1) (t + off) /\
  ((1 - lderiv (ladd a x) total) * gG s t)%R = gY s (t - 1).
Proof.
  intros H1 H2 H3 H4 Ea Ex Et. assert (NE : (s, t) <> (sb, tb)) by (intros F; injection F; lia).
  pose proof (A_back s t NE) as AB.
  unfold gX, gY, gG. replace (s - 1 + 1) with s by lia. replace (t + off - off) with t by lia. replace (t - 1 + 1) with t by lia.
  destruct (Req_dec (A s t) 0) as [E0|E0].
  - rewrite E0 in *. pose proof (Rmult_le_pos _ _ (A_nonneg (s - 1) (t + off)) (ex_nonneg (s - 1) (t + off))).
    pose proof (Rmult_le_pos _ _ (A_nonneg s (t - 1)) (ey_nonneg s (t - 1))).
    split; [replace (A (s - 1) (t + off) * (ex (s - 1)%Z (t + off)%Z * B s t))%R with ((A (s - 1) (t + off) * ex (s - 1)%Z (t + off)%Z) * B s t)%R by ring|
            replace (A s (t - 1) * (ey s (t - 1)%Z * B s t))%R with ((A s (t - 1) * ey s (t - 1)%Z) * B s t)%R by ring].
    + replace (A (s - 1) (t + off) * ex (s - 1)%Z (t + off)%Z)%R with 0%R by lra. field. lra.
    + replace (A s (t - 1) * ey s (t - 1)%Z)%R with 0%R by lra. field. lra.
  - rewrite lderiv_ok by congruence. rewrite expo_ladd, Ea, Ex, Et. split; [field; lra|].
    apply Rmult_eq_reg_l with (A s t); [|exact E0]. apply Rmult_eq_reg_l with Zt; [|lra].
    transitivity ((A s t - A (s - 1) (t + off) * ex (s - 1)%Z (t + off)%Z) * g * A s t * B s t)%R; [field; lra|].
    rewrite AB at 1. field. lra.
Qed.

Definition bodyM st s t :=
            a <- mget (S + 1) (T + 1) p (s - 1) (t + off);; x <- rd2 px (s - 1) (t + off);;
            total <- mget (S + 1) (T + 1) p s t;;
            grad <- mget (S + 1) (T + 1) (g_p st) s t;;
            pxg <- mset S T1 (g_px st) (s - 1) (t + off) (lderiv (ladd a x) total * grad)%R;;
            pg <- mset (S + 1) (T + 1) (g_p st) (s - 1) (t + off) (lderiv (ladd a x) total * grad)%R;;
            pyg <- mset (S + 1) T (g_py st) s (t - 1) ((1 - lderiv (ladd a x) total) * grad)%R;;
            old <- mget (S + 1) (T + 1) pg s (t - 1);;
            pg <- mset (S + 1) (T + 1) pg s (t - 1) (old + (1 - lderiv (ladd a x) total) * grad)%R;;
            Some (mkG pg pxg pyg).
Lemma step_main dx dy st s t : sb < s <= se -> tb < t <= te -> gInv dx dy st ->
  dx s t = false -> dy s t = false -> dy (s - 1) (t + off + 1) = false -> complete dx dy s t ->
  exists st', bodyM st s t = Some st' /\ gInv (add dx s t) (add dy s t) st'.
Proof.
  intros H1 H2 I D1 D2 D3 C. pose proof off_cases as O. unfold bodyM.
  destruct (HP (s - 1) (t + off)) as (a & Ea & Va); [lia|lia|]. destruct (HP s t) as (total & Et & Vt); [lia|lia|].
  destruct (HX (s - 1) (t + off)) as (x & Ex); [lia|unfold T1, off; case m; lia|].
  unfold mget. rewrite !(inb_true (S + 1) (T + 1)) by lia. rewrite Ea, Ex, Et.
  rewrite (gInv_full dx dy st s t) by (auto; lia). unfold mset.
  assert (IB : inb S T1 (s - 1) (t + off) = true) by (apply inb_true; [lia|unfold T1, off; case m; lia]). rewrite IB.
  rewrite !inb_true by lia. replace (s =? s - 1) with false by lia. cbn [andb].
  destruct I as (I1 & I2 & I3). rewrite (I1 s (t - 1)) by lia. cbn beta iota.
  destruct (terms s t a x total) as (T1e & T2e); auto; [lia|lia|lia|lia|unfold ex; now rewrite (rd2_entry _ _ _ _ Ex)|].
  rewrite T1e, T2e.
  eexists. split; [reflexivity|]. unfold gInv. cbn [g_p g_px g_py]. unfold add. split; [|split].
  - intros u v Hu Hv. destruct ((u =? s) && (v =? t - 1)) eqn:E1.
    + assert (u = s) by lia. assert (v = t - 1) by lia. subst u v. f_equal.
      replace (s + 1 =? s) with false by lia. cbn [andb]. rewrite orb_false_r. replace (t - 1 + 1) with t by lia. rewrite D2, !Z.eqb_refl. cbn [andb orb].
      lra.
    + destruct ((u =? s - 1) && (v =? t + off)) eqn:E2.
      * assert (u = s - 1) by lia. assert (v = t + off) by lia. subst u v. f_equal. rewrite D3.
        replace (s - 1 + 1 =? s) with true by lia. replace (t + off - off =? t) with true by lia. cbn [andb]. rewrite orb_true_r.
        replace (s - 1 =? s) with false by lia. cbn [andb orb]. unfold e. replace (s - 1 =? se) with false by lia. cbn [andb]. lra.
      * rewrite (I1 u v) by lia. replace ((u + 1 =? s) && (v - off =? t)) with false by lia. replace ((u =? s) && (v + 1 =? t)) with false by lia.
        rewrite !orb_false_r. reflexivity.
  - intros u v. destruct ((u =? s - 1) && (v =? t + off)) eqn:E2.
    + assert (u = s - 1) by lia. assert (v = t + off) by lia. subst u v. replace (s - 1 + 1 =? s) with true by lia.
      replace (t + off - off =? t) with true by lia. cbn [andb]. rewrite orb_true_r. reflexivity.
    + replace ((u + 1 =? s) && (v - off =? t)) with false by lia. rewrite orb_false_r. apply I2.
  - intros u v. destruct ((u =? s) && (v =? t - 1)) eqn:E1.
    + assert (u = s) by lia. assert (v = t - 1) by lia. subst u v. replace (t - 1 + 1 =? t) with true by lia. rewrite Z.eqb_refl. cbn [andb].
      rewrite orb_true_r. reflexivity.
    + replace ((u =? s) && (v + 1 =? t)) with false by lia. rewrite orb_false_r. apply I3.
Qed.

Definition bodyR st t :=
          this <- mget (S + 1) (T + 1) (g_p st) sb t;;
          old <- mget (S + 1) (T + 1) (g_p st) sb (t - 1);;
          pg <- mset (S + 1) (T + 1) (g_p st) sb (t - 1) (old + this)%R;;
          pyg <- mset (S + 1) T (g_py st) sb (t - 1) this;;
          Some (mkG pg (g_px st) pyg).
Lemma step_row dx dy st t : tb < t <= te -> gInv dx dy st -> dy sb t = false -> complete dx dy sb t ->
  exists st', bodyR st t = Some st' /\ gInv dx (add dy sb t) st'.
Proof.
  intros H2 I D2 C. unfold bodyR, mget, mset. rewrite !inb_true by lia.
  rewrite (gInv_full dx dy st sb t) by (auto; lia). destruct I as (I1 & I2 & I3). rewrite (I1 sb (t - 1)) by lia. cbn beta iota.
  assert (EY : gG sb t = gY sb (t - 1)).
  { unfold gG, gY. replace (t - 1 + 1) with t by lia. rewrite (A_back sb t) by (intros F; injection F; lia).
    rewrite (A_out (sb - 1)) by lia. field. lra. }
  eexists. split; [reflexivity|]. unfold gInv. cbn [g_p g_px g_py]. unfold add. split; [|split].
  - intros u v Hu Hv. destruct ((u =? sb) && (v =? t - 1)) eqn:E1.
    + assert (u = sb) by lia. assert (v = t - 1) by lia. subst u v. f_equal. replace (t - 1 + 1) with t by lia. rewrite D2, !Z.eqb_refl. cbn [andb orb]. rewrite EY. lra.
    + rewrite (I1 u v) by lia. replace ((u =? sb) && (v + 1 =? t)) with false by lia. rewrite orb_false_r. reflexivity.
  - exact I2.
  - intros u v. destruct ((u =? sb) && (v =? t - 1)) eqn:E1.
    + assert (u = sb) by lia. assert (v = t - 1) by lia. subst u v. replace (t - 1 + 1 =? t) with true by lia. rewrite Z.eqb_refl. cbn [andb].
      rewrite orb_true_r. now rewrite EY.
    + replace ((u =? sb) && (v + 1 =? t)) with false by lia. rewrite orb_false_r. apply I3.
Qed.

Definition bodyC st s :=
          this <- mget (S + 1) (T + 1) (g_p st) s tb;;
          old <- mget (S + 1) (T + 1) (g_p st) (s - 1) tb;;
          pg <- mset (S + 1) (T + 1) (g_p st) (s - 1) tb (old + this)%R;;
          pxg <- mset S T1 (g_px st) (s - 1) tb this;;
          Some (mkG pg pxg (g_py st)).
Lemma step_col dx dy st s : off = 0 -> sb < s <= se -> gInv dx dy st -> dx s tb = false -> complete dx dy s tb ->
  exists st', bodyC st s = Some st' /\ gInv (add dx s tb) dy st'.
Proof.
  intros O H2 I D2 C. unfold bodyC, mget, mset. rewrite !(inb_true (S + 1)) by lia.
  assert (IB : inb S T1 (s - 1) tb = true). { apply inb_true; [lia|]. unfold T1. revert O. unfold off. case m; lia. } rewrite IB.
  rewrite (gInv_full dx dy st s tb) by (auto; lia). destruct I as (I1 & I2 & I3). rewrite (I1 (s - 1) tb) by lia. cbn beta iota.
  assert (EX : gG s tb = gX (s - 1) tb).
  { unfold gG, gX. rewrite O. replace (s - 1 + 1) with s by lia. replace (tb - 0) with tb by lia. rewrite (A_back s tb) by (intros F; injection F; lia).
    rewrite (A_out s (tb - 1)) by lia. rewrite O. replace (tb + 0) with tb by lia. field. lra. }
  eexists. split; [reflexivity|]. unfold gInv. cbn [g_p g_px g_py]. unfold add. split; [|split].
  - intros u v Hu Hv. destruct ((u =? s - 1) && (v =? tb)) eqn:E1.
    + assert (u = s - 1) by lia. assert (v = tb) by lia. subst u v. f_equal. rewrite O. replace (tb - 0) with tb by lia. replace (s - 1 + 1) with s by lia.
      rewrite D2, !Z.eqb_refl. cbn [andb orb]. rewrite EX. lra.
    + rewrite (I1 u v) by lia. replace ((u + 1 =? s) && (v - off =? tb)) with false by lia. rewrite orb_false_r. reflexivity.
  - intros u v. destruct ((u =? s - 1) && (v =? tb)) eqn:E1.
    + assert (u = s - 1) by lia. assert (v = tb) by lia. subst u v. replace (s - 1 + 1 =? s) with true by lia. replace (tb - off =? tb) with true by lia.
      cbn [andb]. rewrite orb_true_r. now rewrite EX.
    + replace ((u + 1 =? s) && (v - off =? tb)) with false by lia. rewrite orb_false_r. apply I2.
  - exact I3.
Qed.

Definition dM (s t a b : Z) : bool :=
  (sb <? a) && (a <=? se) && (tb <? b) && (b <=? te) && ((s <? a) || ((a =? s) && (t <? b))).
Definition dR (k a b : Z) : bool := dM sb te a b || ((a =? sb) && (k <? b) && (b <=? te)).
Definition dC (k a b : Z) : bool := dM sb te a b || ((b =? tb) && (k <? a) && (a <=? se)).

Theorem backward_ok :
  exists st, mi_backward ladd lderiv m hb S T px (sb, tb, se, te) p g = Some st /\
    (forall s t, g_px st s t = if (sb <=? s) && (s + 1 <=? se) && (tb <=? t) && (t - off <=? te) then Some (gX s t) else init) /\
    (forall s t, g_py st s t = if (sb <=? s) && (s <=? se) && (tb <=? t) && (t + 1 <=? te) then Some (gY s t) else init) /\
    g_p st sb tb = Some g.
Proof.
  unfold mi_backward. fold T1 off. cbv zeta. fold init. pose proof off_cases as O.
  assert (E0 : exists pg, mset (S + 1) (T + 1) (fun _ _ => Some 0%R) se te g = Some pg /\ gInv (dM se te) (dM se te) (mkG pg (fun _ _ => init) (fun _ _ => init))).
  { unfold mset. rewrite inb_true by lia. eexists. split; [reflexivity|]. unfold gInv. cbn [g_p g_px g_py].
    assert (DZ : forall a b, dM se te a b = false) by (intros a b; unfold dM; lia).
    split; [|split]; intros s t; rewrite ?DZ; auto. intros _ _. unfold e. destruct ((s =? se) && (t =? te)); f_equal; lra. }
  destruct E0 as (pg & -> & I0).
  match goal with |- context [foldM ?f (down sb se) (mkG pg _ _)] => set (BO := f) end.
  destruct (foldM_down BO (fun k st => gInv (dM k te) (dM k te) st) sb se (mkG pg (fun _ _ => init) (fun _ _ => init))) as (st1 & -> & I1); [lia|exact I0| |].
  { intros s st Hk I. unfold BO. clear BO.
    destruct (foldM_down (fun st t => bodyM st s t) (fun k st => gInv (dM s k) (dM s k) st) tb te st) as (st' & E & I'); [lia|exact I| |].
    - intros t st2 Htt J. destruct (step_main (dM s t) (dM s t) st2 s t) as (st3 & E3 & I3); auto; try (unfold dM; lia).
      + split; unfold dM; lia.
      + exists st3. split; [exact E3|]. eapply gInv_ext; [| |exact I3]; intros a b; unfold add, dM; lia.
    - exists st'. split; [exact E|]. eapply gInv_ext; [| |exact I']; intros a b; unfold dM; lia. }
  match goal with |- context [foldM ?f (down tb te) st1] => change f with (fun st t => bodyR st t) end.
  destruct (foldM_down (fun st t => bodyR st t) (fun k st => gInv (dM sb te) (dR k) st) tb te st1) as (st2 & -> & I2); [lia| | |].
  { eapply gInv_ext; [| |exact I1]; intros a b; unfold dR, dM; lia. }
  { intros t st Htt J. destruct (step_row (dM sb te) (dR t) st t) as (st3 & E3 & I3); auto; try (unfold dR, dM; lia).
    - split; unfold dR, dM; lia.
    - exists st3. split; [exact E3|]. eapply gInv_ext; [| |exact I3]; intros a b; unfold add, dR, dM; lia. }
  assert (FIN : forall st dx, gInv dx (dR tb) st -> (forall s t, dx (s + 1) (t - off) = (sb <=? s) && (s + 1 <=? se) && (tb <=? t) && (t - off <=? te)) ->
    (forall s t, g_px st s t = if (sb <=? s) && (s + 1 <=? se) && (tb <=? t) && (t - off <=? te) then Some (gX s t) else init) /\
    (forall s t, g_py st s t = if (sb <=? s) && (s <=? se) && (tb <=? t) && (t + 1 <=? te) then Some (gY s t) else init) /\
    g_p st sb tb = Some g).
  { intros st dx J D. split; [|split].
    - intros s t. destruct J as (_ & J2 & _). rewrite J2, D. reflexivity.
    - intros s t. destruct J as (_ & _ & J3). rewrite J3. replace (dR tb s (t + 1)) with ((sb <=? s) && (s <=? se) && (tb <=? t) && (t + 1 <=? te)) by (unfold dR, dM; lia). reflexivity.
    - rewrite (gInv_full dx (dR tb) st sb tb); auto; try lia.
      + f_equal. unfold gG. unfold A at 1. rewrite tot_self. change (B sb tb) with Zt. field. lra.
      + split; [rewrite D; lia|unfold dR, dM; lia]. }
  destruct (Bool.bool_dec m true) as [Em|Em].
  - replace m with true by auto. exists st2. split; [reflexivity|]. apply (FIN st2 (dM sb te) I2).
    intros s t. assert (off = -1) as -> by (unfold off; now rewrite Em). unfold dM. lia.
  - apply Bool.not_true_is_false in Em. assert (off = 0) as EO by (unfold off; now rewrite Em). replace m with false by auto.
    change (fun (st : grads) (s : Z) =>
        this <- mget (S + 1) (T + 1) (g_p st) s tb;; old <- mget (S + 1) (T + 1) (g_p st) (s - 1) tb;;
        pg0 <- mset (S + 1) (T + 1) (g_p st) (s - 1) tb (old + this)%R;; pxg <- mset S T1 (g_px st) (s - 1) tb this;;
        Some {| g_p := pg0; g_px := pxg; g_py := g_py st |}) with (fun st s => bodyC st s).
    destruct (foldM_down (fun st s => bodyC st s) (fun k st => gInv (dC k) (dR tb) st) sb se st2) as (st3 & -> & I3); [lia| | |].
    { eapply gInv_ext; [| |exact I2]; intros a b; unfold dC, dM; lia. }
    { intros s st Hss J. destruct (step_col (dC s) (dR tb) st s) as (st4 & E4 & I4); auto; try (unfold dC, dM; lia).
      - split; unfold dC, dR, dM; lia.
      - exists st4. split; [exact E4|]. eapply gInv_ext; [| |exact I4]; intros a b; unfold add, dC, dM; lia. }
    exists st3. split; [reflexivity|]. apply (FIN st3 (dC sb) I3). intros s t. rewrite EO. unfold dC, dM. lia.
Qed.
End Bk.
