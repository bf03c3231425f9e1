(** * Proofs about joint_mutual_information_recursion *)
From Coq Require Import ZArith List Lia Bool Reals Lra Permutation.
From Coq Require Import ZifyBool.
From Verif Require Import Base OpsModel RnntModel RnntSpec RnntProofs RnntPrunedProps LogReal MutualInfoModel MutualInfoSpec MutualInfoProofs MutualInfoProps JointMIModel JointMISpec.
Import ListNotations.
Open Scope Z_scope.

Lemma clamp_above lo v : clamp_min lo v = above_lo lo v.
Proof.
  destruct v as [r|]; [|reflexivity]. cbn [clamp_min above_lo]. destruct (Rlt_dec r lo).
  - apply Rmax_right. lra.
  - apply Rmax_left. lra.
Qed.

(** ** The weights of the summed terms *)
Definition prodf {A} (f : A -> R) (l : list A) : R := fold_right (fun a r => f a * r)%R 1%R l.
Lemma prodf_mult {A} (f g : A -> R) l : prodf (fun a => f a * g a)%R l = (prodf f l * prodf g l)%R.
Proof. induction l as [|a l IH]; cbn [prodf fold_right]; [ring|]. fold (prodf (fun a => f a * g a)%R l). rewrite IH. unfold prodf. ring. Qed.
Lemma prodf_fst {A B} (f : A -> R) (xs : list A) (ys : list B) : length xs = length ys -> prodf (fun xy => f (fst xy)) (combine xs ys) = prodf f xs.
Proof. revert ys. induction xs as [|x xs IH]; intros [|y ys] H; cbn in *; try discriminate; auto. injection H as H. unfold prodf in IH. now rewrite IH. Qed.
Lemma prodf_snd {A B} (f : B -> R) (xs : list A) (ys : list B) : length xs = length ys -> prodf (fun xy => f (snd xy)) (combine xs ys) = prodf f ys.
Proof. revert ys. induction xs as [|x xs IH]; intros [|y ys] H; cbn in *; try discriminate; auto. injection H as H. unfold prodf in IH. now rewrite IH. Qed.
Lemma expo_sum {A} (f : A -> option R) l : expo (fold_right ladd lzero (map f l)) = prodf (fun a => expo (f a)) l.
Proof. induction l as [|a l IH]; cbn [map fold_right prodf]; [apply expo_zero|]. rewrite expo_ladd, IH. reflexivity. Qed.

Definition summed (n m : Z) (xs : list (list (list (option R)))) : list (list (option R)) :=
  tab n (fun s => tab m (fun t => fold_right ladd lzero (map (fun x => entry x (s, t)) xs))).
Lemma rd2_out {A} n m (x : list (list A)) i j : shape2 n m x = true -> ~ (0 <= i < n /\ 0 <= j < m) -> rd2 x i j = None.
Proof.
  unfold shape2, rd2. intros H N. apply andb_prop in H as (H1 & H2). rewrite forallb_forall in H2. destruct (rd x i) as [r|] eqn:E; [|reflexivity].
  pose proof (rd_Some_bound _ _ _ E). apply rd_In in E. apply H2 in E. unfold shape1 in E. apply rd_None. lia.
Qed.
Lemma entry_summed n m xs q : 0 <= n -> 0 <= m -> xs <> [] -> Forall (fun x => shape2 n m x = true) xs ->
  expo (entry (summed n m xs) q) = prodf (fun x => expo (entry x q)) xs.
Proof.
  intros Hn Hm Hne HF. destruct q as [s t]. unfold entry at 1. cbn [fst snd].
  destruct ((0 <=? s) && (s <? n) && (0 <=? t) && (t <? m)) eqn:E.
  - unfold summed. rewrite rd2_tab by lia. apply expo_sum.
  - rewrite (rd2_out n m) by (try lia; apply shape2_tab; auto). destruct xs as [|x xs]; [congruence|]. inversion HF; subst.
    cbn [prodf fold_right]. unfold entry at 1. cbn [fst snd]. rewrite (rd2_out n m x) by (auto; lia). cbn [expo lninf]. change (expo lninf) with 0%R. ring.
Qed.
Lemma weight_summed m n1 m1 n2 m2 xs ys : 0 <= n1 -> 0 <= m1 -> 0 <= n2 -> 0 <= m2 -> xs <> [] -> length xs = length ys ->
  Forall (fun x => shape2 n1 m1 x = true) xs -> Forall (fun x => shape2 n2 m2 x = true) ys -> forall l c,
  expo (weight m (summed n1 m1 xs) (summed n2 m2 ys) c l) = joint_prob m (combine xs ys) c l.
Proof.
  intros H1 H2 H3 H4 Hne HL F1 F2. assert (Hne2 : ys <> []) by (destruct xs, ys; cbn in *; congruence).
  change joint_prob with (fun m terms c l => prodf (fun xy => expo (weight m (fst xy) (snd xy) c l)) terms). cbv beta.
  induction l as [|a l IH]; intros c; cbn [weight].
  - rewrite expo_zero. clear. induction (combine xs ys) as [|p q IH]; [reflexivity|].
    cbn [prodf fold_right]. rewrite Rmult_1_l. exact IH.
  - rewrite expo_ladd, IH.
    assert (E : expo (edge (summed n1 m1 xs) (summed n2 m2 ys) c a) = prodf (fun xy => expo (edge (fst xy) (snd xy) c a)) (combine xs ys)).
    { unfold edge. destruct a.
      - rewrite entry_summed by auto. symmetry. apply (prodf_fst (fun x => expo (entry x c))). exact HL.
      - rewrite entry_summed by auto. symmetry. apply (prodf_snd (fun x => expo (entry x c))). exact HL. }
    rewrite E, <- prodf_mult. unfold prodf. clear. induction (combine xs ys) as [|p q IH]; [reflexivity|]. cbn [fold_right]. rewrite IH, expo_ladd. reflexivity.
Qed.

(** ** Sums over the grid and sums along a path *)
Lemma sumf_delta a v l : NoDup l -> In a l -> sumf (fun s => if s =? a then v else 0%R) l = v.
Proof.
  induction l as [|b l IH]; intros N H; [destruct H|]. inversion N; subst. rewrite sumf_cons. destruct H as [->|H].
  - rewrite Z.eqb_refl. rewrite sumf_0; [lra|]. intros c Hc. destruct (c =? a) eqn:E; [|reflexivity]. assert (c = a) by lia. congruence.
  - rewrite IH by auto. destruct (b =? a) eqn:E; [|lra]. assert (b = a) by lia. congruence.
Qed.
Definition grid (n m : Z) (f : Z -> Z -> R) : R := sumf (fun s => sumf (f s) (zrange m)) (zrange n).
Lemma grid_ext n m f g : (forall s t, 0 <= s < n -> 0 <= t < m -> f s t = g s t) -> grid n m f = grid n m g.
Proof. intros H. apply sumf_ext. intros s Hs. apply sumf_ext. intros t Ht. apply in_zrange in Hs, Ht. auto. Qed.
Lemma grid_plus n m f g : grid n m (fun s t => f s t + g s t)%R = (grid n m f + grid n m g)%R.
Proof. unfold grid. rewrite <- sumf_plus. apply sumf_ext. intros s _. apply sumf_plus. Qed.
Lemma grid_scale n m f k : grid n m (fun s t => k * f s t)%R = (k * grid n m f)%R.
Proof. unfold grid. rewrite <- sumf_scale. apply sumf_ext. intros s _. apply sumf_scale. Qed.
Lemma grid_0 n m f : (forall s t, f s t = 0%R) -> grid n m f = 0%R.
Proof. intros H. apply sumf_0. intros s _. apply sumf_0. auto. Qed.
Lemma grid_swap {A} n m (h : A -> Z -> Z -> R) L : grid n m (fun s t => sumf (fun l => h l s t) L) = sumf (fun l => grid n m (h l)) L.
Proof.
  unfold grid. rewrite (sumf_ext _ (fun s => sumf (fun l => sumf (h l s) (zrange m)) L)).
  - apply sumf_swap.
  - intros s _. apply sumf_swap.
Qed.
Lemma grid_delta n m a b f : 0 <= a < n -> 0 <= b < m -> grid n m (fun s t => if (s =? a) && (t =? b) then f s t else 0%R) = f a b.
Proof.
  intros Ha Hb. unfold grid. rewrite (sumf_ext _ (fun s => if s =? a then f a b else 0%R)).
  - apply sumf_delta; [apply NoDup_zrange|now apply in_zrange].
  - intros s _. destruct (s =? a) eqn:E.
    + assert (s = a) by lia. subst s. cbn [andb]. rewrite (sumf_ext _ (fun t => if t =? b then f a b else 0%R)).
      * apply sumf_delta; [apply NoDup_zrange|now apply in_zrange].
      * intros t _. destruct (t =? b) eqn:E2; [|reflexivity]. now replace t with b by lia.
    + apply sumf_0. reflexivity.
Qed.

Fixpoint along (m : bool) (F : bool -> Z -> Z -> R) (c : Z * Z) (l : list bool) : R :=
  match l with [] => 0%R | a :: l' => (F a (fst c) (snd c) + along m F (move m c a) l')%R end.
Lemma along_score m lo x y l : forall c, along m (fun a s t => clamp_min lo (edge x y (s, t) a)) c l = score m lo (x, y) c l.
Proof. induction l as [|a l IH]; intros c; cbn [along score]; [reflexivity|]. rewrite IH, clamp_above, <- surjective_pairing. reflexivity. Qed.
Lemma uses_ge m q x l : forall c, uses m c l q x = true -> fst c <= fst q /\ snd c <= snd q.
Proof.
  induction l as [|y l IH]; intros c H; cbn [uses] in H; [discriminate|]. apply orb_prop in H as [H|H]; [lia|].
  apply IH in H. unfold move in H. destruct y, m; cbn [fst snd] in H; lia.
Qed.
Lemma walk_ge m l : forall c, fst c <= fst (walk m c l) /\ snd c <= snd (walk m c l).
Proof.
  induction l as [|y l IH]; intros c; [cbn; lia|]. rewrite walk_cons. specialize (IH (move m c y)). unfold move in IH at 1 3. destruct y, m; cbn [fst snd] in IH; lia.
Qed.
Lemma grid_along S T (m : bool) (F : bool -> Z -> Z -> R) l : forall c, 0 <= fst c -> 0 <= snd c ->
  fst (walk m c l) <= S -> snd (walk m c l) <= T ->
  (grid S (if m then T else T + 1) (fun s t => if uses m c l (s, t) true then F true s t else 0) +
   grid (S + 1) T (fun s t => if uses m c l (s, t) false then F false s t else 0))%R = along m F c l.
Proof.
  induction l as [|a l IH]; intros c C1 C2 W1 W2; cbn [along].
  - rewrite !grid_0 by reflexivity. lra.
  - rewrite walk_cons in W1, W2. pose proof (walk_ge m l (move m c a)) as (G1 & G2).
    assert (SP : forall x s t, (if uses m c (a :: l) (s, t) x then F x s t else 0)%R =
      ((if (s =? fst c) && (t =? snd c) then (if Bool.eqb x a then F x s t else 0) else 0) + (if uses m (move m c a) l (s, t) x then F x s t else 0))%R).
    { intros x s t. cbn [uses fst snd]. rewrite (Z.eqb_sym (fst c) s), (Z.eqb_sym (snd c) t).
      destruct ((s =? fst c) && (t =? snd c)) eqn:E; cbn [andb orb]; [|lra].
      destruct (uses m (move m c a) l (s, t) x) eqn:U.
      - apply uses_ge in U. unfold move in U. destruct a, m; cbn [fst snd] in U; lia.
      - rewrite orb_false_r. destruct (Bool.eqb x a); lra. }
    rewrite (grid_ext S _ _ _ (fun s t _ _ => SP true s t)), (grid_ext (S + 1) T _ _ (fun s t _ _ => SP false s t)), !grid_plus.
    specialize (IH (move m c a)). rewrite <- IH; try lia; try (unfold move; destruct a, m; cbn [fst snd]; lia).
    assert (D : (grid S (if m then T else T + 1) (fun s t => if (s =? fst c) && (t =? snd c) then (if Bool.eqb true a then F true s t else 0) else 0) +
      grid (S + 1) T (fun s t => if (s =? fst c) && (t =? snd c) then (if Bool.eqb false a then F false s t else 0) else 0))%R = F a (fst c) (snd c)).
    { destruct a.
      - rewrite (grid_0 (S + 1)) by (intros s t; cbn [Bool.eqb]; destruct ((s =? fst c) && (t =? snd c)); reflexivity).
        rewrite grid_delta; [cbn [Bool.eqb]; lra| |]; unfold move in *; destruct m; cbn [fst snd] in *; lia.
      - rewrite (grid_0 S) by (intros s t; cbn [Bool.eqb]; destruct ((s =? fst c) && (t =? snd c)); reflexivity).
        rewrite grid_delta; [cbn [Bool.eqb]; lra| |]; unfold move in *; destruct m; cbn [fst snd] in *; lia. }
    rewrite <- D. lra.
Qed.
(** The sum of all moves, weighted by their posteriors, is the mean over the paths. *)
Lemma mean_ok S T (m : bool) (F : bool -> Z -> Z -> R) px py c d L Zt : 0 <= fst c -> 0 <= snd c -> fst d <= S -> snd d <= T ->
  all_paths m c d L ->
  (grid S (if m then T else T + 1) (fun s t => mass m px py c (fun l => uses m c l (s, t) true) L / Zt * F true s t) +
   grid (S + 1) T (fun s t => mass m px py c (fun l => uses m c l (s, t) false) L / Zt * F false s t))%R =
  (sumf (fun l => expo (weight m px py c l) * along m F c l) L / Zt)%R.
Proof.
  intros C1 C2 D1 D2 (_ & HL).
  assert (E : forall x s t, (mass m px py c (fun l => uses m c l (s, t) x) L / Zt * F x s t)%R =
     sumf (fun l => (expo (weight m px py c l) / Zt) * (if uses m c l (s, t) x then F x s t else 0))%R L).
  { intros x s t. unfold mass. rewrite sumf_filter. rewrite Rmult_comm. unfold Rdiv. rewrite (Rmult_comm _ (/ Zt)), <- Rmult_assoc, <- sumf_scale.
    apply sumf_ext. intros l _. destruct (uses m c l (s, t) x); ring. }
  rewrite (grid_ext S _ _ _ (fun s t _ _ => E true s t)), (grid_ext (S + 1) T _ _ (fun s t _ _ => E false s t)), !grid_swap, <- sumf_plus.
  unfold Rdiv at 3. rewrite Rmult_comm, <- sumf_scale. apply sumf_ext. intros l Hl. apply HL in Hl.
  rewrite !grid_scale, <- Rmult_plus_distr_l. rewrite (grid_along S T m F l c); auto; try (rewrite Hl; auto). unfold Rdiv. ring.
Qed.
