(** * Sums over the paths of an acyclic graph. *)
From Coq Require Import ZArith List Lia Bool Reals Lra Permutation.
From Coq Require Import ZifyBool ZifyNat.
From Verif Require Import Base FsaSpec FsaLemmas ReverseProofs LogReal MutualInfoSpec MutualInfoProofs ScoreModel ScoreSpec.
Import ListNotations.
Open Scope Z_scope.

(** ** The semirings *)
Lemma ladd_comm x y : ladd x y = ladd y x.
Proof. destruct x, y; cbn; auto. f_equal. lra. Qed.
Lemma ladd_assoc x y z : ladd x (ladd y z) = ladd (ladd x y) z.
Proof. destruct x, y, z; cbn; auto. f_equal. lra. Qed.
Lemma ladd_0 x : ladd lzero x = x.
Proof. destruct x; cbn; auto. f_equal. lra. Qed.
Lemma ladd_0r x : ladd x lzero = x.
Proof. now rewrite ladd_comm, ladd_0. Qed.
Lemma ladd_None x : ladd x None = None. Proof. now destruct x. Qed.

Lemma expo_inj x y : expo x = expo y -> x = y.
Proof.
  intros H. destruct x as [a|], y as [b|]; auto.
  - f_equal. apply exp_inv. exact H.
  - exfalso. cbn in H. pose proof (exp_pos a). lra.
  - exfalso. cbn in H. pose proof (exp_pos b). lra.
Qed.

Lemma splus_comm l x y : splus l x y = splus l y x.
Proof.
  destruct l; cbn.
  - apply expo_inj. rewrite !logadd_exact. lra.
  - destruct x, y; cbn; auto. f_equal. apply Rmax_comm.
Qed.
Lemma splus_assoc l x y z : splus l x (splus l y z) = splus l (splus l x y) z.
Proof.
  destruct l; cbn.
  - apply expo_inj. rewrite !logadd_exact. lra.
  - destruct x, y, z; cbn; auto. f_equal. apply Rmax_assoc.
Qed.
Lemma splus_None l x : splus l None x = x.
Proof. destruct l, x; reflexivity. Qed.
Lemma splus_None_r l x : splus l x None = x.
Proof. rewrite splus_comm. apply splus_None. Qed.
Lemma splus_distr l x y z : ladd (splus l x y) z = splus l (ladd x z) (ladd y z).
Proof.
  destruct l; cbn.
  - apply expo_inj. rewrite !logadd_exact, !expo_ladd, !logadd_exact. lra.
  - destruct x as [a|], y as [b|], z as [c|]; cbn; auto. f_equal. unfold Rmax. destruct (Rle_dec a b), (Rle_dec (a + c) (b + c)); lra.
Qed.

Section Sums.
Variable l : bool.
Lemma ssum_cons x y : ssum l (x :: y) = splus l x (ssum l y). Proof. reflexivity. Qed.
Lemma ssum_app x y : ssum l (x ++ y) = splus l (ssum l x) (ssum l y).
Proof. induction x as [|a x IH]; [cbn; now rewrite splus_None|]. cbn [app]. rewrite !ssum_cons, IH. apply splus_assoc. Qed.
Lemma ssum_perm x y : Permutation x y -> ssum l x = ssum l y.
Proof.
  induction 1 as [|a x y H IH|a b x|x y z H1 IH1 H2 IH2]; [reflexivity|now rewrite !ssum_cons, IH| |congruence].
  rewrite !ssum_cons, !splus_assoc. now rewrite (splus_comm l a b).
Qed.
Lemma ssum_distr x z : ladd (ssum l x) z = ssum l (map (fun y => ladd y z) x).
Proof. induction x as [|a x IH]; [reflexivity|]. cbn [map]. rewrite !ssum_cons, splus_distr. now rewrite IH. Qed.
Lemma ssum_distr_l x z : ladd z (ssum l x) = ssum l (map (ladd z) x).
Proof. rewrite ladd_comm, ssum_distr. f_equal. apply map_ext. intros; apply ladd_comm. Qed.
Lemma ssum_concat x : ssum l (concat x) = ssum l (map (ssum l) x).
Proof. induction x as [|a x IH]; [reflexivity|]. cbn [concat map]. now rewrite ssum_app, IH. Qed.
Lemma ssum_flat_map {A} (g : A -> list (option R)) x : ssum l (flat_map g x) = ssum l (map (fun a => ssum l (g a)) x).
Proof. rewrite flat_map_concat_map, ssum_concat, map_map. reflexivity. Qed.
Lemma ssum_splus {A} (g h : A -> option R) x : ssum l (map (fun a => splus l (g a) (h a)) x) = splus l (ssum l (map g x)) (ssum l (map h x)).
Proof.
  induction x as [|a x IH]; [cbn; now rewrite splus_None|]. cbn [map]. rewrite !ssum_cons, IH. rewrite <- !splus_assoc. f_equal. rewrite !splus_assoc. f_equal. apply splus_comm.
Qed.
Lemma fold_left_ssum x : forall a, fold_left (splus l) x a = splus l a (ssum l x).
Proof. induction x as [|b x IH]; intros a; [cbn; now rewrite splus_None_r|]. cbn [fold_left]. rewrite IH, ssum_cons. now rewrite splus_assoc. Qed.
Lemma ssum_None {A} (g : A -> option R) x : (forall a, In a x -> g a = None) -> ssum l (map g x) = None.
Proof. induction x as [|a x IH]; intros H; [reflexivity|]. cbn [map]. rewrite ssum_cons, (H a) by now left. rewrite splus_None. apply IH. intros; apply H; now right. Qed.
Lemma ssum_swap {A B} (g : A -> B -> option R) x y : ssum l (map (fun a => ssum l (map (g a) y)) x) = ssum l (map (fun b => ssum l (map (fun a => g a b) x)) y).
Proof.
  induction x as [|a x IH]; cbn [map].
  - symmetry. apply ssum_None. reflexivity.
  - rewrite ssum_cons, IH. rewrite <- ssum_splus. reflexivity.
Qed.
End Sums.
Lemma expo_ssum x : expo (ssum true x) = sumf expo x.
Proof. induction x as [|a x IH]; [reflexivity|]. rewrite ssum_cons, sumf_cons, <- IH. apply logadd_exact. Qed.

Lemma path_sum_unique l w P x y : path_sum l w P x -> path_sum l w P y -> x = y.
Proof.
  intros (L & N1 & H1 & ->) (L' & N2 & H2 & ->). apply ssum_perm, Permutation_map. apply NoDup_Permutation; auto. intros p. now rewrite H1, H2.
Qed.

Lemma pweight_app w p p' : pweight w (p ++ p') = ladd (pweight w p) (pweight w p').
Proof. induction p as [|j p IH]; cbn [app pweight fold_right]; [now rewrite ladd_0|]. unfold pweight in IH. now rewrite IH, ladd_assoc. Qed.
Lemma pweight_1 w j : pweight w [j] = w j.
Proof. cbn. now rewrite ladd_0r. Qed.
Lemma pweight_rev w p : pweight w (rev p) = pweight w p.
Proof. induction p as [|j p IH]; auto. cbn [rev]. rewrite pweight_app, pweight_1, IH, ladd_comm. reflexivity. Qed.
Lemma pweight_map w (g : Z -> Z) p : pweight w (map g p) = pweight (fun j => w (g j)) p.
Proof. induction p as [|j p IH]; auto. cbn [map pweight fold_right]. unfold pweight in IH. now rewrite IH. Qed.
Lemma pweight_ext w w' p : (forall j, In j p -> w j = w' j) -> pweight w p = pweight w' p.
Proof. induction p as [|j p IH]; intros H; auto. cbn [pweight fold_right]. unfold pweight in IH. rewrite IH by (intros; apply H; now right). rewrite (H j) by now left. reflexivity. Qed.

(** ** Graphs *)
Section Graph.
Variables (A : Z) (sr de : Z -> Z) (rank : Z -> nat) (start : Z -> bool).
Hypothesis RK : forall q, 0 <= q < A -> (rank (sr q) < rank (de q))%nat.

Fixpoint gpath (s : Z) (p : list Z) (t : Z) : Prop :=
  match p with [] => s = t | q :: p' => 0 <= q < A /\ sr q = s /\ gpath (de q) p' t end.
Lemma gpath_app p p' : forall s t, gpath s (p ++ p') t <-> exists u, gpath s p u /\ gpath u p' t.
Proof using.
  clear. induction p as [|q p IH]; intros s t; cbn [app gpath].
  - split; [intros H; eauto|intros (u & -> & H); auto].
  - rewrite IH. split; [intros (H1 & H2 & u & H3 & H4)|intros (u & (H1 & H2 & H3) & H4)]; eauto 8.
Qed.
Lemma gpath_snoc p q s t : gpath s (p ++ [q]) t <-> gpath s p (sr q) /\ 0 <= q < A /\ de q = t.
Proof using.
  clear. rewrite gpath_app. cbn [gpath]. split; [intros (u & H1 & H2 & <- & H3); auto|intros (H1 & H2 & H3); eauto].
Qed.

Definition inarcs (t : Z) : list Z := filter (fun q => de q =? t) (zrange A).
Lemma in_inarcs t q : In q (inarcs t) <-> 0 <= q < A /\ de q = t.
Proof using. clear. unfold inarcs. rewrite filter_In, in_zrange. lia. Qed.

Fixpoint paths_to (fuel : nat) (t : Z) : list (list Z) :=
  match fuel with
  | O => []
  | S n => (if start t then [[]] else []) ++ flat_map (fun q => map (fun p => p ++ [q]) (paths_to n (sr q))) (inarcs t)
  end.
Lemma paths_to_fuel n : forall m t, (rank t < n)%nat -> (rank t < m)%nat -> paths_to n t = paths_to m t.
Proof.
  induction n as [|n IH]; intros [|m] t H1 H2; try lia. cbn [paths_to]. f_equal. rewrite !flat_map_concat_map. f_equal. apply map_ext_in. intros q Hq. apply in_inarcs in Hq as (Bq & <-).
  specialize (RK q Bq). now rewrite (IH m) by lia.
Qed.
Lemma paths_to_ok n : forall t, (rank t < n)%nat -> forall p, In p (paths_to n t) <-> exists s, start s = true /\ gpath s p t.
Proof.
  induction n as [|n IH]; intros t Ht p; [lia|]. cbn [paths_to]. rewrite in_app_iff, in_flat_map. split.
  - intros [H|(q & Hq & H)].
    + destruct (start t) eqn:E; [|destruct H]. destruct H as [<-|[]]. exists t. split; auto. reflexivity.
    + apply in_inarcs in Hq as (Bq & <-). apply in_map_iff in H as (p' & <- & H). apply IH in H as (s & S1 & S2); [|specialize (RK q Bq); lia].
      exists s. split; auto. apply gpath_snoc. auto.
  - intros (s & S1 & S2). destruct p as [|q p _] using rev_ind.
    + left. cbn in S2. subst. rewrite S1. now left.
    + right. apply gpath_snoc in S2 as (S2 & Bq & <-). exists q. split; [now apply in_inarcs|]. apply (in_map (fun x => x ++ [q])). apply IH; [specialize (RK q Bq); lia|eauto].
Qed.
Lemma NoDup_flat_map {X Y} (g : X -> list Y) (l : list X) : NoDup l -> (forall x, In x l -> NoDup (g x)) -> (forall x x' y, In x l -> In x' l -> In y (g x) -> In y (g x') -> x = x') -> NoDup (flat_map g l).
Proof using.
  clear. induction 1 as [|x l Hx HN IH]; intros H1 H2; [constructor|]. cbn [flat_map]. apply NoDup_app_disj.
  - apply H1. now left.
  - apply IH; [intros; apply H1; now right|intros; eapply H2; eauto; now right].
  - intros y Hy Hy'. apply in_flat_map in Hy' as (x' & Hx' & Hy'). assert (x = x') by (eapply H2; eauto; [now left|now right]). subst. auto.
Qed.
Lemma paths_to_nodup n : forall t, NoDup (paths_to n t).
Proof using.
  clear. induction n as [|n IH]; intros t; [constructor|]. cbn [paths_to]. apply NoDup_app_disj.
  - destruct (start t); repeat constructor. intros [].
  - apply NoDup_flat_map; [apply NoDup_filter, NoDup_zrange| |].
    + intros q _. apply FinFun.Injective_map_NoDup; auto. intros x y H. now apply app_inj_tail in H.
    + intros q q' p _ _ H H'. apply in_map_iff in H as (x & <- & _). apply in_map_iff in H' as (y & H & _). now apply app_inj_tail in H.
  - intros p H1 H2. destruct (start t); [|destruct H1]. destruct H1 as [<-|[]]. apply in_flat_map in H2 as (q & _ & H2). apply in_map_iff in H2 as (p & H2 & _). now destruct p.
Qed.

Variables (l : bool) (w : Z -> option R).
Definition tot_to (t : Z) : option R := ssum l (map (pweight w) (paths_to (S (rank t)) t)).
Lemma tot_to_rec t : tot_to t = splus l (if start t then lzero else None) (ssum l (map (fun q => ladd (tot_to (sr q)) (w q)) (inarcs t))).
Proof.
  unfold tot_to at 1. cbn [paths_to]. rewrite map_app, ssum_app. f_equal.
  - destruct (start t); [|reflexivity]. cbn [map]. rewrite ssum_cons. cbn [ssum fold_right]. rewrite splus_None_r. reflexivity.
  - rewrite !flat_map_concat_map, concat_map, ssum_concat, !map_map. f_equal. apply map_ext_in. intros q Hq. apply in_inarcs in Hq as (Bq & <-). unfold tot_to.
    rewrite (paths_to_fuel (rank (de q)) (S (rank (sr q)))) by (specialize (RK q Bq); lia). rewrite ssum_distr, !map_map. f_equal. apply map_ext. intros p. now rewrite pweight_app, pweight_1.
Qed.
Lemma tot_to_sum t : path_sum l w (fun p => exists s, start s = true /\ gpath s p t) (tot_to t).
Proof. exists (paths_to (S (rank t)) t). split; [apply paths_to_nodup|]. split; [|reflexivity]. intros p. apply paths_to_ok. lia. Qed.
End Graph.

(** reversal *)
Lemma gpath_rev A sr de p : forall s t, gpath A sr de s p t <-> gpath A de sr t (rev p) s.
Proof.
  induction p as [|q p IH]; intros s t; cbn [rev]; [cbn; split; congruence|]. rewrite gpath_snoc. cbn [gpath]. rewrite IH. tauto.
Qed.

(** ** Paths through an arc *)
Section Through.
Variables (A : Z) (sr de : Z -> Z) (rank : Z -> nat).
Hypothesis RK : forall q, 0 <= q < A -> (rank (sr q) < rank (de q))%nat.
Notation gp := (gpath A sr de).
Lemma gpath_rank p : forall s t, gp s p t -> (rank s <= rank t)%nat /\ (p <> [] -> (rank s < rank t)%nat).
Proof.
  induction p as [|q p IH]; intros s t H; cbn in H.
  - subst. split; [lia|congruence].
  - destruct H as (Bq & <- & H). specialize (RK q Bq). destruct (IH _ _ H) as (I & _). split; lia.
Qed.
(** an arc is used at most once, so the split is unique *)
Lemma split_unique q p1 p2 p1' p2' s t : gp s (p1 ++ q :: p2) t -> p1 ++ q :: p2 = p1' ++ q :: p2' -> p1 = p1' /\ p2 = p2'.
Proof.
  revert p1' s. induction p1 as [|x p1 IH]; intros p1' s H E.
  - destruct p1' as [|y p1']; [injection E as <-; auto|]. exfalso. injection E as <- E. cbn [app gpath] in H. destruct H as (Bq & <- & H). subst p2.
    rewrite gpath_app in H. destruct H as (u & H1 & H2). cbn in H2. destruct H2 as (_ & <- & _). pose proof (proj1 (gpath_rank _ _ _ H1)). specialize (RK q Bq). lia.
  - destruct p1' as [|y p1'].
    + exfalso. injection E as -> E. cbn [app gpath] in H. destruct H as (Bq & <- & H). rewrite gpath_app in H. destruct H as (u & H1 & H2). cbn in H2. destruct H2 as (_ & <- & _).
      pose proof (proj1 (gpath_rank _ _ _ H1)). specialize (RK q Bq). lia.
    + injection E as <- E. cbn [app gpath] in H. destruct H as (_ & _ & H). destruct (IH _ _ H E) as (-> & ->). auto.
Qed.
End Through.
