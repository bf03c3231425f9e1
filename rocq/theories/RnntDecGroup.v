(** * Grouping and pruning the states of one stream *)
From Coq Require Import ZArith List Lia Bool Permutation Sorted.
From Coq Require Import ZifyBool ZifyNat.
From Verif Require Import Base RaggedModel RaggedSpec RaggedProofs FsaSpec FsaLemmas RaggedOpsModel OpsModel RaggedOpsProofs RaggedListProofs IDenseModel IDensePaths RnntDecModel RnntDecList.
From Verif Require DetInv.
Import ListNotations.
Open Scope Z_scope.

Lemma SS_app {A} (R : A -> A -> Prop) a b : StronglySorted R (a ++ b) <-> StronglySorted R a /\ StronglySorted R b /\ forall x y, In x a -> In y b -> R x y.
Proof.
  induction a as [|z a IH]; cbn [app].
  - split; [intros H; repeat split; auto; [constructor|easy]|tauto].
  - split.
    + intros H. inversion H as [|? ? H1 H2]; subst. apply IH in H1 as (I1 & I2 & I3). rewrite Forall_forall in H2. split; [constructor; [exact I1|apply Forall_forall; intros; apply H2, in_or_app; auto]|]. split; [exact I2|].
      intros x y [<-|Hx] Hy; [apply H2, in_or_app; auto|auto].
    + intros (H1 & H2 & H3). inversion H1 as [|? ? H4 H5]; subst. constructor; [apply IH; split; [exact H4|split; [exact H2|intros; apply H3; [now right|assumption]]]|]. rewrite Forall_forall in *. intros x Hx. apply in_app_or in Hx as [Hx|Hx]; [auto|apply H3; [now left|exact Hx]].
Qed.
Lemma select_concat_in {A} (ll : list (list A)) keep x : In x (concat (select ll keep)) -> In x (concat ll).
Proof. intros H. apply in_concat in H as (l & H1 & H2). apply select_in in H1 as (i & H1 & _). apply in_concat. exists l. split; [eapply rd_In; eauto|exact H2]. Qed.
Lemma SS_concat_select {A} (R : A -> A -> Prop) ll : StronglySorted R (concat ll) -> forall keep, StronglySorted R (concat (select ll keep)).
Proof.
  induction ll as [|l ll IH]; intros H [|b keep]; unfold select in *; cbn [combine filter map concat]; try constructor. cbn [concat] in H. apply SS_app in H as (H1 & H2 & H3). specialize (IH H2 keep).
  destruct b; cbn [snd map fst concat]; [|exact IH]. apply SS_app. split; [exact H1|]. split; [exact IH|]. intros x y Hx Hy. apply H3; [exact Hx|]. exact (select_concat_in ll keep y Hy).
Qed.
Lemma zlen_concat_select {A} (ll : list (list A)) keep : zlen (concat (select ll keep)) <= zlen (concat ll).
Proof.
  revert keep. induction ll as [|l ll IH]; intros [|b keep]; unfold select in *; cbn [combine filter map concat]; try (rewrite ?zlen_nil; apply zlen_nonneg); [lia|lia|]. specialize (IH keep). rewrite zlen_app. pose proof (zlen_nonneg l). destruct b; cbn [snd map fst concat]; rewrite ?zlen_app; lia.
Qed.
Lemma SS_bound l N : 0 <= N -> StronglySorted Z.lt l -> (forall x, In x l -> 0 <= x < N) -> zlen l <= N.
Proof.
  intros HN HS HB. assert (I : incl l (zrange N)) by (intros x Hx; apply in_zrange; auto). pose proof (NoDup_incl_length (SS_lt_NoDup _ HS) I) as L. pose proof (zlen_zrange N). unfold zlen in *. lia.
Qed.
Lemma SS_map {A B} (f : A -> B) (R : B -> B -> Prop) l : StronglySorted (fun x y => R (f x) (f y)) l -> StronglySorted R (map f l).
Proof. induction 1 as [|x l HS IH HF]; cbn; constructor; auto. apply Forall_forall. intros y Hy. apply in_map_iff in Hy as (z & <- & Hz). rewrite Forall_forall in HF. auto. Qed.

Section Group.
Context (g : fsa) (cl : list cand).
Hypothesis Hn : 0 < ngs g.
Notation n := (ngs g).
Notation vl := (val_of cl).
Definition sval (l : list Z) : Z := kof (val_of cl) l.
Definition cval (x : list (list Z)) : Z := kof (fun l => sval l / n) x.
Definition apart (x y : list (list Z)) : Prop := forall l m, In l x -> In m y -> sval l / n < sval m / n.
Notation gr := (group g cl).

Lemma group_ok : Permutation (zrange (zlen cl)) (concat (concat gr)) /\
  StronglySorted (fun l m => sval l < sval m) (concat gr) /\
  (forall l, In l (concat gr) -> l <> [] /\ forall i, In i l -> vl i = sval l) /\
  (forall x, In x gr -> x <> [] /\ forall l, In l x -> sval l / n = cval x) /\
  StronglySorted (fun x y => cval x < cval y) gr.
Proof.
  unfold group. set (order := stable_sort _ _). set (sts := runs (fun p q => vl p =? vl q) order).
  assert (So : StronglySorted (fun p q => vl p <= vl q) order).
  { eapply SS_impl; [|apply sort_sorted]; cbn beta; intros; lia. }
  destruct (runs_sorted vl _ (fun x y => eq_refl) order So) as (R1 & R2). fold sts in R1, R2.
  assert (NE : forall r, In r sts -> r <> []) by (intros r; apply runs_ne).
  set (key := fun l => sval l / n).
  assert (Hs : forall l m, (fun l m => match l with i :: _ => vl i / n | [] => 0 end =? match m with i :: _ => vl i / n | [] => 0 end) l m = (key l =? key m)).
  { intros l m. unfold key, sval, kof. destruct l, m; rewrite ?Z.div_0_l by lia; reflexivity. }
  assert (S2 : StronglySorted (fun l m => key l <= key m) sts) by (eapply SS_impl; [|exact R1]; cbn beta; intros a b Hab; unfold key; apply Z.div_le_mono; [lia|unfold sval; lia]).
  destruct (runs_sorted key _ Hs sts S2) as (Q1 & Q2). rewrite (runs_concat _ sts).
  split; [unfold sts; rewrite runs_concat; apply stable_sort_perm|]. split; [exact R1|]. split; [intros l Hl; split; [auto|intros i Hi; apply R2; assumption]|]. split; [|exact Q1].
  intros x Hx. split; [eapply runs_ne; exact Hx|]. intros l Hl. exact (Q2 x l Hx Hl).
Qed.
Lemma gr_apart : StronglySorted apart gr.
Proof.
  destruct group_ok as (_ & _ & _ & D & E). revert D E. generalize gr. intros G D. induction 1 as [|x G HS IH HF]; constructor; [apply IH; intros; apply D; now right|].
  rewrite Forall_forall in *. intros y Hy l m Hl Hm. rewrite (proj2 (D x (or_introl eq_refl)) l Hl), (proj2 (D y (or_intror Hy)) m Hm). auto.
Qed.
Lemma gr_ids i : 0 <= i < zlen cl <-> exists l, In l (concat gr) /\ In i l.
Proof.
  destruct group_ok as (P & _). rewrite <- in_zrange. split.
  - intros H. apply (Permutation_in _ P) in H. apply in_concat in H as (l & H1 & H2). eauto.
  - intros (l & H1 & H2). apply (Permutation_in _ (Permutation_sym P)). apply in_concat. eauto.
Qed.
Lemma gr_counts N : 0 <= N -> (forall i, 0 <= i < zlen cl -> 0 <= vl i < N * n) -> zlen (concat gr) <= N * n /\ zlen gr <= N.
Proof.
  intros HN HV. destruct group_ok as (P & B & C & D & E). assert (X : forall l, In l (concat gr) -> 0 <= sval l < N * n).
  { intros l Hl. destruct (C l Hl) as (C1 & C2). destruct l as [|i l]; [easy|]. rewrite <- (C2 i) by (now left). apply HV. apply gr_ids. exists (i :: l). split; [exact Hl|now left]. }
  split.
  - rewrite <- (zlen_map sval). apply SS_bound; [nia|now apply SS_map|]. intros v Hv. apply in_map_iff in Hv as (l & <- & Hl). auto.
  - rewrite <- (zlen_map cval). apply SS_bound; [exact HN|now apply SS_map|]. intros v Hv. apply in_map_iff in Hv as (x & <- & Hx). destruct (D x Hx) as (D1 & D2). destruct x as [|l x]; [easy|]. rewrite <- (D2 l) by (now left). assert (Hl : 0 <= sval l < N * n) by (apply X; apply in_concat; exists (l :: x); split; [exact Hx|now left]).
    split; [apply Z.div_pos; lia|apply Z.div_lt_upper_bound; lia].
Qed.

(** ** Pruning *)
Context (c : rcfg).
Hypothesis Hb : 0 <= r_beam c.
Record fin_ok (fin : list (list (list Z))) : Prop := {
  fk_sorted : StronglySorted (fun l m => sval l < sval m) (concat fin);
  fk_in : forall l, In l (concat fin) -> In l (concat gr);
  fk_ne : forall x, In x fin -> x <> [] /\ (forall l m, In l x -> In m x -> sval l / n = sval m / n);
  fk_apart : StronglySorted apart fin;
  fk_maxs : 0 < r_maxs c -> zlen (concat fin) <= r_maxs c;
  fk_maxc : 0 < r_maxc c -> zlen fin <= r_maxc c;
  fk_all : forall i, 0 <= i < zlen cl -> (forall j, 0 <= j < zlen cl -> scr_of cl j - r_beam c <= scr_of cl i) ->
    (r_maxs c <= 0 \/ zlen (concat gr) <= r_maxs c) -> (r_maxc c <= 0 \/ zlen gr <= r_maxc c) -> exists l, In l (concat fin) /\ In i l }.

Lemma prune_ok total1 : zlen (concat gr) <= total1 ->
  exists tmp, prune_states c cl total1 gr = Some tmp /\ zlen tmp = zlen gr /\
  forall total2, zlen tmp <= total2 -> exists fin, prune_contexts c cl total2 tmp = Some fin /\ fin_ok fin.
Proof.
  intros HT1. destruct group_ok as (P & B & C & D & E). unfold prune_states.
  set (subs := map (map (scr_of cl)) (concat gr)).
  destruct (prune_axis1_ok (r_beam c) (r_maxs c) total1 subs Hb) as (keep & K1 & K2 & K3 & K4 & K5 & K6); [unfold subs; now rewrite zlen_map|].
  rewrite K1. assert (Zs : zlen subs = zlen (concat gr)) by (unfold subs; apply zlen_map). rewrite Zs in *.
  set (tmp := map (fun p => select (fst p) (snd p)) (combine gr (chop gr keep))). exists tmp. split; [reflexivity|].
  assert (Lc : length (chop gr keep) = length gr) by (pose proof (zlen_chop gr keep); unfold zlen in *; lia).
  assert (Zt : zlen tmp = zlen gr) by (unfold tmp, zlen; rewrite map_length, combine_length; lia). split; [exact Zt|]. intros total2 HT2.
  assert (Ct : concat tmp = select (concat gr) keep) by (apply select_concat; exact K2).
  (* contexts of tmp are parts of contexts of gr *)
  assert (Sub : Forall2 (fun x' x => incl x' x) tmp gr).
  { unfold tmp. revert Lc. generalize (chop gr keep). clear. intros K L. revert K L. induction gr as [|x G IH]; intros [|k K] L; try discriminate; cbn [combine map]; [constructor|]. constructor; [|apply IH; now injection L]. cbn [fst snd]. intros l Hl. apply select_in in Hl as (i & Hi & _). eapply rd_In; eauto. }
  assert (SubIn : forall x', In x' tmp -> exists x, In x gr /\ incl x' x). { clear -Sub. induction Sub as [|a b A1 B1 H1 H2 IH]; [easy|]. intros x' [<-|H]; [exists b; split; [now left|exact H1]|]. destruct (IH x' H) as (x & X1 & X2). exists x. split; [now right|exact X2]. }
  assert (Ap : StronglySorted apart tmp).
  { pose proof gr_apart as GA. clear -Sub GA. induction Sub as [|a b A1 B1 H1 H2 IH]; [constructor|]. inversion GA as [|? ? G1 G2]; subst. constructor; [now apply IH|]. rewrite Forall_forall in *. intros y Hy l m Hl Hm.
    assert (exists y', In y' B1 /\ incl y y') as (y' & Y1 & Y2). { clear -H2 Hy. induction H2 as [|a b A1 B1 H1 H2 IH]; [easy|]. destruct Hy as [<-|Hy]; [exists b; split; [now left|exact H1]|]. destruct (IH Hy) as (y' & Y1 & Y2). exists y'. split; [now right|exact Y2]. }
    apply (G2 y' Y1); auto. }
  (* the scores of the states *)
  assert (SM : forall i l, rd (concat gr) i = Some l -> rd subs i = Some (map (scr_of cl) l)) by (intros i l Hl; unfold subs; rewrite rd_map, Hl; reflexivity).
  unfold prune_contexts. set (subs2 := map (fun x => map (scr_of cl) (concat x)) tmp).
  destruct (prune_axis1_ok (r_beam c) (r_maxc c) total2 subs2 Hb) as (keep2 & L1 & L2 & L3 & L4 & L5 & L6); [unfold subs2; now rewrite zlen_map|].
  assert (Zs2 : zlen subs2 = zlen tmp) by (unfold subs2; apply zlen_map). rewrite Zs2 in *.
  rewrite L1. exists (select tmp keep2). split; [reflexivity|].
  (* if there is a state, one survives *)
  assert (NEt : forall x, In x (select tmp keep2) -> x <> []).
  { intros x Hx ->. apply select_in in Hx as (i & Hi & Hk). pose proof (L3 _ Hk) as IB. assert (Es : smax subs2 i = None) by (unfold smax, subs2; rewrite rd_map, Hi; reflexivity). rewrite Es in IB.
    assert (G0 : gr <> []). { intros G0. pose proof (rd_Some_bound _ _ _ Hi) as X. rewrite Zt, G0, zlen_nil in X. lia. }
    assert (exists l s, rd (concat gr) 0 = Some l /\ In s (map (scr_of cl) l)) as (l & s & Hl & Hs).
    { destruct gr as [|x G] eqn:EG; [easy|]. destruct (D x (or_introl eq_refl)) as (Dx & _). destruct x as [|l x]; [easy|]. exists l. cbn [concat app]. destruct (C l) as (Cl & _); [cbn; now left|]. destruct l as [|i0 l]; [easy|]. exists (scr_of cl i0). split; [apply rd_cons_0|now left]. }
    destruct (sbest_ge _ _ _ _ (SM _ _ Hl) Hs) as (b & Hbst & _). destruct (K5 _ Hbst) as (i1 & Ki & Km). apply smax_in in Km as (ss & Hss & Hbs).
    unfold subs in Hss. rewrite rd_map in Hss. destruct (rd (concat gr) i1) as [l1|] eqn:El1; [|discriminate]. injection Hss as <-.
    assert (Hin : In l1 (concat tmp)) by (rewrite Ct; apply select_in; eauto). apply in_concat in Hin as (x1 & X1 & X2). apply In_rd in X1 as (k1 & _ & X1).
    destruct (sbest_ge subs2 k1 (map (scr_of cl) (concat x1)) b) as (b2 & Hb2 & _).
    - unfold subs2. rewrite rd_map, X1. reflexivity.
    - apply in_map_iff in Hbs as (i2 & <- & Hi2). apply in_map. apply in_concat. eauto.
    - rewrite Hb2 in IB. discriminate. }
  split.
  - apply SS_concat_select. rewrite Ct. apply select_sorted. exact B.
  - intros l Hl. apply select_concat_in in Hl. rewrite Ct in Hl. apply select_in in Hl as (i & Hi & _). eapply rd_In; eauto.
  - intros x Hx. split; [auto|]. apply select_in in Hx as (i & Hi & _). destruct (SubIn x (rd_In _ _ _ Hi)) as (y & Y1 & Y2). destruct (D y Y1) as (_ & D2). intros l m Hl Hm. rewrite (D2 l), (D2 m) by auto. reflexivity.
  - apply select_sorted. exact Ap.
  - intros HM. specialize (K6 HM _ (concat gr) eq_refl). rewrite <- Ct in K6. pose proof (zlen_concat_select tmp keep2). lia.
  - intros HM. apply (L6 HM _ tmp eq_refl).
  - intros i Hi Hgood HM HC. apply gr_ids in Hi as (l & Hl & Hil). pose proof Hl as Hl'. apply In_rd in Hl' as (r & Hr & Hrl).
    assert (Kr : rd keep r = Some true).
    { apply K4; [exact HM|exact Hr|]. destruct (smax_ge _ _ _ (scr_of cl i) (SM _ _ Hrl)) as (b & Eb & Lb); [now apply in_map|]. rewrite Eb. destruct (sbest subs) as [bb|] eqn:Ebb; [|reflexivity]. cbn. destruct (sbest_at _ _ Ebb) as (r2 & _ & Er2). apply smax_in in Er2 as (ss & Hss & Hbs).
      unfold subs in Hss. rewrite rd_map in Hss. destruct (rd (concat gr) r2) as [l2|] eqn:El2; [|discriminate]. injection Hss as <-. apply in_map_iff in Hbs as (i2 & <- & Hi2). assert (0 <= i2 < zlen cl) by (apply gr_ids; exists l2; split; [eapply rd_In; eauto|exact Hi2]). specialize (Hgood i2 H). lia. }
    assert (Hin : In l (concat tmp)) by (rewrite Ct; apply select_in; eauto). apply in_concat in Hin as (x & X1 & X2). apply In_rd in X1 as (k & Hk & X1).
    exists l. split; [|exact Hil]. apply in_concat. exists x. split; [|exact X2]. apply select_in. exists k. split; [exact X1|]. apply L4; [rewrite Zt; exact HC|exact Hk|].
    assert (E2 : rd subs2 k = Some (map (scr_of cl) (concat x))) by (unfold subs2; rewrite rd_map, X1; reflexivity).
    destruct (smax_ge _ _ _ (scr_of cl i) E2) as (b & Eb & Lb); [apply in_map, in_concat; eauto|]. rewrite Eb. destruct (sbest subs2) as [bb|] eqn:Ebb; [|reflexivity]. cbn. destruct (sbest_at _ _ Ebb) as (r2 & _ & Er2). apply smax_in in Er2 as (ss & Hss & Hbs).
    unfold subs2 in Hss. rewrite rd_map in Hss. destruct (rd tmp r2) as [x2|] eqn:Ex2; [|discriminate]. injection Hss as <-. apply in_map_iff in Hbs as (i2 & <- & Hi2). apply in_concat in Hi2 as (l2 & Hl2 & Hi2).
    assert (In l2 (concat tmp)) as Hct by (apply in_concat; exists x2; split; [eapply rd_In; eauto|exact Hl2]). rewrite Ct in Hct. apply select_in in Hct as (z & Hz & _). assert (0 <= i2 < zlen cl) as Hi2' by (apply gr_ids; exists l2; split; [eapply rd_In; eauto|exact Hi2]). specialize (Hgood i2 Hi2'). lia.
Qed.
End Group.
