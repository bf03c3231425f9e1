(** TopSort: the batches. *)
From Coq Require Import ZArith List Lia Bool Sorted Permutation.
From Coq Require Import ZifyBool ZifyNat.
From Verif Require Import Base RaggedModel RaggedSpec RaggedProofs FsaSpec FsaLemmas FsaOpsModel FsaOpsProofs FsaOpsProps SelectProofs
  EpsLoopProofs RaggedOpsModel RaggedOpsSpec RaggedOpsProofs RaggedOpsProps OpsModel OpsProofs FstSpec GraphProofs PropsModel PropsSpec PropsProofs PropsProps ReverseModel ReverseProofs ReverseProps
  VecElement ConnectModel ConnectSpec ConnectProofs ExtractProofs ConnectRun ConnectProps TopSortModel.
Import ListNotations.
Open Scope Z_scope.

(** ** Counting *)
Lemma count_nil {A} (P : A -> bool) : count P [] = 0.
Proof. reflexivity. Qed.
Lemma count_app {A} (P : A -> bool) l1 l2 : count P (l1 ++ l2) = count P l1 + count P l2.
Proof. unfold count. rewrite filter_app. apply zlen_app. Qed.
Lemma count_perm {A} (P : A -> bool) l l' : Permutation l l' -> count P l = count P l'.
Proof. induction 1; rewrite ?count_cons, ?IHPermutation in *; try lia; try congruence. Qed.
Lemma count_filter {A} (P Q : A -> bool) l : count P (filter Q l) = count (fun x => P x && Q x) l.
Proof. induction l as [|x l IH]; auto. cbn [filter]. destruct (Q x) eqn:E; rewrite !count_cons, ?E, ?andb_true_r, ?andb_false_r, IH; cbn [b2z]; lia. Qed.
Lemma count_map {A B} (P : B -> bool) (g : A -> B) l : count P (map g l) = count (fun x => P (g x)) l.
Proof. induction l as [|x l IH]; auto. cbn [map]. now rewrite !count_cons, IH. Qed.
Lemma count_ext {A} (P Q : A -> bool) l : (forall x, In x l -> P x = Q x) -> count P l = count Q l.
Proof. induction l as [|x l IH]; intros H; auto. rewrite !count_cons, (H x) by (now left). rewrite IH; auto. intros; apply H; now right. Qed.
Lemma count_split {A} (P Q : A -> bool) l : count P l = count (fun x => P x && Q x) l + count (fun x => P x && negb (Q x)) l.
Proof. induction l as [|x l IH]; auto. rewrite !count_cons, IH. destruct (P x), (Q x); cbn; lia. Qed.
Lemma count_mono_le {A} (P Q : A -> bool) l : (forall x, In x l -> P x = true -> Q x = true) -> count P l <= count Q l.
Proof.
  induction l as [|x l IH]; intros H; [reflexivity|]. rewrite !count_cons. pose proof (IH ltac:(intros; apply H; auto; now right)).
  pose proof (H x (or_introl eq_refl)). destruct (P x); [rewrite H1 by auto|destruct (Q x)]; cbn [b2z]; lia.
Qed.
Lemma count_zero {A} (P : A -> bool) l : count P l = 0 <-> forall x, In x l -> P x = false.
Proof.
  induction l as [|x l IH]; [rewrite count_nil; split; auto; intros _ ? []|]. rewrite count_cons. pose proof (count_nonneg P l). split.
  - intros H0 y [<-|Hy]; [destruct (P x); auto; cbn in H0; lia|]. apply IH; auto. destruct (P x); cbn in H0; lia.
  - intros H0. rewrite (H0 x) by (now left). cbn. apply IH. intros; apply H0; now right.
Qed.
Lemma count_pos {A} (P : A -> bool) l : 0 < count P l -> exists x, In x l /\ P x = true.
Proof.
  induction l as [|x l IH]; [rewrite count_nil; lia|]. rewrite count_cons. intros H. destruct (P x) eqn:E; [exists x; split; auto; now left|].
  cbn in H. destruct (IH H) as (y & Hy & Py). exists y. split; auto. now right.
Qed.
Lemma count_one_nodup {A} (P : A -> bool) l x y : count P l <= 1 -> (forall l1 l2, l = l1 ++ l2 -> In x l1 -> In y l2 -> P x = true -> P y = true -> False).
Proof.
  intros H l1 l2 -> H1 H2 P1 P2. rewrite count_app in H.
  assert (0 < count P l1). { pose proof (count_nonneg P l1). destruct (Z.eq_dec (count P l1) 0) as [E|]; [|lia]. rewrite count_zero in E. rewrite (E x H1) in P1. discriminate. }
  assert (0 < count P l2). { pose proof (count_nonneg P l2). destruct (Z.eq_dec (count P l2) 0) as [E|]; [|lia]. rewrite count_zero in E. rewrite (E y H2) in P2. discriminate. }
  lia.
Qed.
Lemma count_nodup l : (forall t, count (Z.eqb t) l <= 1) -> NoDup l.
Proof.
  induction l as [|x l IH]; intros H; constructor.
  - intros I. specialize (H x). rewrite count_cons, Z.eqb_refl in H. cbn in H.
    assert (count (Z.eqb x) l = 0) by (pose proof (count_nonneg (Z.eqb x) l); lia). rewrite count_zero in H0. specialize (H0 x I). rewrite Z.eqb_refl in H0. discriminate.
  - apply IH. intros t. specialize (H t). rewrite count_cons in H. destruct (t =? x); cbn in H; lia.
Qed.
Lemma count_in t l : In t l <-> 0 < count (Z.eqb t) l.
Proof.
  split.
  - intros I. pose proof (count_nonneg (Z.eqb t) l). destruct (Z.eq_dec (count (Z.eqb t) l) 0) as [E|]; [|lia]. rewrite count_zero in E. specialize (E t I). lia.
  - intros H. apply count_pos in H as (x & Hx & E). now replace t with x by lia.
Qed.

Definition at0 (l : list Z) (i : Z) : Z := match rd l i with Some x => x | None => 0 end.
Lemma rd_at0 l i : 0 <= i < zlen l -> rd l i = Some (at0 l i).
Proof. intros H. unfold at0. destruct (rd_in_bound l i H) as (x & ->). reflexivity. Qed.

Lemma foldM_add d l : forall c, Forall (fun t => 0 <= t < zlen c) l ->
  exists c', foldM (add_to d) l c = Some c' /\ zlen c' = zlen c /\ forall t x, rd c t = Some x -> rd c' t = Some (x + d * count (Z.eqb t) l).
Proof.
  induction l as [|y l IH]; intros c H; cbn [foldM].
  - exists c. split; [|split]; auto. intros t x E. rewrite count_nil, E. f_equal. lia.
  - inversion H as [|? ? H1 H2]; subst. unfold add_to at 1. destruct (rd_in_bound c y H1) as (z & Ez). rewrite Ez.
    destruct (wr_Some c y (z + d) H1) as (c1 & E1 & L1 & R1). rewrite E1.
    destruct (IH c1) as (c' & E' & L' & R'). { rewrite L1. auto. } exists c'. split; auto. split; [congruence|].
    intros t x E. rewrite count_cons. rewrite (R' t (if t =? y then z + d else x)).
    + f_equal. destruct (t =? y) eqn:Ety; cbn [b2z]; [|lia]. assert (t = y) by lia. subst t. assert (x = z) by congruence. lia.
    + rewrite R1, E. now destruct (t =? y).
Qed.

(** ** The atomic decrements, in any order *)
Section D.
Variables (dests : list Z) (arcs : list (Z * Z * Z)).
Let dq (i : Z) : Z := match rd arcs i with Some (f, s, p) => at0 dests p | None => 0 end.
Let fq (i : Z) : Z := match rd arcs i with Some (f, s, p) => f | None => 0 end.
Let live (t i : Z) : bool := match rd arcs i with Some (f, s, p) => negb (at0 dests p =? s) && (at0 dests p =? t) | None => false end.
Hypothesis HD : forall f s p, In (f, s, p) arcs -> 0 <= p < zlen dests.

Definition fires (t : Z) (o : option (Z * Z)) : bool := match o with Some (d, _) => d =? t | None => false end.

Lemma dec_fold l : NoDup l -> (forall i, In i l -> 0 <= i < zlen arcs) ->
  forall deg kp, zlen kp = zlen arcs -> (forall t, In t dests -> 0 <= t < zlen deg) ->
  exists deg' kp', foldM (ts_arc dests arcs) l (deg, kp) = Some (deg', kp') /\ zlen deg' = zlen deg /\ zlen kp' = zlen kp /\
    (forall t x, rd deg t = Some x -> rd deg' t = Some (x - count (live t) l)) /\
    (forall i, ~ In i l -> rd kp' i = rd kp i) /\
    (forall i, In i l -> rd kp' i = Some None \/ rd kp' i = Some (Some (dq i, fq i))) /\
    (forall t x, rd deg t = Some x ->
       count (fun i => match rd kp' i with Some o => fires t o | None => false end) l = b2z ((0 <? x) && (x - count (live t) l <=? 0))).
Proof.
  induction l as [|i l IH]; intros ND HR deg kp Lk HB; cbn [foldM].
  - exists deg, kp. repeat split; auto. intros t x E. rewrite count_nil, Z.sub_0_r. auto. intros i [].
    intros t x E. rewrite !count_nil. destruct (0 <? x) eqn:E1; auto. cbn. replace (x - 0 <=? 0) with false by lia. reflexivity.
  - inversion ND as [|? ? N1 N2]; subst. assert (Bi : 0 <= i < zlen arcs) by (apply HR; now left).
    destruct (rd_in_bound arcs i Bi) as ([[f s] p] & Ei). unfold ts_arc at 1. rewrite Ei.
    pose proof (HD f s p (rd_In _ _ _ Ei)) as Bp. rewrite (rd_at0 dests p Bp).
    assert (Bd : 0 <= at0 dests p < zlen deg). { apply HB. eapply rd_In. apply rd_at0. exact Bp. }
    assert (Eq : dq i = at0 dests p) by (unfold dq; now rewrite Ei). assert (Ef : fq i = f) by (unfold fq; now rewrite Ei).
    cbn [fst snd]. destruct (at0 dests p =? s) eqn:El.
    + destruct (wr_Some kp i None ltac:(lia)) as (k1 & W1 & L1 & R1). rewrite W1.
      destruct (IH N2 ltac:(intros; apply HR; now right) deg k1 ltac:(lia) HB) as (deg' & kp' & F1 & F2 & F3 & F4 & F5 & F6 & F7).
      assert (EL : forall t, live t i = false) by (intros t; unfold live; rewrite Ei, El; reflexivity).
      assert (EK : rd kp' i = Some None) by (rewrite F5 by auto; rewrite R1, Z.eqb_refl; auto).
      exists deg', kp'. split; auto. split; auto. split; [lia|]. split; [|split; [|split]].
      * intros t x E. rewrite count_cons, EL. cbn [b2z]. rewrite Z.add_0_l. auto.
      * intros j Hj. rewrite F5 by (intros X; apply Hj; now right). rewrite R1. replace (j =? i) with false; auto.
        symmetry. apply Z.eqb_neq. intros ->. apply Hj. now left.
      * intros j [<-|Hj]; auto.
      * intros t x E. rewrite !count_cons, EL, EK. cbn [b2z fires]. rewrite !Z.add_0_l. auto.
    + destruct (rd_in_bound deg _ Bd) as (y & Ey). rewrite Ey. destruct (wr_Some deg _ (y - 1) Bd) as (d1 & W2 & L2 & R2). rewrite W2.
      set (o := if y - 1 =? 0 then Some (at0 dests p, f) else None).
      destruct (wr_Some kp i o ltac:(lia)) as (k1 & W1 & L1 & R1). rewrite W1.
      destruct (IH N2 ltac:(intros; apply HR; now right) d1 k1 ltac:(lia) ltac:(intros; rewrite L2; auto)) as (deg' & kp' & F1 & F2 & F3 & F4 & F5 & F6 & F7).
      assert (EL : forall t, live t i = (at0 dests p =? t)) by (intros t; unfold live; rewrite Ei, El; reflexivity).
      assert (EK : rd kp' i = Some o) by (rewrite F5 by auto; rewrite R1, Z.eqb_refl; auto).
      exists deg', kp'. split; auto. split; [lia|]. split; [lia|]. split; [|split; [|split]].
      * intros t x E. rewrite count_cons, EL. destruct (at0 dests p =? t) eqn:Et; cbn [b2z].
        -- assert (at0 dests p = t) by lia. subst t. assert (x = y) by congruence. subst x.
           rewrite (F4 _ (y - 1)) by (rewrite R2, Z.eqb_refl; auto). f_equal. lia.
        -- rewrite (F4 t x) by (rewrite R2; replace (t =? at0 dests p) with false by lia; auto). f_equal; lia.
      * intros j Hj. rewrite F5 by (intros X; apply Hj; now right). rewrite R1. replace (j =? i) with false; auto.
        symmetry. apply Z.eqb_neq. intros ->. apply Hj. now left.
      * intros j [<-|Hj]; auto. rewrite EK, Eq, Ef. unfold o. destruct (y - 1 =? 0); auto.
      * intros t x E. rewrite !count_cons, EL, EK. pose proof (count_nonneg (live t) l).
        destruct (at0 dests p =? t) eqn:Et; cbn [b2z].
        -- assert (at0 dests p = t) by lia. subst t. assert (x = y) by congruence. subst x.
           rewrite (F7 _ (y - 1)) by (rewrite R2, Z.eqb_refl; auto). unfold o. destruct (y - 1 =? 0) eqn:E0; cbn [fires].
           ++ rewrite Z.eqb_refl. cbn [b2z]. replace (0 <? y - 1) with false by lia. replace (0 <? y) with true by lia. cbn [andb b2z].
              replace (y - (1 + count (live (at0 dests p)) l) <=? 0) with true by lia. reflexivity.
           ++ cbn [b2z]. rewrite Z.add_0_l. f_equal. f_equal; lia.
        -- rewrite (F7 t x) by (rewrite R2; replace (t =? at0 dests p) with false by lia; auto).
           assert (X : fires t o = false) by (unfold o; destruct (y - 1 =? 0); auto). rewrite X. cbn [b2z]. rewrite !Z.add_0_l. reflexivity.
Qed.
End D.

(** the states that were released *)
Fixpoint somes {A} (l : list (option A)) : list A :=
  match l with [] => [] | Some x :: l => x :: somes l | None :: l => somes l end.
Lemma somes_app {A} (l1 l2 : list (option A)) : somes (l1 ++ l2) = somes l1 ++ somes l2.
Proof. induction l1 as [|[x|] l1 IH]; cbn; auto. now rewrite IH. Qed.
Lemma somes_concat {A} (l : list (list (option A))) : somes (concat l) = concat (map somes l).
Proof. induction l as [|x l IH]; cbn; auto. now rewrite somes_app, IH. Qed.
Lemma in_somes {A} (l : list (option A)) x : In x (somes l) <-> In (Some x) l.
Proof.
  induction l as [|[y|] l IH]; cbn; [tauto| |]; rewrite IH; intuition congruence.
Qed.
Lemma somes_gather {A} (kp : list (option A)) : mapM (fun i => x <- rd kp i;; x) (kept_from 0 (map is_some kp)) = Some (somes kp).
Proof.
  assert (G : forall l off, (forall i x, rd l i = Some x -> rd kp (off + i) = Some x) -> mapM (fun i => x <- rd kp i;; x) (kept_from off (map is_some l)) = Some (somes l)).
  { induction l as [|o l IH]; intros off H; [reflexivity|]. assert (T : forall i x, rd l i = Some x -> rd kp (off + 1 + i) = Some x).
    { intros i x E. rewrite <- Z.add_assoc. apply H. pose proof (rd_Some_bound _ _ _ E). rewrite rd_cons. replace (1 + i =? 0) with false by lia. now replace (1 + i - 1) with i by lia. }
    specialize (IH _ T). assert (H0 : rd kp off = Some o) by (rewrite <- (Z.add_0_r off); apply H; apply rd_cons_0).
    cbn [map kept_from]. destruct o as [x|]; cbn [is_some somes app]; auto. cbn [mapM]. now rewrite H0, IH. }
  apply G. intros i x E. now rewrite Z.add_0_l.
Qed.
Lemma count_somes t (kp : list (option (Z * Z))) : count (Z.eqb t) (map fst (somes kp)) = count (fires t) kp.
Proof.
  induction kp as [|[[d f]|] l IH]; auto; cbn [somes map]; rewrite !count_cons, IH; cbn [fires fst b2z]; auto. now rewrite Z.eqb_sym.
Qed.
Lemma count_index {A} (P : A -> bool) l : count (fun i => match rd l i with Some o => P o | None => false end) (zrange (zlen l)) = count P l.
Proof.
  induction l as [|x l IH]; auto. pose proof (zlen_nonneg l). rewrite zlen_cons, zrange_cons by lia. rewrite !count_cons, rd_cons_0, count_map.
  f_equal. replace (1 + zlen l - 1) with (zlen l) by lia. rewrite <- IH. apply count_ext. intros i Hi. apply in_zrange in Hi.
  rewrite rd_cons. replace (1 + i =? 0) with false by lia. now replace (1 + i - 1) with i by lia.
Qed.
