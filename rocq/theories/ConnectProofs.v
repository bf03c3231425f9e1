From Coq Require Import ZArith List Lia Bool Permutation.
From Coq Require Import ZifyBool ZifyNat.
From Verif Require Import Base RaggedModel RaggedSpec RaggedProofs FsaSpec FsaLemmas FsaOpsModel FsaOpsProofs SelectProofs
  EpsLoopProofs RaggedOpsModel RaggedOpsProofs RaggedListProofs OpsModel OpsProofs FstSpec GraphProofs PropsModel PropsProofs ReverseModel ReverseProofs
  ConnectModel ConnectSpec.
Import ListNotations.
Open Scope Z_scope.

Definition fair (ord : Z -> list Z) : Prop := forall n, is_sched n (ord n).

(** ** Marking flags in any order *)
Lemma foldM_set (l : list Z) : forall m : list bool, Forall (fun s => 0 <= s < zlen m) l ->
  exists m', foldM (fun m s => wr m s true) l m = Some m' /\ zlen m' = zlen m /\
    forall s, rd m' s = if existsb (fun x => x =? s) l then Some true else rd m s.
Proof.
  induction l as [|x l IH]; intros m H; cbn [foldM existsb].
  { exists m. auto. }
  inversion H as [|? ? Hx Hl]; subst. destruct (wr_Some m x true Hx) as (m1 & E1 & L1 & R1). rewrite E1.
  destruct (IH m1) as (m' & E & L & R). { eapply Forall_impl; [|exact Hl]. intros; cbn in *; lia. }
  exists m'. split; auto. split; [lia|]. intros s. rewrite R, R1.
  destruct (x =? s) eqn:Es, (existsb (fun x0 => x0 =? s) l); cbn [orb]; auto.
  - replace (s =? x) with true by lia. auto.
  - replace (s =? x) with false by lia. auto.
Qed.

Lemma foldM_rd {A} (l : list A) sched : is_sched (zlen l) sched -> exists l', (forall x, In x l' <-> In x l) /\
  forall (M : Type) (f : M -> A -> option M) m, foldM (fun m i => x <- rd l i;; f m x) sched m = foldM f l' m.
Proof.
  intros HS. assert (HI : forall i, In i sched -> 0 <= i < zlen l) by (intros i Hi; now apply (in_sched _ _ _ HS)).
  assert (G : exists l', (forall x, In x l' <-> exists i, In i sched /\ rd l i = Some x) /\
    forall (M : Type) (f : M -> A -> option M) m, foldM (fun m i => x <- rd l i;; f m x) sched m = foldM f l' m).
  { clear HS. induction sched as [|i sched IH].
    - exists []. split; [|reflexivity]. intros x; split; [intros []|intros (? & [] & _)].
    - destruct IH as (l' & I & F). { intros; apply HI; now right. }
      destruct (rd_in_bound l i) as (x & Hx). { apply HI; now left. }
      exists (x :: l'). split.
      + intros y. cbn [In]. rewrite I. split.
        * intros [<-|(j & Hj & E)]; eauto.
        * intros (j & [<-|Hj] & E); [left; congruence|right; eauto].
      + intros M f m. cbn [foldM]. rewrite Hx. destruct (f m x); auto. }
  destruct G as (l' & I & F). exists l'. split; auto. intros x. rewrite I. split.
  - intros (i & _ & E). eapply rd_In; eauto.
  - intros H. apply In_rd in H as (i & Hi & E). exists i. split; auto. now apply (in_sched _ _ _ HS).
Qed.

Lemma existsb_in l s : existsb (fun x => x =? s) l = true <-> In s l.
Proof.
  rewrite existsb_exists. split.
  - intros (x & H & E). replace s with x by lia. auto.
  - intros H. exists s. split; auto. lia.
Qed.

Lemma kept_from_in keep : forall off t, In t (kept_from off keep) <-> rd keep (t - off) = Some true.
Proof.
  intros off t. split.
  - intros H. apply In_rd in H as (k & _ & H). destruct (rd_kept_from_inv _ _ _ _ H) as (i & -> & E & _).
    now replace (off + i - off) with i by lia.
  - intros H. pose proof (rd_kept_from keep off _ H) as E. apply rd_In in E. now replace (off + (t - off)) with t in E by lia.
Qed.

(** ** One step of a traversal *)
Section T.
Variables (S : Z) (E : Z -> Z -> Prop) (rs2 : list Z) (other : Z -> Z -> option Z)
  (skip : list bool -> Z -> option (list bool)).
Hypothesis HSK : forall kp t, 0 <= t < zlen kp -> rd kp t = Some false -> exists kp', skip kp t = Some kp' /\ zlen kp' = zlen kp /\
  forall s, rd kp' s = rd kp s.
Hypothesis HRS : forall s, 0 <= s < S -> exists b e, rd rs2 s = Some b /\ rd rs2 (s + 1) = Some e /\
  (forall j, b <= j < e -> exists t, other s j = Some t /\ 0 <= t < S /\ E s t) /\
  (forall t, E s t -> exists j, b <= j < e /\ other s j = Some t).

Lemma batch_arcs_ok states : Forall (fun s => 0 <= s < S) states -> exists l, batch_arcs rs2 states = Some l /\
  (forall p, In p l -> In (fst p) states /\ exists t, other (fst p) (snd p) = Some t /\ 0 <= t < S /\ E (fst p) t) /\
  (forall s t, In s states -> E s t -> exists j, In (s, j) l /\ other s j = Some t).
Proof.
  unfold batch_arcs. induction 1 as [|s states Hs HF IH].
  - exists []. split; [reflexivity|]. split; [intros p []|intros s t []].
  - destruct IH as (l & El & I1 & I2). cbn [mapM].
    destruct (HRS s Hs) as (b & e & Eb & Ee & R1 & R2). rewrite Eb, Ee.
    destruct (mapM _ states) as [rows|]; [|discriminate]. injection El as El.
    eexists. split; [reflexivity|]. cbn [concat]. rewrite El. split.
    + intros p Hp. apply in_app_iff in Hp as [Hp|Hp].
      * apply in_map_iff in Hp as (j & <- & Hj). apply in_zrange in Hj. cbn [fst snd]. split; [now left|].
        apply R1. lia.
      * destruct (I1 p Hp) as (H1 & H2). split; auto. now right.
    + intros s' t [<-|Hs'] HE.
      * destruct (R2 t HE) as (j & Hj & O). exists j. split; auto. apply in_app_iff. left. apply in_map_iff.
        exists (j - b). split; [f_equal; lia|]. apply in_zrange. lia.
      * destruct (I2 s' t Hs' HE) as (j & Hj & O). exists j. split; auto. apply in_app_iff. now right.
Qed.

Lemma keep_ok (marked : list bool) l : zlen marked = S ->
  (forall p, In p l -> exists t, other (fst p) (snd p) = Some t /\ 0 <= t < S) ->
  (forall p, In p l -> rd marked (fst p) = Some true) -> forall kp, zlen kp = S ->
  (forall t, 0 <= t < S -> rd marked t = Some true -> rd kp t = Some false) ->
  exists kp', foldM (fun kp p => t <- other (fst p) (snd p);; mt <- rd marked t;;
                             if (t =? fst p) || mt then skip kp t else wr kp t true) l kp = Some kp' /\
    zlen kp' = S /\ forall t, 0 <= t < S -> rd kp' t = Some true <->
      rd kp t = Some true \/ (rd marked t = Some false /\ exists p, In p l /\ other (fst p) (snd p) = Some t).
Proof.
  intros HM. induction l as [|p l IH]; intros HO HK kp HL HI; cbn [foldM].
  { exists kp. split; auto. split; auto. intros t _. split; auto. intros [H|(_ & p & [] & _)]; auto. }
  destruct (HO p (or_introl eq_refl)) as (t & Et & Ht). rewrite Et.
  destruct (rd_in_bound marked t ltac:(lia)) as (mt & Em). rewrite Em.
  assert (HO' : forall p, In p l -> exists t, other (fst p) (snd p) = Some t /\ 0 <= t < S) by (intros; apply HO; now right).
  assert (HK' : forall p, In p l -> rd marked (fst p) = Some true) by (intros; apply HK; now right).
  assert (MT : (t =? fst p) || mt = mt).
  { destruct (t =? fst p) eqn:X; auto. replace t with (fst p) in Em by lia.
    rewrite (HK p (or_introl eq_refl)) in Em. injection Em as <-. reflexivity. }
  rewrite MT. destruct mt.
  - destruct (HSK kp t) as (kp1 & E1 & L1 & R1); [lia|apply HI; auto|]. rewrite E1.
    destruct (IH HO' HK' kp1) as (kp' & F & L & R); [lia|intros; rewrite R1; auto|].
    exists kp'. split; auto. split; auto. intros u Hu. rewrite R, R1 by auto. split.
    + intros [H|(H & q & Hq & O)]; auto. right. split; auto. exists q. split; auto. now right.
    + intros [H|(H & q & [<-|Hq] & O)]; auto; [|right; eauto]. exfalso. congruence.
  - destruct (wr_Some kp t true ltac:(lia)) as (kp1 & E1 & L1 & R1). rewrite E1.
    destruct (IH HO' HK' kp1) as (kp' & F & L & R); [lia| |].
    { intros u Hu Mu. rewrite R1. destruct (u =? t) eqn:X; auto. exfalso. replace u with t in Mu by lia. congruence. }
    exists kp'. split; auto. split; auto. intros u Hu. rewrite R, R1 by auto. split.
    + intros [H|(H & q & Hq & O)].
      * destruct (u =? t) eqn:X; auto. right. replace u with t by lia. split; auto. exists p. split; auto. now left.
      * right. split; auto. exists q. split; auto. now right.
    + intros [H|(H & q & [<-|Hq] & O)].
      * left. destruct (u =? t); auto.
      * left. replace (u =? t) with true; auto. symmetry. apply Z.eqb_eq. congruence.
      * right. split; auto. eauto.
Qed.

Lemma next_batch_ok ord marked states : fair ord -> zlen marked = S -> Forall (fun s => 0 <= s < S) states ->
  exists m' nb, next_batch ord rs2 other skip marked states = Some (m', nb) /\ zlen m' = S /\
    (forall s, rd m' s = if existsb (fun x => x =? s) states then Some true else rd marked s) /\
    match nb with
    | None => forall s t, In s states -> E s t -> rd m' t = Some true
    | Some new => new <> [] /\ forall t, In t new <-> 0 <= t < S /\ rd m' t = Some false /\ exists s, In s states /\ E s t
    end.
Proof.
  intros HF HM HS. unfold next_batch.
  destruct (foldM_rd states (ord (zlen states)) (HF _)) as (l1 & I1 & F1). rewrite (F1 _ (fun m s => wr m s true)).
  destruct (foldM_set l1 marked) as (m' & E1 & L1 & R1).
  { apply Forall_forall. intros x Hx. apply I1 in Hx. rewrite Forall_forall in HS. rewrite HM. auto. }
  rewrite E1.
  assert (R : forall s, rd m' s = if existsb (fun x => x =? s) states then Some true else rd marked s).
  { intros s. rewrite R1. replace (existsb (fun x => x =? s) l1) with (existsb (fun x => x =? s) states); auto.
    apply eq_true_iff_eq. rewrite !existsb_in. symmetry. apply I1. }
  destruct (batch_arcs_ok states HS) as (l & El & B1 & B2). rewrite El.
  destruct (foldM_rd l (ord (zlen l)) (HF _)) as (l2 & I2 & F2).
  rewrite (F2 _ (fun kp p => t <- other (fst p) (snd p);; mt <- rd m' t;;
                             if (t =? fst p) || mt then skip kp t else wr kp t true)).
  pose proof (zlen_nonneg marked).
  destruct (keep_ok m' l2) with (kp := repeat false (length marked)) as (kp' & E2 & L2 & R2).
  - lia.
  - intros p Hp. apply I2, B1 in Hp as (_ & t & ? & ? & _). eauto.
  - intros p Hp. apply I2, B1 in Hp as (Hp & _). rewrite R. apply existsb_in in Hp. now rewrite Hp.
  - rewrite zlen_repeat. unfold zlen in HM. lia.
  - intros t Ht _. rewrite rd_repeat by (unfold zlen in HM; lia). reflexivity.
  - rewrite E2, new2old_kept by apply HF.
    assert (K : forall t, In t (kept_from 0 kp') <-> 0 <= t < S /\ rd m' t = Some false /\ exists s, In s states /\ E s t).
    { intros t. rewrite kept_from_in. replace (t - 0) with t by lia. split.
      - intros H1. pose proof (rd_Some_bound _ _ _ H1) as Ht. rewrite L2 in Ht. split; auto. apply R2 in H1; auto.
        rewrite rd_repeat in H1 by (unfold zlen in HM; lia). destruct H1 as [|(H1 & p & Hp & O)]; [discriminate|].
        split; auto. apply I2, B1 in Hp as (Hp & t' & O' & _ & HE). exists (fst p). split; auto. congruence.
      - intros (Ht & Hm & s & Hs & HE). apply R2; auto. right. split; auto.
        destruct (B2 s t Hs HE) as (j & Hj & O). exists (s, j). split; auto. now apply I2. }
    exists m'. eexists. split; [reflexivity|]. split; [lia|]. split; auto.
    destruct (zlen (kept_from 0 kp') =? 0) eqn:Z0.
    + intros s t Hs HE. assert (Ht : 0 <= t < S).
      { destruct (B2 s t Hs HE) as (j & Hj & O). destruct (B1 _ Hj) as (_ & t' & O' & Ht & _). cbn [fst snd] in O'. congruence. }
      destruct (rd_in_bound m' t ltac:(lia)) as ([|] & Hb); auto. exfalso.
      assert (X : In t (kept_from 0 kp')). { apply K. eauto 6. }
      replace (kept_from 0 kp') with (@nil Z) in X; [destruct X|]. symmetry. apply zlen_0_nil. lia.
    + split; auto. intros X. rewrite X in Z0. discriminate.
Qed.

(** ** The invariant of a traversal *)
Variable start : list Z.
Hypothesis HST : Forall (fun s => 0 <= s < S) start.
Inductive reach : Z -> Prop :=
| reach_start s : In s start -> reach s
| reach_step s t : reach s -> E s t -> reach t.

Definition tinv (n : Z) (marked : list bool) (fw : option (list Z)) : Prop :=
  zlen marked = S /\
  (forall s, rd marked s = Some true -> reach s) /\
  match fw with
  | Some b => Forall (fun s => 0 <= s < S) b /\ (forall s, In s b -> reach s /\ rd marked s = Some false) /\
      (forall s, In s start -> rd marked s = Some true \/ In s b) /\
      (forall s t, rd marked s = Some true -> E s t -> rd marked t = Some true \/ In t b) /\
      n <= zsum (map b2z marked)
  | None => (forall s, In s start -> rd marked s = Some true) /\
      (forall s t, rd marked s = Some true -> E s t -> rd marked t = Some true)
  end.

Hypothesis HS0 : 0 <= S.
Lemma tinv_init : tinv 0 (repeat false (Z.to_nat S)) (Some start).
Proof using HST HS0.
  clear HSK HRS skip other rs2.
  assert (X : forall s b, rd (repeat false (Z.to_nat S)) s = Some b -> b = false).
  { intros s b H. apply rd_In, repeat_spec in H. auto. }
  assert (Y : forall s, 0 <= s < S -> rd (repeat false (Z.to_nat S)) s = Some false) by (intros; apply rd_repeat; lia).
  unfold tinv. rewrite zlen_repeat. split; [lia|]. split; [intros s H; apply X in H; discriminate|].
  split; auto. split.
  { intros s Hs. split; [now apply reach_start|]. apply Y. rewrite Forall_forall in HST. auto. }
  split; [auto|]. split; [intros s t H; apply X in H; discriminate|].
  apply zsum_nonneg. apply Forall_forall. intros x Hx. apply in_map_iff in Hx as ([|] & <- & _); cbn; lia.
Qed.

Lemma count_mono (m m' : list bool) : zlen m = zlen m' -> (forall s, rd m s = Some true -> rd m' s = Some true) ->
  zsum (map b2z m) <= zsum (map b2z m') /\
  ((exists s, rd m s = Some false /\ rd m' s = Some true) -> zsum (map b2z m) + 1 <= zsum (map b2z m')).
Proof using. clear HSK HRS HST HS0 skip other rs2 start E S.
  revert m'; induction m as [|b m IH]; intros [|b' m'] HL H; rewrite ?zlen_cons, ?zlen_nil in HL; try (pose proof (zlen_nonneg m'); lia); try (pose proof (zlen_nonneg m); lia).
  - cbn. split; [lia|]. intros (s & Hs & _). now rewrite rd_nil in Hs.
  - assert (H1 : b = true -> b' = true). { intros ->. specialize (H 0 eq_refl). injection H as ->. reflexivity. }
    assert (H2 : forall s, rd m s = Some true -> rd m' s = Some true).
    { intros s Hs. pose proof (rd_Some_bound _ _ _ Hs). specialize (H (s + 1)). rewrite !rd_cons_S in H by lia. auto. }
    destruct (IH m' ltac:(lia) H2) as (I1 & I2). cbn [map zsum].
    assert (B : b2z b <= b2z b'). { destruct b; [rewrite H1; auto; lia|destruct b'; cbn; lia]. }
    split; [lia|]. intros (s & Hs & Hs'). rewrite rd_cons in Hs, Hs'. destruct (s =? 0).
    + injection Hs as ->. injection Hs' as ->. cbn. lia.
    + assert (zsum (map b2z m) + 1 <= zsum (map b2z m')) by eauto. lia.
Qed.

Lemma count_le (m : list bool) : zsum (map b2z m) <= zlen m.
Proof using. clear HSK HRS HST HS0 skip other rs2 start E S. induction m as [|[|] m IH]; cbn [map zsum b2z]; rewrite ?zlen_cons, ?zlen_nil; lia. Qed.

Lemma tinv_step ord n marked b : fair ord -> tinv n marked (Some b) ->
  exists m' nb, next_batch ord rs2 other skip marked b = Some (m', nb) /\ tinv (n + 1) m' nb.
Proof.
  intros HF (L & I1 & BR & I2 & I3 & I4 & I5). destruct (next_batch_ok ord marked b HF L BR) as (m' & nb & EN & L' & R & N).
  exists m', nb. split; auto. unfold tinv. split; auto.
  assert (M1 : forall s, rd m' s = Some true <-> In s b \/ rd marked s = Some true).
  { intros s. rewrite R. destruct (existsb _ b) eqn:X.
    - apply existsb_in in X. tauto.
    - split; auto. intros [H|H]; auto. apply existsb_in in H. congruence. }
  split. { intros s Hs. apply M1 in Hs as [Hs|Hs]; [apply I2; auto|auto]. }
  assert (ST : forall s, In s start -> rd m' s = Some true). { intros s Hs. apply M1. destruct (I3 s Hs); auto. }
  destruct nb as [new|].
  - destruct N as (NN & N). split. { apply Forall_forall. intros t Ht. apply N in Ht. tauto. }
    split. { intros t Ht. apply N in Ht as (_ & Hm & s & Hs & HE). split; auto. eapply reach_step; eauto. apply I2; auto. }
    split; [auto|]. split.
    + intros s t Hs HE. assert (Ht : 0 <= t < S).
      { assert (Hs' : 0 <= s < S) by (apply rd_Some_bound in Hs; lia). destruct (HRS s Hs') as (x & y & _ & _ & R1 & R2).
        destruct (R2 t HE) as (j & Hj & O). destruct (R1 j Hj) as (t' & O' & Ht & _). congruence. }
      apply M1 in Hs as [Hs|Hs].
      * destruct (rd_in_bound m' t ltac:(lia)) as ([|] & Hb); auto. right. apply N. eauto 6.
      * left. apply M1. destruct (I4 s t Hs HE); auto.
    + destruct b as [|s0 b].
      { exfalso. apply NN. destruct new as [|t new]; auto. exfalso. destruct (proj1 (N t) (or_introl eq_refl)) as (_ & _ & s & [] & _). }
      assert (zsum (map b2z marked) + 1 <= zsum (map b2z m')); [|lia].
      apply count_mono; [lia|intros s Hs; apply M1; auto|]. exists s0. split; [apply I2; now left|apply M1; left; now left].
  - split; auto. intros s t Hs HE. apply M1 in Hs as [Hs|Hs]; [eauto|]. apply M1. destruct (I4 s t Hs HE); auto.
Qed.

Lemma tinv_done n marked : tinv n marked None -> zlen marked = S /\ forall s, rd marked s = Some true <-> reach s.
Proof.
  intros (L & I1 & I2 & I3). split; auto. intros s. split; auto. induction 1; eauto.
Qed.
Lemma tinv_bound n marked b : tinv n marked (Some b) -> n <= S.
Proof using. clear HSK HRS HST HS0 skip other rs2. intros (L & _ & _ & _ & _ & _ & H). pose proof (count_le marked). lia. Qed.
Lemma tinv_weaken n n' marked fw : n' <= n -> tinv n marked fw -> tinv n' marked fw.
Proof using. clear HSK HRS HST HS0 skip other rs2. intros H (L & I1 & I2). split; auto. split; auto. destruct fw; auto. intuition lia. Qed.
End T.

(** ** The two traversals of an FsaVec *)
Section C.
Variable fs : list nfsa.
Hypothesis WF : Forall well_formed fs.
Let SO : Forall src_ok fs.
Proof. eapply Forall_impl; [|exact WF]. now intros f (H & _). Qed.
Let DO : Forall (fun f : nfsa => forall a, In a (all_arcs f) -> 0 <= dst a < nstates f) fs.
Proof. eapply Forall_impl; [|exact WF]. now intros f (_ & H). Qed.

Let S := zlen (concat fs).
Let A := concat (concat fs).

Definition edge (s t : Z) : Prop :=
  exists k f a, rd fs k = Some f /\ In a (all_arcs f) /\ s = off1 fs k + src a /\ t = off1 fs k + dst a.

Lemma S_nonneg : 0 <= S.
Proof. apply zlen_nonneg. Qed.

Lemma state_range k f i : rd fs k = Some f -> 0 <= i < zlen f -> 0 <= off1 fs k + i < S.
Proof.
  intros H Hi. pose proof (off1_nonneg fs k). pose proof (off1_next fs k f H). pose proof (off1_bound fs (k + 1)). unfold S. lia.
Qed.
Lemma state_pos s : 0 <= s < S -> exists k f i st, rd fs k = Some f /\ rd f i = Some st /\ s = off1 fs k + i /\ 0 <= i < zlen f.
Proof.
  intros H. destruct (rd_in_bound (concat fs) s H) as (st & E). destruct (rd_concat_inv _ _ _ E) as (k & f & i & H1 & H2 & H3 & _).
  exists k, f, i, st. pose proof (rd_Some_bound _ _ _ H2). auto.
Qed.
Lemma arc_src k f a : rd fs k = Some f -> In a (all_arcs f) -> 0 <= src a < zlen f /\ 0 <= dst a < zlen f.
Proof.
  intros H Ha. rewrite Forall_forall in WF. destruct (WF f (rd_In _ _ _ H)) as (W1 & W2).
  split; [apply src_ok_range; auto|apply W2; auto].
Qed.

(** position of a row of the state layer *)
Lemma row_at k f r st : rd fs k = Some f -> rd f r = Some st ->
  rd (splits_of (concat fs)) (off1 fs k + r) = Some (off1 (map (@concat arc) fs) k + off1 f r) /\
  rd (splits_of (concat fs)) (off1 fs k + r + 1) = Some (off1 (map (@concat arc) fs) k + off1 f r + zlen st).
Proof.
  intros Hk Hr. destruct (rd_concat_off fs k f r st Hk Hr) as (P1 & P2). pose proof (rd_Some_bound _ _ _ P1).
  pose proof (rd_Some_bound _ _ _ Hr).
  rewrite !rd_splits_off by lia. rewrite (off1_next _ _ _ P1).
  pose proof (off1_concat fs k f r Hk ltac:(lia)) as O. rewrite <- off1_map_concat in O. rewrite O. split; f_equal; lia.
Qed.

Lemma fwd_rows s : 0 <= s < S -> exists b e, rd (splits_of (concat fs)) s = Some b /\ rd (splits_of (concat fs)) (s + 1) = Some e /\
  (forall j, b <= j < e -> exists t, fwd_other (gdest fs) s j = Some t /\ 0 <= t < S /\ edge s t) /\
  (forall t, edge s t -> exists j, b <= j < e /\ fwd_other (gdest fs) s j = Some t).
Proof.
  intros Hs. destruct (state_pos s Hs) as (k & f & r & st & Hk & Hr & -> & Hrb).
  destruct (row_at k f r st Hk Hr) as (E1 & E2). eexists _, _. split; [exact E1|]. split; [exact E2|]. unfold fwd_other. split.
  - intros j Hj. destruct (rd_in_bound st (j - (off1 (map (@concat arc) fs) k + off1 f r)) ltac:(lia)) as (a & Ha).
    exists (off1 fs k + dst a). pose proof (rd_gdest fs k f r st _ a Hk Hr Ha) as G.
    match type of G with rd _ ?x = _ => replace x with j in G by lia end. split; auto.
    assert (Ia : In a (all_arcs f)) by (eapply in_all; eauto). split; [apply (state_range k f); auto; now apply (arc_src k f a)|].
    exists k, f, a. repeat split; auto. f_equal. symmetry.
    destruct (arc_at fs SO DO k f r st _ a Hk Hr Ha) as (_ & _ & X & _). exact X.
  - intros t (k' & f' & a & Hk' & Ha & Es & ->). destruct (arc_src k' f' a Hk' Ha) as (B1 & B2).
    destruct (row_unique fs k f r k' f' (src a) Hk Hk' ltac:(lia) B1 Es) as (-> & Er & ->).
    apply all_in in Ha as (r' & st' & j & H1 & H2). 
    destruct (arc_at fs SO DO k' f' r' st' j a Hk' H1 H2) as (_ & _ & X & _). subst r'. rewrite <- Er in H1.
    assert (st' = st) by congruence. subst st'. exists (off1 (map (@concat arc) fs) k' + off1 f' r + j).
    pose proof (rd_Some_bound _ _ _ H2). split; [lia|]. apply (rd_gdest fs k' f' r st j a); auto.
Qed.

Lemma bwd_rows s : 0 <= s < S -> exists b e, rd (splits_of (buckets (gdest fs) S)) s = Some b /\
  rd (splits_of (buckets (gdest fs) S)) (s + 1) = Some e /\
  (forall j, b <= j < e -> exists t, bwd_other (flat_vec fs) (ids_of fs) (concat (buckets (gdest fs) S)) s j = Some t /\ 0 <= t < S /\ edge t s) /\
  (forall t, edge t s -> exists j, b <= j < e /\ bwd_other (flat_vec fs) (ids_of fs) (concat (buckets (gdest fs) S)) s j = Some t).
Proof.
  intros Hs. destruct (state_pos s Hs) as (k & f & r & st & Hk & Hr & Es & Hrb).
  set (B := buckets (gdest fs) S).
  assert (RB : rd B s = Some (bucket (gdest fs) s (zlen (gdest fs)))).
  { unfold B, buckets. rewrite rd_tab; auto. }
  assert (LB : zlen B = S) by (unfold B, buckets; apply zlen_tab; apply S_nonneg).
  assert (OT : forall j i, rd (bucket (gdest fs) s (zlen (gdest fs))) j = Some i ->
    exists t, bwd_other (flat_vec fs) (ids_of fs) (concat B) s (off1 B s + j) = Some t /\ 0 <= t < S /\ edge t s /\
              rd (ids_of (concat fs)) i = Some t).
  { intros j i Hj. destruct (rd_concat_off B s _ j i RB Hj) as (P & _). unfold bwd_other. rewrite P.
    pose proof (rd_In _ _ _ Hj) as Hin. apply in_bucket in Hin as (Hi & Hd). rewrite zlen_gdest in Hi.
    destruct (arc_pos fs i Hi) as (k' & f' & r' & st' & j' & a & K1 & K2 & K3 & ->).
    rewrite (rd_gdest fs k' f' r' st' j' a) in Hd by auto. injection Hd as Hd.
    destruct (arc_at fs SO DO k' f' r' st' j' a K1 K2 K3) as (A1 & A2 & A3 & A4).
    rewrite Es in Hd. destruct (row_unique fs k' f' (dst a) k f r K1 Hk A4 Hrb Hd) as (-> & Er & ->).
    rewrite Es. destruct (pos_facts fs k f r st Hk Hr) as (F1 & F2 & _). rewrite F1. cbn [flat_vec v_arcs v_rs1]. rewrite A1, F2.
    rewrite A3. eexists. split; [reflexivity|]. rewrite A2. pose proof (rd_Some_bound _ _ _ K2). split; [now apply (state_range k f)|].
    split; auto. exists k, f, a. repeat split; auto; try (eapply in_all; eauto); lia. }
  exists (off1 B s), (off1 B s + zlen (bucket (gdest fs) s (zlen (gdest fs)))). split; [apply rd_splits_off; lia|].
  split; [rewrite <- (off1_next _ _ _ RB); apply rd_splits_off; lia|]. split.
  - intros j Hj. destruct (rd_in_bound (bucket (gdest fs) s (zlen (gdest fs))) (j - off1 B s) ltac:(lia)) as (i & Hi).
    destruct (OT _ _ Hi) as (t & O & Ht & HE & _). replace (off1 B s + (j - off1 B s)) with j in O by lia. eauto.
  - intros t (k' & f' & a & Hk' & Ha & Et & Es'). apply all_in in Ha as (r' & st' & j' & H1 & H2).
    destruct (arc_at fs SO DO k' f' r' st' j' a Hk' H1 H2) as (A1 & A2 & A3 & A4).
    pose proof (rd_gdest fs k' f' r' st' j' a Hk' H1 H2) as G. rewrite <- Es' in G.
    set (i := off1 (map (@concat arc) fs) k' + off1 f' r' + j') in *.
    assert (Hin : In i (bucket (gdest fs) s (zlen (gdest fs)))).
    { apply in_bucket. split; auto. apply rd_Some_bound in G. exact G. }
    apply In_rd in Hin as (j & Hj & Hin). destruct (OT _ _ Hin) as (t' & O & _ & _ & X). rewrite A2 in X. injection X as <-.
    exists (off1 B s + j). split; [lia|]. rewrite O. f_equal. lia.
Qed.

Lemma nonempty_row : fsa_nonempty (splits_of fs) = map zlen (map (fun f : nfsa => if 0 <? zlen f then [0] else []) fs).
Proof. rewrite fsa_nonempty_eq, map_map. apply map_ext. intros f. destruct (0 <? zlen f); reflexivity. Qed.

Lemma end_batch_ok pick g : (forall k f, rd fs k = Some f -> 0 < zlen f -> pick k = Some (g k f)) ->
  exists l, end_batch (splits_of fs) pick = Some l /\
    forall x, In x l <-> exists k f, rd fs k = Some f /\ 0 < zlen f /\ x = g k f.
Proof.
  intros H. unfold end_batch. rewrite nonempty_row. set (E := map (fun f : nfsa => if 0 <? zlen f then [0] else []) fs).
  fold (splits_of E). rewrite zlen_splits_of. replace (zlen fs + 1 - 1) with (zlen E) by (unfold E; rewrite zlen_map; lia).
  pose proof (zlen_nonneg E). rewrite rd_splits_off by lia. rewrite off1_all, row_ids_of_splits.
  assert (IE : forall k, In k (ids_of E) <-> exists f, rd fs k = Some f /\ 0 < zlen f).
  { intros k. split.
    - intros Hk. apply In_rd in Hk as (i & Hi & Ei). unfold ids_of in Hi. rewrite zlen_ids_from in Hi.
      destruct (rd_in_bound (concat E) i Hi) as (x & Hx). destruct (rd_concat_inv _ _ _ Hx) as (k' & l & j & H1 & H2 & _ & H4).
      assert (k' = k) by congruence. subst k'. unfold E in H1. rewrite rd_map in H1. destruct (rd fs k) as [f|]; [|discriminate].
      exists f. split; auto. injection H1 as <-. destruct (0 <? zlen f) eqn:Z0; [lia|]. now rewrite rd_nil in H2.
    - intros (f & Hf & Hn). assert (H1 : rd E k = Some [0]). { unfold E. rewrite rd_map, Hf. cbn. now replace (0 <? zlen f) with true by lia. }
      destruct (rd_concat_off E k [0] 0 0 H1 eq_refl) as (_ & X). eapply rd_In; eauto. }
  assert (M : forall ids, (forall k, In k ids -> exists f, rd fs k = Some f /\ 0 < zlen f) ->
    exists l, mapM pick ids = Some l /\ forall x, In x l <-> exists k f, In k ids /\ rd fs k = Some f /\ x = g k f).
  { induction ids as [|k ids IH]; intros HI; cbn [mapM].
    - exists []. split; auto. intros x. split; [intros []|intros (? & ? & [] & _)].
    - destruct (HI k (or_introl eq_refl)) as (f & Hf & Hn). rewrite (H k f Hf Hn).
      destruct IH as (l & -> & I). { intros; apply HI; now right. }
      eexists. split; [reflexivity|]. intros x. cbn [In]. rewrite I. split.
      + intros [<-|(k' & f' & ? & ? & ?)]; [exists k, f; auto|exists k', f'; auto].
      + intros (k' & f' & [<-|?] & G1 & ->); [left; congruence|right; eauto]. }
  destruct (M (ids_of E)) as (l & El & I). { intros k Hk. now apply IE. }
  exists l. split; auto. intros x. rewrite I. split.
  - intros (k & f & Hk & Hf & ->). apply IE in Hk as (f' & Hf' & Hn). exists k, f. repeat split; auto. congruence.
  - intros (k & f & Hf & Hn & ->). exists k, f. repeat split; auto. apply IE. eauto.
Qed.

Lemma start_batch_ok : exists l, start_batch (splits_of fs) = Some l /\
    forall x, In x l <-> exists k f, rd fs k = Some f /\ 0 < zlen f /\ x = off1 fs k.
Proof.
  apply (end_batch_ok _ (fun k _ => off1 fs k)). intros k f Hk _. apply rd_splits_off. apply rd_Some_bound in Hk. lia.
Qed.
Lemma final_batch_ok : exists l, final_batch (splits_of fs) = Some l /\
    forall x, In x l <-> exists k f, rd fs k = Some f /\ 0 < zlen f /\ x = off1 fs k + (zlen f - 1).
Proof.
  apply (end_batch_ok _ (fun k f => off1 fs k + (zlen f - 1))). intros k f Hk _.
  rewrite rd_splits_off by (apply rd_Some_bound in Hk; lia). rewrite (off1_next _ _ _ Hk). f_equal. lia.
Qed.

Lemma reach_fwd start : (forall x, In x start <-> exists k f, rd fs k = Some f /\ 0 < zlen f /\ x = off1 fs k) ->
  forall k f i, rd fs k = Some f -> 0 <= i < zlen f ->
  reach edge start (off1 fs k + i) <-> exists p, path (all_arcs f) 0 p i.
Proof.
  intros HS k f i Hk Hi. split.
  - intros H. remember (off1 fs k + i) as s eqn:Es. revert i Hi Es. induction H as [s Hs|s t Hs IH HE]; intros i Hi ->.
    + apply HS in Hs as (k' & f' & H1 & H2 & E). 
      destruct (row_unique fs k f i k' f' 0 Hk H1 Hi ltac:(lia) ltac:(lia)) as (_ & -> & _). exists []. constructor.
    + destruct HE as (k' & f' & a & H1 & H2 & E1 & E2). destruct (arc_src k' f' a H1 H2) as (B1 & B2).
      destruct (row_unique fs k f i k' f' (dst a) Hk H1 Hi B2 E2) as (<- & -> & <-).
      destruct (IH (src a) B1 E1) as (p & P). exists (p ++ [a]). eapply path_app; eauto. now apply path_one.
  - intros (p & P). revert i Hi P. induction p as [|a p IH] using rev_ind; intros i Hi P.
    + destruct (path_inv _ _ _ _ P) as [(_ & <-)|(? & ? & E & _)]; [|discriminate]. apply reach_start, HS. exists k, f. split; auto. lia.
    + apply path_app_inv in P as (m & P1 & P2). destruct (path_inv _ _ _ _ P2) as [(E & _)|(a' & p' & E & Ha & <- & P3)]; [discriminate|].
      injection E as <- <-. destruct (path_inv _ _ _ _ P3) as [(_ & E)|(? & ? & E & _)]; [|discriminate].
      destruct (arc_src k f a Hk Ha) as (B1 & B2). eapply reach_step; [apply (IH (src a)); auto|]. exists k, f, a. subst i. auto.
Qed.

Lemma reach_bwd start : (forall x, In x start <-> exists k f, rd fs k = Some f /\ 0 < zlen f /\ x = off1 fs k + (zlen f - 1)) ->
  forall k f i, rd fs k = Some f -> 0 <= i < zlen f ->
  reach (fun s t => edge t s) start (off1 fs k + i) <-> exists p, path (all_arcs f) i p (final f).
Proof.
  intros HS k f i Hk Hi. split.
  - intros H. remember (off1 fs k + i) as s eqn:Es. revert i Hi Es. induction H as [s Hs|s t Hs IH HE]; intros i Hi ->.
    + apply HS in Hs as (k' & f' & H1 & H2 & E). 
      destruct (row_unique fs k f i k' f' (zlen f' - 1) Hk H1 Hi ltac:(lia) ltac:(lia)) as (_ & -> & ->). exists []. constructor.
    + destruct HE as (k' & f' & a & H1 & H2 & E1 & E2). destruct (arc_src k' f' a H1 H2) as (B1 & B2).
      destruct (row_unique fs k f i k' f' (src a) Hk H1 Hi B1 E1) as (<- & -> & <-).
      destruct (IH (dst a) B2 E2) as (p & P). exists (a :: p). now constructor.
  - intros (p & P). revert i Hi P. induction p as [|a p IH]; intros i Hi P.
    + destruct (path_inv _ _ _ _ P) as [(_ & ->)|(? & ? & E & _)]; [|discriminate]. apply reach_start, HS. exists k, f. repeat split; auto. lia.
    + destruct (path_inv _ _ _ _ P) as [(E & _)|(a' & p' & E & Ha & <- & P3)]; [discriminate|].
      injection E as <- <-. destruct (arc_src k f a Hk Ha) as (B1 & B2). eapply reach_step; [apply (IH (dst a)); auto|]. exists k, f, a. auto.
Qed.
End C.
