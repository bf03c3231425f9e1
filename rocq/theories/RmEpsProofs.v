(** * Epsilon removal on the host: forward weights and closures *)
From Coq Require Import ZArith List Lia Bool Sorted.
From Verif Require Import Base RaggedModel RaggedSpec RaggedProofs FsaSpec FsaLemmas OpsModel ScoreSpec ScorePaths ShortestSpec IntersectPaths PropsSpec DetProofs DetLang RmEpsModel RmEpsSpec.
Import ListNotations.
Open Scope Z_scope.

Definition wle (x y : option Z) : Prop := match x, y with None, _ => True | Some a, Some b => a <= b | Some _, None => False end.
Lemma wle_refl x : wle x x. Proof. destruct x; cbn; auto; lia. Qed.
Lemma wle_trans x y z : wle x y -> wle y z -> wle x z. Proof. destruct x, y, z; cbn; auto; try lia; tauto. Qed.
Lemma wlt_false x y : wlt x y = false -> wle y x. Proof. destruct x, y; cbn; auto; try discriminate; lia. Qed.
Lemma wlt_true x y : wlt x y = true -> wle x y. Proof. destruct x, y; cbn; auto; try discriminate; lia. Qed.
Lemma wadd_mono x y w : wle x y -> wle (wadd x w) (wadd y w). Proof. destruct x, y; cbn; auto; lia. Qed.
Lemma wadd_wadd x a b : wadd (wadd x a) b = wadd x (a + b). Proof. destruct x; cbn; f_equal; lia. Qed.

Lemma foldM_app' {S B} (h : S -> B -> option S) l1 l2 s : foldM h (l1 ++ l2) s = (s' <- foldM h l1 s;; foldM h l2 s').
Proof. revert s. induction l1 as [|x l1 IH]; intros s; cbn; [reflexivity|]. destruct (h s x); auto. Qed.

(** paths of epsilon arcs *)
Definition epsp (f : nfsa) (e : list Z) : Prop := forall l, In l (labels (arcs_at f e)) -> l = 0.
Lemma epsp_app f e e' : epsp f (e ++ e') <-> epsp f e /\ epsp f e'.
Proof. unfold epsp. rewrite lb_app. setoid_rewrite in_app_iff. firstorder. Qed.
Lemma epsp_one f j a : rd (all_arcs f) j = Some a -> (epsp f [j] <-> lab a = 0).
Proof. intros H. unfold epsp. rewrite (arcs_at_one f j a H). cbn. split; [intros X; apply X; now left|intros X l [<-|[]]; exact X]. Qed.

Section Rm.
Variable f : nfsa.
Hypothesis HV : valid f.
Hypothesis HT : p_topsorted_acyclic f.
Notation A := (all_arcs f).
Notation n := (nstates f).
Notation lb p := (labels (arcs_at f p)).
Notation scp p := (score (arcs_at f p)).

Lemma arc_row j a : rd A j = Some a -> off1 f (src a) <= j < off1 f (src a + 1) /\ 0 <= src a < n.
Proof.
  intros H. destruct (rd_concat_inv f j a H) as (r & l & k & H1 & H2 & H3 & _). assert (E : src a = r) by (apply (proj1 HV r l a H1); exact (rd_In _ _ _ H2)). rewrite E, (off1_next f r l H1).
  apply rd_Some_bound in H2. apply rd_Some_bound in H1. unfold nstates. lia.
Qed.
Lemma row_arc s j : 0 <= s < n -> off1 f s <= j < off1 f (s + 1) -> exists a, rd A j = Some a /\ src a = s.
Proof.
  intros Hs Hj. destruct (rd_in_bound f s Hs) as (l & Hl). rewrite (off1_next f s l Hl) in Hj. destruct (rd_in_bound l (j - off1 f s)) as (a & Ha); [lia|].
  exists a. destruct (rd_concat_off f s l _ a Hl Ha) as (H1 & _). replace (off1 f s + (j - off1 f s)) with j in H1 by lia. split; [exact H1|]. apply (proj1 HV s l a Hl). exact (rd_In _ _ _ Ha).
Qed.
Lemma arc_fwd j a : rd A j = Some a -> src a < dst a < n.
Proof. intros H. split; [apply HT; exact (rd_In _ _ _ H)|]. destruct HV as (_ & _ & V). apply (V a (rd_In _ _ _ H)). Qed.

Lemma path_in t s p : apath f s p t -> 0 <= s < n -> 0 <= t < n.
Proof. induction 1 as [s|j a p t Ha Hp IH]; [auto|]. intros _. apply IH. pose proof (arc_fwd j a Ha). pose proof (arc_row j a Ha). lia. Qed.

(** ** Forward weights *)
Definition fstep (fw : list (option Z)) (a : arc) : option (list (option Z)) :=
  s <- rd fw (src a);; d <- rd fw (dst a);; let r := wadd s (sc a) in wr fw (dst a) (if wlt d r then r else d).
Definition fin (fw : list (option Z)) (s : Z) : Prop := exists x, rd fw s = Some (Some x).
Lemma fstep_ok fw j a : zlen fw = n -> rd A j = Some a -> exists fw', fstep fw a = Some fw' /\ zlen fw' = n /\
  (forall s, fin fw s -> fin fw' s) /\ (fin fw (src a) -> fin fw' (dst a)) /\
  ((forall s, fin fw s -> exists p, apath f 0 p s) -> forall s, fin fw' s -> exists p, apath f 0 p s).
Proof.
  intros L Ha. pose proof (arc_fwd j a Ha). pose proof (arc_row j a Ha). unfold fstep. destruct (rd_in_bound fw (src a)) as (x & Hx); [lia|]. destruct (rd_in_bound fw (dst a)) as (y & Hy); [lia|]. rewrite Hx, Hy. cbv zeta.
  destruct (wr_Some fw (dst a) (if wlt y (wadd x (sc a)) then wadd x (sc a) else y)) as (fw' & W1 & W2 & W3); [lia|]. exists fw'. split; [exact W1|]. split; [lia|].
  unfold fin. split; [|split].
  - intros s (z & Hz). rewrite W3. destruct (s =? dst a) eqn:E; [|eauto]. apply Z.eqb_eq in E. subst s. rewrite Hy in Hz. injection Hz as ->. destruct (wlt (Some z) (wadd x (sc a))) eqn:Ew; [|eauto]. destruct x; cbn in *; [eauto|discriminate].
  - intros (z & Hz). rewrite Hx in Hz. injection Hz as ->. rewrite W3, Z.eqb_refl. cbn [wadd]. destruct (wlt y (Some (z + sc a))) eqn:Ew; [eauto|]. destruct y; [eauto|discriminate].
  - intros IH s (z & Hz). rewrite W3 in Hz. destruct (s =? dst a) eqn:E; [|eauto]. apply Z.eqb_eq in E. subst s. injection Hz as Hz. destruct (wlt y (wadd x (sc a))).
    + destruct x as [x|]; [|discriminate]. destruct (IH (src a) (ex_intro _ x Hx)) as (p & Hp). exists (p ++ [j]). apply apath_app. exists (src a). split; [exact Hp|]. apply apath1. eauto.
    + subst y. apply IH. eauto.
Qed.
Definition fw0 : list (option Z) := Some 0 :: repeat None (Z.to_nat (n - 1)).
Lemma n2 : 2 <= n. Proof. apply HV. Qed.
Lemma fw0_len : zlen fw0 = n.
Proof. unfold fw0. rewrite zlen_cons. unfold zlen. rewrite repeat_length. pose proof n2. lia. Qed.
Lemma frun l : (forall a, In a l -> In a A) -> forall fw, zlen fw = n -> exists fw', foldM fstep l fw = Some fw' /\ zlen fw' = n /\
  (forall s, fin fw s -> fin fw' s) /\ ((forall s, fin fw s -> exists p, apath f 0 p s) -> forall s, fin fw' s -> exists p, apath f 0 p s).
Proof.
  induction l as [|a l IH]; intros HI fw L; [exists fw; cbn; auto|]. cbn [foldM]. destruct (In_rd A a) as (j & _ & Hj); [apply HI; now left|]. destruct (fstep_ok fw j a L Hj) as (fw1 & E & L1 & M1 & _ & S1). rewrite E.
  destruct (IH (fun b Hb => HI b (or_intror Hb)) fw1 L1) as (fw2 & E2 & L2 & M2 & S2). exists fw2. split; [exact E2|]. split; [exact L2|]. split; auto.
Qed.
Lemma fcomplete p : forall s, apath f 0 p s -> forall k fw, off1 f s <= k <= zlen A -> foldM fstep (firstn (Z.to_nat k) A) fw0 = Some fw -> fin fw s.
Proof.
  assert (FI : forall k a, In a (firstn k A) -> In a A) by (intros k a H; rewrite <- (firstn_skipn k A); apply in_or_app; now left).
  induction p as [|j p IH] using rev_ind; intros s Hp k fw Hk E.
  - apply apath_nil in Hp. subst s. destruct (frun (firstn (Z.to_nat k) A) (FI _) fw0 fw0_len) as (fw' & E' & _ & M & _). rewrite E in E'. injection E' as <-. apply M. exists 0. reflexivity.
  - apply apath_app in Hp as (m & Hp & Hj). apply apath1 in Hj as (a & Ha & Hs & Hd). pose proof (arc_row j a Ha) as (R & R2). pose proof (arc_fwd j a Ha) as FW. assert (JK : j < k) by (pose proof (off1_mono f (src a + 1) s); lia).
    pose proof (rd_Some_bound _ _ _ Ha) as BJ.
    assert (SP : firstn (Z.to_nat k) A = firstn (Z.to_nat j) A ++ a :: skipn (Z.to_nat (j + 1)) (firstn (Z.to_nat k) A)).
    { assert (X : rd (firstn (Z.to_nat k) A) j = Some a).
      { rewrite <- Ha. rewrite <- (firstn_skipn (Z.to_nat k) A) at 2. rewrite rd_app_l; [reflexivity|]. unfold zlen in *. rewrite firstn_length. lia. }
      pose proof (rd_skipn _ _ _ X) as Y. rewrite firstn_firstn in Y. replace (Nat.min (Z.to_nat j) (Z.to_nat k)) with (Z.to_nat j) in Y by lia. exact Y. }
    rewrite SP, foldM_app' in E. destruct (frun (firstn (Z.to_nat j) A) (FI _) fw0 fw0_len) as (fw1 & E1 & L1 & _). rewrite E1 in E. cbn [foldM] in E.
    destruct (fstep_ok fw1 j a L1 Ha) as (fw2 & E2 & L2 & _ & M2 & _). rewrite E2 in E.
    destruct (frun (skipn (Z.to_nat (j + 1)) (firstn (Z.to_nat k) A))) with (fw := fw2) as (fw3 & E3 & _ & M3 & _); [|exact L2|].
    { intros b Hb. apply (FI (Z.to_nat k)). rewrite <- (firstn_skipn (Z.to_nat (j + 1)) (firstn (Z.to_nat k) A)). apply in_or_app. now right. }
    rewrite E in E3. injection E3 as <-. apply M3. rewrite <- Hd. apply M2. rewrite Hs. apply (IH m Hp j fw1); [subst m; lia|exact E1].
Qed.
Lemma forward_ok : exists fw, forward_weights n A = Some fw /\ zlen fw = n /\ forall s, 0 <= s < n -> (fin fw s <-> exists p, apath f 0 p s).
Proof.
  destruct (frun A (fun a H => H) fw0 fw0_len) as (fw & E & L & _ & S). exists fw. split; [exact E|]. split; [exact L|]. intros s Hs. split.
  - apply S. intros s' (x & Hx). unfold fw0 in Hx. rewrite rd_cons in Hx. destruct (s' =? 0) eqn:E0; [apply Z.eqb_eq in E0; subst; exists []; constructor|]. apply rd_In, repeat_spec in Hx. discriminate.
  - intros (p & Hp). apply (fcomplete p s Hp (zlen A) fw); [split; [apply off1_bound|lia]|]. unfold zlen. rewrite Nat2Z.id, firstn_all. exact E.
Qed.

(** ** The closure of one state *)
Variables (smap : list Z) (c i : Z) (f0 : option Z).
Hypothesis Hi : 0 <= i < n.
Hypothesis HS : forall j a, rd A j = Some a -> lab a <> 0 -> exists d, rd smap (dst a) = Some d.

Notation eps e := (epsp f e).
Notation eps_app := (epsp_app f).
Notation eps_one := (epsp_one f).
Inductive tbo : rtb -> Z -> Prop :=
| tbo0 : tbo (R0 i f0) i
| tboS p j a : tbo p (src a) -> rd A j = Some a -> lab a = 0 -> tbo (RS (dst a) j p (wadd (r_fp p) (sc a))) (dst a).
Lemma tbo_ok t s : tbo t s -> apath f i (r_arcs t) s /\ eps (r_arcs t) /\ r_fp t = wadd f0 (scp (r_arcs t)).
Proof.
  induction 1 as [|p j a Hp IH Ha Hl]; cbn [r_arcs r_fp].
  - split; [constructor|]. split; [intros l []|]. cbn. destruct f0; cbn; f_equal; lia.
  - destruct IH as (I1 & I2 & I3). split; [apply apath_app; exists (src a); split; [exact I1|apply apath1; eauto]|]. split; [apply eps_app; split; [exact I2|now apply (eps_one j a Ha)]|].
    rewrite I3, wadd_wadd, scp_app, (arcs_at_one f j a Ha). f_equal. cbn. lia.
Qed.

Lemma taccept_ok m d cur j w : let r := taccept m d cur j w in
  (forall s, s <> d -> tfind (fst r) s = tfind m s) /\
  (tfind m d = None -> snd r = true /\ tfind (fst r) d = Some (RS d j cur (wadd (r_fp cur) w))) /\
  (forall t, tfind m d = Some t -> snd r = false /\ tfind (fst r) d = Some (if wlt (r_fp t) (wadd (r_fp cur) w) then RS d j cur (wadd (r_fp cur) w) else t)).
Proof.
  induction m as [|(s', t') m IH]; cbn [taccept tfind fst snd].
  - split; [intros s Hs; destruct (d =? s) eqn:E; [lia|reflexivity]|]. rewrite Z.eqb_refl. split; [auto|discriminate].
  - destruct (s' =? d) eqn:E; cbn [fst snd tfind].
    + split; [intros s Hs; destruct (s' =? s) eqn:E'; [lia|reflexivity]|]. rewrite E. split; [discriminate|]. intros t Ht. injection Ht as ->. auto.
    + destruct IH as (I1 & I2 & I3). split; [intros s Hs; destruct (s' =? s); auto|]. rewrite E. auto.
Qed.
Lemma qinsert_ok q s : StronglySorted Z.lt q -> StronglySorted Z.lt (qinsert q s) /\ forall x, In x (qinsert q s) <-> x = s \/ In x q.
Proof.
  induction q as [|y q IH]; intros H; cbn [qinsert]; [split; [repeat constructor|cbn; intuition]|]. inversion H as [|? ? H1 H2]; subst. destruct (s <? y) eqn:E1; [|destruct (s =? y) eqn:E2].
  - split; [|cbn; intuition]. constructor; [exact H|]. constructor; [lia|]. eapply Forall_impl; [|exact H2]. cbn. intros; lia.
  - split; [exact H|]. cbn. intros x. split; [auto|]. intros [->|?]; [left; lia|assumption].
  - destruct (IH H1) as (I1 & I2). split; [|cbn; intros x; rewrite I2; intuition]. constructor; [exact I1|]. apply Forall_forall. intros x Hx. apply I2 in Hx as [->|Hx]; [lia|]. eapply Forall_forall in H2; [exact H2|exact Hx].
Qed.

Definition emit (t : rtb) (j : Z) (a : arc) (o : oarc) : Prop :=
  o_src o = c /\ rd smap (dst a) = Some (o_dst o) /\ o_lab o = lab a /\ o_sc o = wsub (wadd (r_fp t) (sc a)) f0 /\ o_der o = r_arcs t ++ [j].
Record LInv (k : Z) (q : list Z) (m : list (Z * rtb)) (out : list oarc) (Dn : Z -> Prop) : Prop := {
  l_sorted : StronglySorted Z.lt q;
  l_q : forall s, In s q -> k < s < n /\ tfind m s <> None;
  l_tb : forall s t, tfind m s = Some t -> tbo t s;
  l_i : tfind m i <> None;
  l_src : forall j a, Dn j -> rd A j = Some a -> src a <= k;
  l_eps : forall j a, Dn j -> rd A j = Some a -> lab a = 0 -> exists t t', tfind m (src a) = Some t /\ tfind m (dst a) = Some t' /\ wle (wadd (r_fp t) (sc a)) (r_fp t');
  l_out : forall o, In o out -> exists j a t, rd A j = Some a /\ lab a <> 0 /\ src a <= k /\ tfind m (src a) = Some t /\ emit t j a o;
  l_all : forall j a, Dn j -> rd A j = Some a -> lab a <> 0 -> exists t o, tfind m (src a) = Some t /\ In o out /\ emit t j a o
}.

Lemma rm_arc_ok k q m out Dn cur j a : LInv k q m out Dn -> rd A j = Some a -> src a = k -> tfind m k = Some cur ->
  exists q' m' out', rm_arc A smap c f0 cur (q, m, out) j = Some (q', m', out') /\ LInv k q' m' out' (fun x => Dn x \/ x = j) /\
    (forall s, s <= k -> tfind m' s = tfind m s) /\ (forall s, tfind m' s <> None -> tfind m s <> None \/ In s q') /\ (forall s, In s q -> In s q').
Proof.
  intros I Ha Hs Hc. pose proof (arc_fwd j a Ha) as FW. unfold rm_arc. rewrite Ha. destruct (lab a =? 0) eqn:El.
  - apply Z.eqb_eq in El. cbv zeta. pose proof (taccept_ok m (dst a) cur j (sc a)) as T. cbv zeta in T. set (r := taccept m (dst a) cur j (sc a)) in *. destruct T as (T1 & T2 & T3).
    assert (TBn : tbo (RS (dst a) j cur (wadd (r_fp cur) (sc a))) (dst a)) by (apply tboS; auto; rewrite Hs; exact (l_tb _ _ _ _ _ I _ _ Hc)).
    assert (ND : exists t', tfind (fst r) (dst a) = Some t' /\ tbo t' (dst a) /\ wle (wadd (r_fp cur) (sc a)) (r_fp t') /\ (forall t, tfind m (dst a) = Some t -> wle (r_fp t) (r_fp t'))).
    { destruct (tfind m (dst a)) as [t|] eqn:Et.
      - destruct (T3 t eq_refl) as (_ & X). eexists. split; [exact X|]. destruct (wlt (r_fp t) (wadd (r_fp cur) (sc a))) eqn:Ew.
        + split; [exact TBn|]. split; [apply wle_refl|]. intros t0 E0. injection E0 as <-. apply wlt_true. exact Ew.
        + split; [exact (l_tb _ _ _ _ _ I _ _ Et)|]. split; [now apply wlt_false|]. intros t0 E0. injection E0 as <-. apply wle_refl.
      - destruct (T2 eq_refl) as (_ & X). eexists. split; [exact X|]. split; [exact TBn|]. split; [apply wle_refl|discriminate]. }
    destruct ND as (t' & N1 & N2 & N3 & N4).
    assert (KP : forall s, s <= k -> tfind (fst r) s = tfind m s) by (intros s Hsk; apply T1; lia).
    assert (KN : forall s, tfind m s <> None -> tfind (fst r) s <> None) by (intros s X; destruct (Z.eq_dec s (dst a)) as [->|NE]; [congruence|rewrite T1; auto]).
    set (q' := if snd r then qinsert q (dst a) else q).
    assert (Q : StronglySorted Z.lt q' /\ (forall x, In x q' -> x = dst a \/ In x q) /\ (forall x, In x q -> In x q') /\ (tfind m (dst a) = None -> In (dst a) q')).
    { unfold q'. destruct (tfind m (dst a)) as [t|] eqn:Et.
      - destruct (T3 t eq_refl) as (-> & _). split; [apply I|]. split; [auto|]. split; [auto|discriminate].
      - destruct (T2 eq_refl) as (-> & _). destruct (qinsert_ok q (dst a) (l_sorted _ _ _ _ _ I)) as (X1 & X2). split; [exact X1|]. split; [intros x; apply X2|]. split; [intros x Hx; apply X2; now right|intros _; apply X2; now left]. }
    destruct Q as (Q1 & Q2 & Q3 & Q4). exists q', (fst r), out. split; [reflexivity|]. split; [|split; [exact KP|split; [|exact Q3]]].
    + constructor.
      * exact Q1.
      * intros s Hq. apply Q2 in Hq as [->|Hq]; [split; [lia|congruence]|]. destruct (l_q _ _ _ _ _ I s Hq). auto.
      * intros s t Ht. destruct (Z.eq_dec s (dst a)) as [->|NE]; [congruence|]. rewrite T1 in Ht by auto. exact (l_tb _ _ _ _ _ I _ _ Ht).
      * apply KN, (l_i _ _ _ _ _ I).
      * intros j' a' [Hd| ->] Ha'; [exact (l_src _ _ _ _ _ I _ _ Hd Ha')|]. rewrite Ha in Ha'. injection Ha' as <-. lia.
      * intros j' a' [Hd| ->] Ha' Hl.
        -- destruct (l_eps _ _ _ _ _ I _ _ Hd Ha' Hl) as (t1 & t2 & E1 & E2 & E3). pose proof (l_src _ _ _ _ _ I _ _ Hd Ha'). destruct (Z.eq_dec (dst a') (dst a)) as [Ed|NE].
           ++ exists t1, t'. rewrite KP by lia. rewrite Ed in *. split; [exact E1|]. split; [exact N1|]. eapply wle_trans; [exact E3|auto].
           ++ exists t1, t2. rewrite KP by lia. rewrite T1 by auto. auto.
        -- rewrite Ha in Ha'. injection Ha' as <-. exists cur, t'. rewrite KP, Hs by lia. auto.
      * intros o Ho. destruct (l_out _ _ _ _ _ I o Ho) as (j' & a' & t & X1 & X2 & X3 & X4 & X5). exists j', a', t. rewrite KP by lia. auto.
      * intros j' a' [Hd| ->] Ha' Hl.
        -- destruct (l_all _ _ _ _ _ I _ _ Hd Ha' Hl) as (t & o & X1 & X2 & X3). exists t, o. pose proof (l_src _ _ _ _ _ I _ _ Hd Ha'). rewrite KP by lia. auto.
        -- rewrite Ha in Ha'. injection Ha' as <-. congruence.
    + intros s Hx. destruct (Z.eq_dec s (dst a)) as [->|NE]; [|rewrite T1 in Hx by auto; auto]. destruct (tfind m (dst a)) eqn:Et; [left; congruence|right; auto].
  - apply Z.eqb_neq in El. destruct (HS j a Ha El) as (d & Hd). rewrite Hd.
    eexists q, m, _. split; [reflexivity|]. split; [|split; [auto|split; [auto|auto]]].
    set (o0 := mkO c d (lab a) (wsub (wadd (r_fp cur) (sc a)) f0) (r_arcs cur ++ [j])).
    assert (EM : emit cur j a o0) by (unfold emit, o0; cbn; auto).
    destruct I as [I1 I2 I3 I4 I5 I6 I7 I8]. constructor; try assumption.
    + intros j' a' [Hd'| ->] Ha'; [exact (I5 _ _ Hd' Ha')|]. rewrite Ha in Ha'. injection Ha' as <-. lia.
    + intros j' a' [Hd'| ->] Ha' Hl; [exact (I6 _ _ Hd' Ha' Hl)|]. rewrite Ha in Ha'. injection Ha' as <-. congruence.
    + intros o Ho. apply in_app_or in Ho as [Ho|[<-|[]]]; [exact (I7 o Ho)|]. exists j, a, cur. rewrite Hs. repeat (split; [assumption || lia|]). exact EM.
    + intros j' a' [Hd'| ->] Ha' Hl.
      * destruct (I8 _ _ Hd' Ha' Hl) as (t & o & X1 & X2 & X3). exists t, o. split; [exact X1|]. split; [apply in_or_app; now left|exact X3].
      * rewrite Ha in Ha'. injection Ha' as <-. exists cur, o0. rewrite Hs. split; [exact Hc|]. split; [apply in_or_app; right; now left|exact EM].
Qed.

Lemma rm_arcs_ok k cur js : forall q m out Dn, LInv k q m out Dn -> (forall j, In j js -> exists a, rd A j = Some a /\ src a = k) -> tfind m k = Some cur ->
  exists q' m' out', foldM (rm_arc A smap c f0 cur) js (q, m, out) = Some (q', m', out') /\ LInv k q' m' out' (fun x => Dn x \/ In x js) /\
    (forall s, s <= k -> tfind m' s = tfind m s) /\ (forall s, tfind m' s <> None -> tfind m s <> None \/ In s q') /\ (forall s, In s q -> In s q').
Proof.
  induction js as [|j js IH]; intros q m out Dn I HJ Hc.
  - exists q, m, out. cbn. split; [reflexivity|]. split; [|auto]. destruct I. constructor; auto; intros j a [X|[]]; eauto.
  - destruct (HJ j (or_introl eq_refl)) as (a & Ha & Hs). destruct (rm_arc_ok k q m out Dn cur j a I Ha Hs Hc) as (q1 & m1 & out1 & E1 & I1 & K1 & N1 & Q1). cbn [foldM]. rewrite E1.
    destruct (IH q1 m1 out1 _ I1) as (q' & m' & out' & E & I' & K & N & Q); [intros j' Hj; apply HJ; now right|rewrite K1 by lia; exact Hc|].
    exists q', m', out'. split; [exact E|]. split; [|split; [intros s Hsk; rewrite K, K1 by lia; reflexivity|split; [|auto]]].
    + destruct I'. constructor; auto; intros j' a' X Y.
      * apply (l_src0 j' a'); [destruct X as [X|[->|X]]; auto|exact Y].
      * apply (l_eps0 j' a'); [destruct X as [X|[->|X]]; auto|exact Y].
      * apply (l_all0 j' a'); [destruct X as [X|[->|X]]; auto|exact Y].
    + intros s Hx. apply N in Hx as [Hx|Hx]; [|auto]. apply N1 in Hx as [Hx|Hx]; auto.
Qed.

Lemma rm_loop_ok fuel : forall k q m out Dn, LInv k q m out Dn -> (forall s, tfind m s <> None -> In s q \/ forall j a, rd A j = Some a -> src a = s -> Dn j) -> n - k <= Z.of_nat fuel ->
  exists k' m' out' Dn', rm_loop (splits_of f) A smap c f0 fuel (q, m, out) = Some out' /\ LInv k' [] m' out' Dn' /\ (forall s, tfind m' s <> None -> forall j a, rd A j = Some a -> src a = s -> Dn' j).
Proof.
  induction fuel as [|fuel IH]; intros k q m out Dn I HD HF; (destruct q as [|s q]; [exists k, m, out, Dn; cbn; split; [reflexivity|]; split; [exact I|]; intros s Hs; destruct (HD s Hs) as [[]|X]; exact X|]).
  - exfalso. destruct (l_q _ _ _ _ _ I s (or_introl eq_refl)). lia.
  - destruct (l_q _ _ _ _ _ I s (or_introl eq_refl)) as (Bs & Fs). cbn [rm_loop]. destruct (tfind m s) as [cur|] eqn:Ec; [|congruence].
    assert (B0 : 0 <= s < n).
    { split; [|lia]. destruct (tbo_ok _ _ (l_tb _ _ _ _ _ I _ _ Ec)) as (P & _). apply (path_in s i) in P; [lia|exact Hi]. }
    rewrite (rd_splits_off f s), (rd_splits_off f (s + 1)) by (unfold nstates in B0; lia). set (js := map (fun x => off1 f s + x) (zrange (off1 f (s + 1) - off1 f s))).
    pose proof (off1_mono f s (s + 1) ltac:(lia)) as OM.
    assert (JS : forall j, In j js <-> off1 f s <= j < off1 f (s + 1)).
    { intros j. unfold js. rewrite in_map_iff. split; [intros (x & <- & Hx); apply in_zrange in Hx; lia|]. intros Hj. exists (j - off1 f s). split; [lia|]. apply in_zrange. lia. }
    assert (SQ : StronglySorted Z.lt (s :: q)) by apply I. inversion SQ as [|? ? SQ1 SQ2]; subst.
    assert (I1 : LInv s q m out Dn).
    { destruct I. constructor; auto.
      - intros x Hx. destruct (l_q0 x (or_intror Hx)). split; [|auto]. eapply Forall_forall in SQ2; [|exact Hx]. lia.
      - intros j a X Y. specialize (l_src0 j a X Y). lia.
      - intros o Ho. destruct (l_out0 o Ho) as (j & a & t & X1 & X2 & X3 & X4). exists j, a, t. repeat (split; [assumption || lia|]). exact X4. }
    destruct (rm_arcs_ok s cur js q m out Dn I1) as (q' & m' & out' & E & I' & K & N & Q); [intros j Hj; apply row_arc; [lia|now apply JS]|exact Ec|].
    rewrite E. apply (IH s q' m' out' _ I'); [|lia]. intros x Hx. apply N in Hx as [Hx|Hx]; [|now left]. destruct (HD x Hx) as [[<-|Hq]|HDn].
    + right. intros j a Ha Hs. right. apply JS. rewrite <- Hs. apply (arc_row j a Ha).
    + left. auto.
    + right. intros j a Ha Hs. left. eauto.
Qed.

Lemma closure_ok : exists out, rm_loop (splits_of f) A smap c f0 (S (Z.to_nat n)) ([i], [(i, R0 i f0)], []) = Some out /\
  (forall o, In o out -> exists e j a, apath f i e (src a) /\ eps e /\ rd A j = Some a /\ lab a <> 0 /\
     o_src o = c /\ rd smap (dst a) = Some (o_dst o) /\ o_lab o = lab a /\ o_der o = e ++ [j] /\ o_sc o = wsub (wadd f0 (scp e + sc a)) f0) /\
  (forall e j a, apath f i e (src a) -> eps e -> rd A j = Some a -> lab a <> 0 -> exists o, In o out /\ rd smap (dst a) = Some (o_dst o) /\ o_lab o = lab a /\
     (forall x, f0 = Some x -> exists y, o_sc o = Some y /\ scp e + sc a <= y)).
Proof.
  destruct (rm_loop_ok (S (Z.to_nat n)) (i - 1) [i] [(i, R0 i f0)] [] (fun _ => False)) as (k & m & out & Dn & E & I & D).
  - constructor; try (intros; contradiction).
    + repeat constructor.
    + intros s [<-|[]]. split; [lia|]. cbn. rewrite Z.eqb_refl. discriminate.
    + intros s t. cbn. destruct (i =? s) eqn:Es; [|discriminate]. intros X. injection X as <-. apply Z.eqb_eq in Es. subst s. constructor.
    + cbn. rewrite Z.eqb_refl. discriminate.
  - intros s. cbn. destruct (i =? s) eqn:Es; [|congruence]. intros _. left. left. lia.
  - lia.
  - exists out. split; [exact E|]. split.
    + intros o Ho. destruct (l_out _ _ _ _ _ I o Ho) as (j & a & t & X1 & X2 & X3 & X4 & Y1 & Y2 & Y3 & Y4 & Y5). destruct (tbo_ok _ _ (l_tb _ _ _ _ _ I _ _ X4)) as (P1 & P2 & P3).
      exists (r_arcs t), j, a. rewrite <- wadd_wadd, <- P3. repeat (split; [assumption|]). assumption.
    + assert (EP : forall e s, apath f i e s -> eps e -> exists t, tfind m s = Some t /\ wle (wadd f0 (scp e)) (r_fp t)).
      { induction e as [|j e IH] using rev_ind; intros s Hp He.
        - apply apath_nil in Hp. subst s. destruct (tfind m i) as [t|] eqn:Et; [|exfalso; exact (l_i _ _ _ _ _ I Et)]. exists t. split; [reflexivity|]. destruct (tbo_ok _ _ (l_tb _ _ _ _ _ I _ _ Et)) as (P1 & P2 & P3).
          assert (r_arcs t = []).
          { destruct (r_arcs t) as [|x r]; [reflexivity|]. exfalso. clear - P1 HT HV. assert (G : forall s p t, apath f s p t -> s <= t /\ (p <> [] -> s < t)).
            { induction 1 as [s|j a p t Ha Hp IH]; [split; [lia|congruence]|]. pose proof (HT a (rd_In _ _ _ Ha)). lia. }
            destruct (G _ _ _ P1) as (_ & X). specialize (X ltac:(discriminate)). lia. }
          rewrite H in P3. rewrite P3. apply wle_refl.
        - apply apath_app in Hp as (s' & Hp & Hj). apply apath1 in Hj as (a & Ha & Hs & Hd). apply eps_app in He as (He & Hl). pose proof (proj1 (eps_one j a Ha) Hl) as Hl0. destruct (IH s' Hp He) as (t & T1 & T2).
          assert (Dj : Dn j) by (apply (D s') with (a := a); [congruence|exact Ha|exact Hs]). destruct (l_eps _ _ _ _ _ I j a Dj Ha Hl0) as (t1 & t2 & Y1 & Y2 & Y3). rewrite Hs, T1 in Y1. injection Y1 as <-. rewrite Hd in Y2. exists t2. split; [exact Y2|].
          rewrite scp_app, (arcs_at_one f j a Ha), <- wadd_wadd. eapply wle_trans; [|exact Y3]. replace (score [a]) with (sc a) by (unfold score; cbn; lia). now apply wadd_mono. }
      intros e j a Hp He Ha Hl. destruct (EP e _ Hp He) as (t & T1 & T2). assert (Dj : Dn j) by (apply (D (src a)) with (a := a); [congruence|exact Ha|reflexivity]).
      destruct (l_all _ _ _ _ _ I j a Dj Ha Hl) as (t1 & o & X1 & X2 & Y1 & Y2 & Y3 & Y4 & Y5). rewrite T1 in X1. injection X1 as <-. exists o. split; [exact X2|]. split; [exact Y2|]. split; [exact Y3|].
      intros x ->. cbn [wadd] in T2. destruct (r_fp t) as [y|] eqn:Ey; [|destruct T2]. cbn in T2, Y4. exists (y + sc a - x). split; [exact Y4|lia].
Qed.
End Rm.
