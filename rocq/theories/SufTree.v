(** * CreateLcpIntervalArray builds the tree of LCP intervals. *)
From Coq Require Import ZArith List Bool Lia Sorting.Sorted Sorting.Permutation.
From Verif Require Import Base RaggedModel OpsModel OpsProofs ReverseProofs FsaLemmas IDenseSpec DetInv SufModel SufSpec RnntDecList RnntDecGroup SufRadix SufDc3 SufDc3Main SufLcp.
Import ListNotations.
Open Scope Z_scope.

Lemma pop_leaves_ok d lb n leaf : forall lp, zlen lp = n -> StronglySorted (fun a b => b < a) leaf -> (forall x, In x leaf -> 0 <= x < n) ->
  exists leaf' lp', pop_leaves d lb leaf lp = Some (leaf', lp') /\ zlen lp' = n /\ (forall x, In x leaf' <-> In x leaf /\ x < lb) /\ StronglySorted (fun a b => b < a) leaf' /\
    (forall x, In x leaf -> lb <= x -> rd lp' x = Some d) /\ (forall x, (~ In x leaf \/ x < lb) -> rd lp' x = rd lp x).
Proof.
  induction leaf as [|y leaf IH]; intros lp HZ HS HB; cbn [pop_leaves].
  - exists [], lp. split; [reflexivity|]. split; [exact HZ|]. split; [cbn; tauto|]. split; [constructor|]. split; [intros x []|reflexivity].
  - apply StronglySorted_inv in HS as (HS & HF). rewrite Forall_forall in HF. destruct (Z.leb_spec lb y) as [L|L].
    + destruct (wr_Some lp y d) as (lp1 & E1 & L1 & R1); [rewrite HZ; apply HB; now left|]. rewrite E1.
      destruct (IH lp1 ltac:(lia) HS ltac:(intros; apply HB; now right)) as (leaf' & lp' & E & Z' & I & S' & A & B). exists leaf', lp'. split; [exact E|]. split; [exact Z'|]. split; [|split; [exact S'|split]].
      * intros x. rewrite I. cbn [In]. split; [tauto|]. intros ([<-|H] & H2); [lia|tauto].
      * intros x [<-|Hx] H2; [|auto]. rewrite B; [rewrite R1, Z.eqb_refl; reflexivity|]. left. intros Hy. specialize (HF _ Hy). lia.
      * intros x H. rewrite B; [|cbn in H; tauto]. rewrite R1. destruct (Z.eqb_spec x y) as [->|]; [|reflexivity]. exfalso. cbn in H. destruct H as [H|H]; [tauto|lia].
    + exists (y :: leaf), lp. split; [reflexivity|]. split; [exact HZ|]. split; [|split; [|split]].
      * intros x. split; [|tauto]. intros Hx. split; [exact Hx|]. destruct Hx as [<-|Hx]; [exact L|]. specialize (HF _ Hx). lia.
      * constructor; [exact HS|now apply Forall_forall].
      * intros x [<-|Hx] H; [lia|]. specialize (HF _ Hx). lia.
      * reflexivity.
Qed.

Section Tree.
Variables (lcp : list Z) (n : Z).
Hypothesis ZL : zlen lcp = n.
Hypothesis Hn : 1 <= n.
Let lc := at0 lcp.
Hypothesis L0 : forall m, 0 <= lc m.
Hypothesis LF : lc 0 = 0.
Hypothesis LL : lc (n - 1) = 0.

Definition root := mkN 0 0 (n - 1) 0.
Fixpoint chain (st : list node) : Prop :=
  match st with
  | [] => False
  | e :: r => match r with [] => e = root | e' :: _ => n_lcp e' < n_lcp e /\ n_lb e' <= n_lb e /\ lc (n_lb e) = n_lcp e' /\ chain r end
  end.
Definition node_ok (e : node) : Prop :=
  0 <= n_lb e <= n_rb e /\ n_rb e < n /\ 0 < n_lcp e /\ (forall m, n_lb e < m <= n_rb e -> n_lcp e <= lc m) /\ lc (n_lb e) < n_lcp e /\ lc (n_rb e + 1) < n_lcp e.
Definition plcp (e : node) : Z := Z.max (lc (n_lb e)) (lc (n_rb e + 1)).
Definition parent_ok (st : list node) (out : list node) (order : list Z) (next d : Z) (e : node) : Prop :=
  (exists E, In E st /\ n_par E = n_par e /\ n_lcp E = plcp e /\ n_lb E <= n_lb e) \/
  (exists d' E, d < d' /\ 0 <= n_par e < next /\ ~ In (n_par e) (map n_par st) /\ rd order (n_par e) = Some d' /\ rd out d' = Some E /\ n_lcp E = plcp e /\ n_lb E <= n_lb e /\ n_rb e <= n_rb E).
Definition leaf_lcp (x : Z) : Z := Z.max (lc x) (lc (x + 1)).
Definition owned (st : list node) (x : Z) : Prop :=
  exists pre E post, st = pre ++ E :: post /\ n_lcp E = leaf_lcp x /\ n_lb E <= x /\ forall F, In F pre -> x < n_lb F.
Definition assigned (out : list node) (lp : list Z) (x : Z) : Prop :=
  exists d E, rd lp x = Some d /\ rd out d = Some E /\ n_lb E <= x <= n_rb E /\ n_lcp E = leaf_lcp x.

Record Inv (b c : Z) (st : list node) (s : tree) (next ex : Z) : Prop := {
  v_chain : chain st;
  v_lc : forall e, In e st -> 0 <= n_lb e <= c /\ forall m, n_lb e < m <= c -> n_lcp e <= lc m;
  v_nd : NoDup (map n_par st);
  v_id : forall e, In e st -> 0 <= n_par e < next;
  v_cnt : zlen (t_out s) + zlen st = next;
  v_zo : zlen (t_order s) = n;
  v_zl : zlen (t_lp s) = n;
  v_out : forall d e, rd (t_out s) d = Some e -> node_ok e /\ n_rb e <= c /\ (d <> ex -> parent_ok st (t_out s) (t_order s) next d e);
  v_ls : StronglySorted (fun a b => b < a) (t_leaf s);
  v_leaf : forall x, In x (t_leaf s) -> 0 <= x < b /\ owned st x;
  v_lp : forall x, 0 <= x < b -> In x (t_leaf s) \/ assigned (t_out s) (t_lp s) x }.

Lemma chain_below st : chain st -> forall e r, st = e :: r -> 0 <= n_lcp e /\ forall F, In F r -> n_lcp F < n_lcp e /\ n_lb F <= n_lb e.
Proof.
  induction st as [|e st IH]; intros C e0 r0 E; [discriminate|]. injection E as <- <-. destruct st as [|e' st].
  - cbn in C. subst e. cbn. split; [lia|intros F []].
  - destruct C as (C1 & C2 & C3 & C4). destruct (IH C4 e' st eq_refl) as (P & Q). split; [lia|]. intros F [<-|HF]; [lia|]. specialize (Q F HF). lia.
Qed.
Lemma owned_tail e st x : owned (e :: st) x -> x < n_lb e -> owned st x.
Proof.
  intros (pre & E & post & H1 & H2 & H3 & H4) L. destruct pre as [|p pre]; cbn in H1; injection H1 as -> ->; [lia|]. exists pre, E, post. repeat split; auto. intros F HF. apply H4. now right.
Qed.
Lemma owned_top e st x : owned (e :: st) x -> n_lb e <= x -> n_lcp e = leaf_lcp x.
Proof.
  intros (pre & E & post & H1 & H2 & H3 & H4) L. destruct pre as [|p pre]; cbn in H1; injection H1 as -> ->; [auto|]. specialize (H4 p (or_introl eq_refl)). lia.
Qed.
Lemma assigned_snoc out e lp x : assigned out lp x -> assigned (out ++ [e]) lp x.
Proof. intros (d & E & A & B & C). exists d, E. split; [exact A|]. split; [|exact C]. rewrite rd_app_l; [exact B|]. eapply rd_Some_bound; eauto. Qed.

(** removing the top of the stack *)
Lemma pop_ok i v e e' st s next : 1 <= i < n -> v = lc i -> Inv i (i - 1) (e :: e' :: st) s next (-1) -> v < n_lcp e -> next <= n ->
  exists leaf' lp' order', let d := zlen (t_out s) in
    pop_leaves d (n_lb e) (t_leaf s) (t_lp s) = Some (leaf', lp') /\ wr (t_order s) (n_par e) d = Some order' /\ rd order' (n_par e) = Some d /\
    (forall x, In x leaf' -> x < n_lb e) /\
    forall last, Inv i (i - 1) (e' :: st) (mkT (t_out s ++ [mkN (n_lcp e) (n_lb e) (i - 1) (if v <=? n_lcp e' then n_par e' else n_par e)]) order' lp' leaf' last) next (if v <=? n_lcp e' then -1 else d).
Proof.
  intros Hi Hv I L Hx. pose proof (v_chain _ _ _ _ _ _ I) as C. destruct C as (C1 & C2 & C3 & C4).
  destruct (v_lc _ _ _ _ _ _ I e (or_introl eq_refl)) as (B1 & B2). destruct (v_id _ _ _ _ _ _ I e (or_introl eq_refl)) as (ID1 & ID2).
  destruct (pop_leaves_ok (zlen (t_out s)) (n_lb e) n (t_leaf s) (t_lp s)) as (leaf' & lp' & E1 & Z1 & I1 & S1 & A1 & O1); [apply (v_zl _ _ _ _ _ _ I)|apply (v_ls _ _ _ _ _ _ I)|intros x Hx'; destruct (v_leaf _ _ _ _ _ _ I x Hx'); lia|].
  destruct (wr_Some (t_order s) (n_par e) (zlen (t_out s))) as (order' & E2 & Z2 & R2); [rewrite (v_zo _ _ _ _ _ _ I); lia|].
  exists leaf', lp', order'. cbv zeta. split; [exact E1|]. split; [exact E2|]. split; [now rewrite R2, Z.eqb_refl|]. split; [intros x Hx'; now apply I1|]. intros last.
  set (d := zlen (t_out s)) in *. set (en := mkN (n_lcp e) (n_lb e) (i - 1) (if v <=? n_lcp e' then n_par e' else n_par e)).
  pose proof (v_nd _ _ _ _ _ _ I) as ND. cbn [map] in ND. inversion ND as [|? ? N1 N2]; subst.
  destruct (chain_below _ C4 e' st eq_refl) as (P0 & _).
  assert (NE : node_ok en). { unfold node_ok, en. cbn. replace (i - 1 + 1) with i by lia. split; [lia|]. split; [lia|]. split; [lia|]. split; [exact B2|]. lia. }
  assert (RN : rd (t_out s ++ [en]) d = Some en) by (rewrite rd_app_r by lia; replace (d - zlen (t_out s)) with 0 by lia; apply rd_cons_0).
  constructor; cbn [t_out t_order t_lp t_leaf t_last].
  - exact C4.
  - intros F HF. apply (v_lc _ _ _ _ _ _ I). now right.
  - exact N2.
  - intros F HF. apply (v_id _ _ _ _ _ _ I). now right.
  - pose proof (v_cnt _ _ _ _ _ _ I) as Q. rewrite zlen_app, !zlen_cons, zlen_nil in *. lia.
  - rewrite Z2. apply (v_zo _ _ _ _ _ _ I).
  - exact Z1.
  - intros q f Hq. destruct (Z.ltb_spec q d) as [Lq|Lq].
    + rewrite rd_app_l in Hq by auto. destruct (v_out _ _ _ _ _ _ I q f Hq) as (K1 & K2 & K3). split; [exact K1|]. split; [exact K2|]. intros _. pose proof (rd_Some_bound _ _ _ Hq). destruct (K3 ltac:(lia)) as [(E & H1 & H2 & H3 & H4)|(d' & E & H1 & H2 & H3 & H4 & H5 & H6)].
      * destruct H1 as [<-|H1]; [|left; exists E; auto]. right. exists d, en. split; [lia|]. split; [rewrite <- H2; apply (v_id _ _ _ _ _ _ I); now left|]. split; [now rewrite <- H2|]. split; [now rewrite <- H2, R2, Z.eqb_refl|]. split; [exact RN|]. cbn. repeat split; auto.
      * right. exists d', E. split; [exact H1|]. split; [exact H2|]. split; [intros X; apply H3; now right|]. split.
        -- rewrite R2. destruct (Z.eqb_spec (n_par f) (n_par e)) as [EQ|]; [|exact H4]. exfalso. apply H3. rewrite EQ. now left.
        -- split; [|exact H6]. rewrite rd_app_l; [exact H5|]. eapply rd_Some_bound; eauto.
    + pose proof (rd_Some_bound _ _ _ Hq) as B. rewrite zlen_app, zlen_cons, zlen_nil in B. assert (q = d) by lia. subst q. rewrite RN in Hq. injection Hq as <-. split; [exact NE|]. split; [cbn; lia|]. intros NX. unfold en in *. destruct (Z.leb_spec (lc i) (n_lcp e')) as [Lv|Lv]; [|contradiction].
      left. exists e'. split; [now left|]. cbn. split; [reflexivity|]. split; [|exact C2]. unfold plcp. cbn. rewrite C3. replace (i - 1 + 1) with i by lia. lia.
  - exact S1.
  - intros x Hx'. apply I1 in Hx' as (H1 & H2). destruct (v_leaf _ _ _ _ _ _ I x H1) as (H3 & H4). split; [exact H3|]. eapply owned_tail; eauto.
  - intros x Hx'. destruct (v_lp _ _ _ _ _ _ I x Hx') as [H|H].
    + destruct (Z.lt_ge_cases x (n_lb e)) as [H2|H2]; [left; now apply I1|]. right. exists d, en. split; [auto|]. split; [exact RN|]. destruct (v_leaf _ _ _ _ _ _ I x H) as (H3 & H4). cbn. split; [lia|]. eapply owned_top; eauto.
    + destruct (in_dec Z.eq_dec x (t_leaf s)) as [Hin|Hin].
      * destruct (Z.lt_ge_cases x (n_lb e)) as [H2|H2]; [left; now apply I1|]. right. exists d, en. split; [auto|]. split; [exact RN|]. destruct (v_leaf _ _ _ _ _ _ I x Hin) as (H3 & H4). cbn. split; [lia|]. eapply owned_top; eauto.
      * right. destruct (assigned_snoc _ en _ _ H) as (q & E & A & B). exists q, E. split; [|exact B]. rewrite O1; auto.
Qed.

Definition top_lcp (st : list node) : Z := match st with e :: _ => n_lcp e | [] => -1 end.
Definition outcome (i v : Z) (st : list node) (s : tree) (next lb : Z) : Prop :=
  (top_lcp st = v /\ Inv i (i - 1) st s next (-1) /\ t_last s = -1) \/
  (top_lcp st < v /\ exists ex E, Inv i (i - 1) st s next ex /\ 0 <= ex /\ rd (t_out s) ex = Some E /\ lb = n_lb E /\ plcp E = v /\ 0 <= t_last s /\ rd (t_order s) (t_last s) = Some ex /\
     (forall x, In x (t_leaf s) -> x < lb) /\ (forall e r, st = e :: r -> n_lb e <= lb /\ lc lb = n_lcp e) /\ 0 <= lb <= i - 1 /\ forall m, lb < m <= i - 1 -> v <= lc m).
Lemma pops_ok i v : 1 <= i < n -> v = lc i -> forall st s next lb, Inv i (i - 1) st s next (-1) -> t_last s = -1 -> v <= top_lcp st -> next <= n ->
  exists st' s' lb', pops v i st s lb = Some (st', s', lb') /\ outcome i v st' s' next lb'.
Proof.
  intros Hi Hv. induction st as [|e st IH]; intros s next lb I HL HT Hx; [destruct (v_chain _ _ _ _ _ _ I)|]. cbn [top_lcp] in HT. cbn [pops]. destruct (Z.ltb_spec v (n_lcp e)) as [L|L].
  - destruct st as [|e' st].
    + pose proof (v_chain _ _ _ _ _ _ I) as C. cbn in C. subst e. cbn in L. pose proof (L0 i). lia.
    + destruct (pop_ok i v e e' st s next Hi Hv I L Hx) as (leaf' & lp' & order' & E1 & E2 & E3 & E4 & I'). cbv zeta in *. rewrite E1, E2. cbn [fst snd].
      pose proof (v_chain _ _ _ _ _ _ I) as (C1 & C2 & C3 & C4). destruct (v_lc _ _ _ _ _ _ I e (or_introl eq_refl)) as (B1 & B2).
      destruct (Z.leb_spec v (n_lcp e')) as [Lv|Lv].
      * apply (IH _ next (n_lb e) (I' (-1))); auto.
      * cbn [pops]. replace (v <? n_lcp e') with false by lia. eexists _, _, _. split; [reflexivity|]. right. split; [cbn; lia|].
        exists (zlen (t_out s)), (mkN (n_lcp e) (n_lb e) (i - 1) (n_par e)). split; [apply I'|]. split; [apply zlen_nonneg|]. cbn [t_out t_order t_leaf t_last n_lb]. split; [rewrite rd_app_r by lia; rewrite Z.sub_diag; apply rd_cons_0|]. split; [reflexivity|].
        split; [unfold plcp; cbn; replace (i - 1 + 1) with i by lia; lia|]. split; [apply (v_id _ _ _ _ _ _ I e); now left|]. split; [exact E3|]. split; [exact E4|]. split; [intros f r EQ; injection EQ as <- <-; auto|]. split; [lia|]. intros m Hm. specialize (B2 m Hm). lia.
  - exists (e :: st), s, lb. split; [reflexivity|]. left. cbn [top_lcp]. split; [lia|auto].
Qed.

(** a new leaf *)
Lemma leaf_ok b c st s next : 0 <= b -> Inv b c st s next (-1) -> top_lcp st = leaf_lcp b -> (forall e r, st = e :: r -> n_lb e <= b) ->
  Inv (b + 1) c st (mkT (t_out s) (t_order s) (t_lp s) (b :: t_leaf s) (t_last s)) next (-1).
Proof.
  intros Hb I HT HB. destruct I as [I1 I2 I3 I4 I5 I6 I7 I8 I9 I10 I11]. constructor; cbn [t_out t_order t_lp t_leaf t_last]; auto.
  - constructor; [exact I9|]. apply Forall_forall. intros x Hx. destruct (I10 x Hx). lia.
  - intros x [<-|Hx]; [|destruct (I10 x Hx); split; [lia|auto]]. split; [lia|]. destruct st as [|e st]; [destruct I1|]. exists [], e, st. split; [reflexivity|]. split; [exact HT|]. split; [eapply HB; eauto|intros F []].
  - intros x Hx. destruct (Z.eq_dec x b) as [->|]; [left; now left|]. destruct (I11 x ltac:(lia)) as [H|H]; [left; now right|now right].
Qed.
(** the bound of the intervals on the stack *)
Lemma bound_ok b i st s next ex : Inv b (i - 1) st s next ex -> top_lcp st <= lc i -> Inv b i st s next ex.
Proof.
  intros I HT. pose proof (v_chain _ _ _ _ _ _ I) as C. destruct I as [I1 I2 I3 I4 I5 I6 I7 I8 I9 I10 I11]. constructor; auto.
  - intros e He. destruct (I2 e He) as (A & B). split; [lia|]. intros m Hm. destruct (Z.eq_dec m i) as [->|]; [|apply B; lia]. destruct st as [|f st]; [destruct He|]. destruct (chain_below _ C f st eq_refl) as (_ & D). cbn in HT. destruct He as [<-|He]; [exact HT|]. specialize (D e He). lia.
  - intros d e H. destruct (I8 d e H) as (A & B & D). split; [exact A|]. split; [lia|exact D].
Qed.
(** a new element of the stack *)
Lemma push_ok b i st s next ex v lb out' last : 1 <= i < n -> v = lc i -> Inv b (i - 1) st s next ex -> top_lcp st < v -> (forall e r, st = e :: r -> n_lb e <= lb /\ lc lb = n_lcp e) ->
  0 <= lb <= i - 1 -> (forall m, lb < m <= i - 1 -> v <= lc m) -> (forall x, In x (t_leaf s) -> x < lb) ->
  zlen out' = zlen (t_out s) -> (forall d e, rd (t_out s) d = Some e -> rd out' d = Some (if d =? ex then mkN (n_lcp e) (n_lb e) (n_rb e) next else e)) ->
  (forall E, rd (t_out s) ex = Some E -> lb = n_lb E /\ plcp E = v) ->
  Inv b i (mkN v lb (-1) next :: st) (mkT out' (t_order s) (t_lp s) (t_leaf s) last) (next + 1) (-1).
Proof.
  intros Hi Hv I HT HB Hlb HM HL HZ HO HE. pose proof (bound_ok _ _ _ _ _ _ I ltac:(lia)) as I'. destruct I' as [I1 I2 I3 I4 I5 I6 I7 I8 I9 I10 I11].
  assert (OI : forall d e, rd out' d = Some e -> exists e0, rd (t_out s) d = Some e0 /\ e = if d =? ex then mkN (n_lcp e0) (n_lb e0) (n_rb e0) next else e0).
  { intros d e H. pose proof (rd_Some_bound _ _ _ H) as B. rewrite HZ in B. destruct (rd_in_bound _ _ B) as (e0 & E0). exists e0. split; [exact E0|]. rewrite (HO _ _ E0) in H. congruence. }
  assert (OS : forall d e, rd (t_out s) d = Some e -> exists e', rd out' d = Some e' /\ n_lcp e' = n_lcp e /\ n_lb e' = n_lb e /\ n_rb e' = n_rb e).
  { intros d e H. exists (if d =? ex then mkN (n_lcp e) (n_lb e) (n_rb e) next else e). split; [auto|]. destruct (d =? ex); auto. }
  assert (NX : forall e, In e st -> n_par e <> next) by (intros e He; specialize (I4 e He); lia).
  constructor; cbn [t_out t_order t_lp t_leaf t_last].
  - destruct st as [|e st]; [destruct I1|]. destruct (HB e st eq_refl) as (H1 & H2). cbn [chain n_lcp n_lb]. cbn [top_lcp] in HT. repeat split; auto.
  - intros e [<-|He]; [|auto]. cbn. split; [lia|]. intros m Hm. destruct (Z.eq_dec m i) as [->|]; [lia|]. apply HM. lia.
  - cbn [map n_par]. constructor; [|exact I3]. intros X. apply in_map_iff in X as (e & X1 & X2). now apply (NX e).
  - intros e [<-|He]; [cbn|specialize (I4 e He)]; pose proof (v_cnt _ _ _ _ _ _ I); pose proof (zlen_nonneg (t_out s)); pose proof (zlen_nonneg st); lia.
  - rewrite zlen_cons. lia.
  - exact I6.
  - exact I7.
  - intros d e H. destruct (OI d e H) as (e0 & E0 & EE). destruct (I8 d e0 E0) as (A & B & C).
    assert (SAME : n_lcp e = n_lcp e0 /\ n_lb e = n_lb e0 /\ n_rb e = n_rb e0) by (subst e; destruct (d =? ex); auto). destruct SAME as (S1 & S2 & S3).
    split; [unfold node_ok in *; rewrite S1, S2, S3; exact A|]. split; [lia|]. intros _.
    assert (PL : plcp e = plcp e0) by (unfold plcp; rewrite S2, S3; reflexivity).
    destruct (Z.eqb_spec d ex) as [->|Nd].
    + destruct (HE e0 E0) as (H1 & H2). left. exists (mkN v lb (-1) next). split; [now left|]. cbn. subst e. cbn. split; [reflexivity|]. split; [unfold plcp in *; cbn; auto|]. lia.
    + subst e. destruct (C Nd) as [(E & H1 & H2)|(d' & E & H1 & H2 & H3 & H4 & H5 & H6 & H7 & H8)]; [left; exists E; split; [now right|exact H2]|]. right. destruct (OS _ _ H5) as (E' & F1 & F2 & F3 & F4). exists d', E'. split; [exact H1|]. split; [lia|]. split; [|split; [exact H4|split; [exact F1|split; [lia|split; [lia|lia]]]]]. cbn [map n_par]. intros [X|X]; [lia|auto].
  - exact I9.
  - intros x Hx. destruct (I10 x Hx) as (H1 & (pre & E & post & K1 & K2 & K3 & K4)). split; [exact H1|]. exists (mkN v lb (-1) next :: pre), E, post. split; [now rewrite K1|]. split; [exact K2|]. split; [exact K3|]. intros F [<-|HF]; [cbn; auto|auto].
  - intros x Hx. destruct (I11 x Hx) as [H|(d & E & H1 & H2 & H3 & H4)]; [now left|right]. destruct (OS _ _ H2) as (E' & F1 & F2 & F3 & F4). exists d, E'. split; [exact H1|]. split; [exact F1|]. lia.
Qed.

Definition Start (i : Z) (q : list node * tree * Z) : Prop :=
  let '(st, s, next) := q in Inv (i - 1) (i - 1) st s next (-1) /\ t_last s = -1 /\ top_lcp st = lc (i - 1) /\ 1 <= next <= i.
Lemma step_ok i q : 1 <= i < n -> Start i q -> exists q', interval_step lcp q i = Some q' /\ Start (i + 1) q'.
Proof.
  intros Hi. destruct q as ((st, s), next). intros (I & HL & HT & HN). unfold interval_step. assert (EV : rd lcp i = Some (lc i)) by (apply at0_rd; lia). rewrite EV.
  pose proof (v_chain _ _ _ _ _ _ I) as C. destruct st as [|e st]; [destruct C|]. cbn [top_lcp] in HT. destruct (v_lc _ _ _ _ _ _ I e (or_introl eq_refl)) as (B1 & B2).
  unfold Start. replace (i + 1 - 1) with i by lia. destruct (Z.ltb_spec (n_lcp e) (lc i)) as [L|L].
  - cbn [pops t_leaf t_out t_order t_lp t_last]. replace (lc i <? n_lcp e) with false by lia. rewrite rd_cons_0. replace (n_lcp e <? lc i) with true by lia. rewrite HL. cbn [t_last t_out t_order t_lp t_leaf]. change (0 <=? -1) with false. cbv iota.
    eexists. split; [reflexivity|]. cbv iota beta. split; [|split; [reflexivity|split; [reflexivity|lia]]].
    assert (P : Inv (i - 1) i (mkN (lc i) (i - 1) (-1) next :: e :: st) (mkT (t_out s) (t_order s) (t_lp s) (t_leaf s) (-1)) (next + 1) (-1)).
    { apply (push_ok (i - 1) i (e :: st) s next (-1) (lc i) (i - 1) (t_out s) (-1)); auto; try lia.
      - intros f r E. injection E as <- <-. split; lia.
      - intros x Hx. destruct (v_leaf _ _ _ _ _ _ I x Hx). lia.
      - intros d f Hd. pose proof (rd_Some_bound _ _ _ Hd). replace (d =? -1) with false by lia. exact Hd.
      - intros E X. apply rd_Some_bound in X. lia. }
    pose proof (leaf_ok (i - 1) i _ _ _ ltac:(lia) P) as Q. replace (i - 1 + 1) with i in Q by lia. apply Q; [|intros f r E; injection E as <- <-; cbn; lia]. cbn. unfold leaf_lcp. replace (i - 1 + 1) with i by lia. lia.
  - assert (Q : Inv i (i - 1) (e :: st) (mkT (t_out s) (t_order s) (t_lp s) ((i - 1) :: t_leaf s) (t_last s)) next (-1)).
    { replace i with (i - 1 + 1) at 1 by lia. apply leaf_ok; [lia|exact I| |intros f r E; injection E as <- <-; lia]. cbn. unfold leaf_lcp. replace (i - 1 + 1) with i by lia. lia. }
    destruct (pops_ok i (lc i) Hi eq_refl _ _ _ (i - 1) Q HL ltac:(cbn; lia) ltac:(lia)) as (st' & s' & lb' & E & O). rewrite E.
    destruct O as [(O1 & O2 & O3)|(O1 & ex & E' & O2 & O3 & O4 & O5 & O6 & O7 & O8 & O9 & O10 & O11 & O12)].
    + pose proof (v_chain _ _ _ _ _ _ O2) as C'. destruct st' as [|e' st']; [destruct C'|]. rewrite rd_cons_0. cbn [top_lcp] in O1. rewrite O1, Z.ltb_irrefl. eexists. split; [reflexivity|]. cbv iota beta. split; [apply bound_ok; [exact O2|cbn; lia]|]. split; [exact O3|]. split; [exact O1|lia].
    + pose proof (v_chain _ _ _ _ _ _ O2) as C'. destruct st' as [|e' st']; [destruct C'|]. rewrite rd_cons_0. cbn [top_lcp] in O1. replace (n_lcp e' <? lc i) with true by lia. replace (0 <=? t_last s') with true by lia. rewrite O8, O4.
      pose proof (rd_Some_bound _ _ _ O4) as BX. destruct (wr_Some (t_out s') ex (mkN (n_lcp E') (n_lb E') (n_rb E') next) BX) as (out' & W1 & W2 & W3). rewrite W1. eexists. split; [reflexivity|]. cbv iota beta. split; [|split; [reflexivity|split; [reflexivity|lia]]].
      apply (push_ok i i (e' :: st') s' next ex (lc i) lb' out' (-1)); auto.
      * intros d f Hd. rewrite W3. destruct (Z.eqb_spec d ex) as [->|]; [|exact Hd]. rewrite O4 in Hd. injection Hd as <-. reflexivity.
      * intros E2 H. rewrite O4 in H. injection H as <-. auto.
Qed.

(** The tree: root last, every other node below its parent, the parent of every leaf *)
Definition tree_ok (nodes : list node) (lp : list Z) : Prop :=
  zlen lp = n /\ 1 <= zlen nodes /\ rd nodes (zlen nodes - 1) = Some (mkN 0 0 (n - 1) (-1)) /\
  (forall i e, 0 <= i < zlen nodes - 1 -> rd nodes i = Some e -> node_ok e /\ i < n_par e < zlen nodes /\
     exists E, rd nodes (n_par e) = Some E /\ n_lcp E = plcp e /\ n_lb E <= n_lb e /\ n_rb e <= n_rb E) /\
  (forall x, 0 <= x < n -> exists d E, rd lp x = Some d /\ rd nodes d = Some E /\ n_lb E <= x <= n_rb E /\ n_lcp E = leaf_lcp x).

Lemma intervals_ok : exists nodes lp, create_lcp_intervals n lcp = Some (nodes, lp) /\ tree_ok nodes lp.
Proof.
  unfold create_lcp_intervals.
  assert (S1 : Start 1 ([mkN 0 0 (n - 1) 0], mkT [] (repeat 0 (Z.to_nat n)) (repeat 0 (Z.to_nat n)) [] (-1), 1)).
  { unfold Start. change (1 - 1) with 0. split; [|split; [reflexivity|split; [cbn; auto|lia]]]. constructor; cbn [t_out t_order t_lp t_leaf t_last].
    - reflexivity.
    - intros e [<-|[]]. cbn. split; [lia|intros; lia].
    - repeat constructor. intros [].
    - intros e [<-|[]]. cbn. lia.
    - reflexivity.
    - rewrite zlen_repeat. lia.
    - rewrite zlen_repeat. lia.
    - intros d e H. rewrite rd_nil in H. discriminate.
    - constructor.
    - intros x [].
    - intros x Hx. lia. }
  assert (EF : forall l q, foldM (interval_step lcp) (map (fun i => i + 1) l) q = foldM (fun q i => interval_step lcp q (i + 1)) l q).
  { induction l as [|x l IH]; intros q; cbn [map foldM]; [reflexivity|]. destruct (interval_step lcp q (x + 1)); auto. }
  rewrite EF. destruct (foldM_zr (fun i q => Start (i + 1) q) (fun q i => interval_step lcp q (i + 1)) (n - 1) _ ltac:(lia) S1) as (((st, s), next) & E & (I & HL & HT & HN)).
  { intros i q Hi Hq. apply step_ok; [lia|exact Hq]. }
  rewrite E. replace (n - 1 + 1 - 1) with (n - 1) in * by lia. replace (n - 1 + 1) with n in * by lia. pose proof (v_chain _ _ _ _ _ _ I) as C.
  assert (ES : st = [root]).
  { destruct st as [|e st]; [destruct C|]. cbn [top_lcp] in HT. rewrite LL in HT. destruct st as [|e' st]; [cbn in C; now subst e|]. destruct (chain_below _ C e _ eq_refl) as (_ & D). destruct C as (_ & _ & _ & C4). destruct (chain_below _ C4 e' st eq_refl) as (D2 & _). specialize (D e' (or_introl eq_refl)). lia. }
  subst st. change (zlen [root] =? 1) with true. cbv iota. rewrite rd_cons_0. cbn [n_lcp n_lb n_rb root].
  set (d := zlen (t_out s)). pose proof (v_cnt _ _ _ _ _ _ I) as Q. change (zlen [root]) with 1 in Q. fold d in Q.
  destruct (wr_Some (t_order s) 0 d) as (order & E1 & Z1 & R1); [rewrite (v_zo _ _ _ _ _ _ I); lia|]. rewrite E1.
  assert (FL : forall l lp, zlen lp = n -> (forall x, In x l -> 0 <= x < n) -> exists lp', foldM (fun lp x => wr lp x d) l lp = Some lp' /\ zlen lp' = n /\ (forall x, In x l -> rd lp' x = Some d) /\ forall x, ~ In x l -> rd lp' x = rd lp x).
  { induction l as [|y l IH]; intros lp Hz HB; cbn [foldM]; [exists lp; split; [reflexivity|]; split; [exact Hz|]; split; [intros x []|reflexivity]|].
    destruct (wr_Some lp y d) as (lp1 & W1 & W2 & W3); [rewrite Hz; apply HB; now left|]. rewrite W1. destruct (IH lp1 ltac:(lia) ltac:(intros; apply HB; now right)) as (lp' & V1 & V2 & V3 & V4). exists lp'. split; [exact V1|]. split; [exact V2|]. split.
    - intros x Hx. destruct (in_dec Z.eq_dec x l) as [H|H]; [auto|]. rewrite V4 by auto. destruct Hx as [<-|Hx]; [|contradiction]. rewrite W3, Z.eqb_refl. reflexivity.
    - intros x Hx. rewrite V4 by (intros X; apply Hx; now right). rewrite W3. destruct (Z.eqb_spec x y) as [->|]; [exfalso; apply Hx; now left|reflexivity]. }
  destruct (FL (n - 1 :: t_leaf s) (t_lp s) (v_zl _ _ _ _ _ _ I)) as (lp & E2 & Z2 & V1 & V2).
  { intros x [<-|Hx]; [lia|]. destruct (v_leaf _ _ _ _ _ _ I x Hx). lia. }
  rewrite E2. set (out := t_out s ++ [mkN 0 0 (n - 1) (-1)]). assert (ZO : zlen out = next) by (unfold out; rewrite zlen_app, zlen_cons, zlen_nil; lia). rewrite ZO, Z.eqb_refl.
  assert (RD : rd out d = Some (mkN 0 0 (n - 1) (-1))) by (unfold out; rewrite rd_app_r by lia; replace (d - zlen (t_out s)) with 0 by lia; apply rd_cons_0).
  assert (RL : forall i, i < d -> rd out i = rd (t_out s) i) by (intros i Hi; unfold out; now rewrite rd_app_l by (fold d; lia)).
  assert (PO : forall i e, rd (t_out s) i = Some e -> exists p E, rd order (n_par e) = Some p /\ i < p < next /\ rd out p = Some E /\ n_lcp E = plcp e /\ n_lb E <= n_lb e /\ n_rb e <= n_rb E).
  { intros i e H. pose proof (rd_Some_bound _ _ _ H) as B. fold d in B. destruct (v_out _ _ _ _ _ _ I i e H) as (K1 & K2 & K3). destruct (K3 ltac:(lia)) as [(F & H1 & H2 & H3 & H4)|(p & F & H1 & H2 & H3 & H4 & H5 & H6 & H7 & H8)].
    - destruct H1 as [<-|[]]. cbn in H2, H3, H4. exists d, (mkN 0 0 (n - 1) (-1)). rewrite R1, <- H2. split; [reflexivity|]. split; [lia|]. split; [exact RD|]. cbn. split; [exact H3|]. split; [exact H4|]. destruct K1 as (_ & K1 & _). lia.
    - exists p, F. pose proof (rd_Some_bound _ _ _ H5) as BP. fold d in BP. split; [rewrite R1; replace (n_par e =? 0) with false; [exact H4|]; symmetry; apply Z.eqb_neq; intros X; apply H3; left; exact (eq_sym X)|]. split; [lia|]. split; [rewrite RL by lia; exact H5|auto]. }
  set (fn := fun i : Z => match rd out i with Some e => if i + 1 <? next then match rd order (n_par e) with Some q => mkN (n_lcp e) (n_lb e) (n_rb e) q | None => e end else e | None => mkN 0 0 0 0 end).
  assert (ME : mapM (fun i => e <- rd out i;; if i + 1 <? next then q <- rd order (n_par e);; Some (mkN (n_lcp e) (n_lb e) (n_rb e) q) else Some e) (zrange next) = Some (map fn (zrange next))).
  { apply mapM_Some_map. intros i Hi. apply in_zrange in Hi. unfold fn. destruct (rd_in_bound out i ltac:(lia)) as (e & He). rewrite He. destruct (Z.ltb_spec (i + 1) next); [|reflexivity]. rewrite RL in He by lia. destruct (PO i e He) as (p & F & P1 & _). now rewrite P1. }
  rewrite ME. eexists _, _. split; [reflexivity|].
  assert (RF : forall i, 0 <= i < next -> rd (map fn (zrange next)) i = Some (fn i)) by (intros i Hi; rewrite rd_map, rd_zrange by lia; reflexivity).
  assert (ZN : zlen (map fn (zrange next)) = next) by (rewrite zlen_map, zlen_zrange; lia).
  assert (FD : fn d = mkN 0 0 (n - 1) (-1)) by (unfold fn; rewrite RD; replace (d + 1 <? next) with false by lia; reflexivity).
  assert (SM : forall i E, rd out i = Some E -> exists E', rd (map fn (zrange next)) i = Some E' /\ n_lcp E' = n_lcp E /\ n_lb E' = n_lb E /\ n_rb E' = n_rb E).
  { intros i F HF. pose proof (rd_Some_bound _ _ _ HF). exists (fn i). split; [apply RF; lia|]. unfold fn. rewrite HF. destruct (i + 1 <? next); [destruct (rd order (n_par F))|]; auto. }
  split; [exact Z2|]. rewrite ZN. split; [lia|]. split; [rewrite RF by lia; replace (next - 1) with d by lia; now rewrite FD|]. split.
  - intros i e Hi He. rewrite RF in He by lia. injection He as <-. unfold fn. destruct (rd_in_bound (t_out s) i ltac:(fold d; lia)) as (e & He). rewrite (RL i) by lia. rewrite He. replace (i + 1 <? next) with true by lia. destruct (PO i e He) as (p & F & P1 & P2 & P3 & P4 & P5 & P6). rewrite P1. cbn [n_par n_lcp n_lb n_rb].
    destruct (v_out _ _ _ _ _ _ I i e He) as (K1 & _). split; [exact K1|]. split; [exact P2|]. destruct (SM p F P3) as (F' & G1 & G2 & G3 & G4). exists F'. split; [exact G1|]. unfold plcp in *. cbn [n_lb n_rb]. lia.
  - intros x Hx. destruct (in_dec Z.eq_dec x (n - 1 :: t_leaf s)) as [H|H].
    + exists d, (mkN 0 0 (n - 1) (-1)). split; [auto|]. split; [rewrite RF by lia; now rewrite FD|]. cbn. split; [lia|]. destruct H as [<-|H].
      * unfold leaf_lcp. rewrite LL. unfold lc. rewrite (at0_out lcp (n - 1 + 1)) by lia. reflexivity.
      * destruct (v_leaf _ _ _ _ _ _ I x H) as (_ & (pre & F & post & K1 & K2 & K3 & K4)). destruct pre as [|p pre]; cbn in K1; [injection K1 as <- <-; exact K2|]. injection K1 as _ K1. destruct pre; discriminate.
    + destruct (v_lp _ _ _ _ _ _ I x) as [X|(q & F & F1 & F2 & F3 & F4)]; [|exfalso; apply H; now right|].
      * assert (x <> n - 1) by (intros ->; apply H; now left). lia.
      * pose proof (rd_Some_bound _ _ _ F2) as B. fold d in B. assert (FO : rd out q = Some F) by (rewrite RL by lia; exact F2). destruct (SM q F FO) as (F' & G1 & G2 & G3 & G4). exists q, F'. split; [rewrite V2 by auto; exact F1|]. split; [exact G1|]. lia.
Qed.
End Tree.
