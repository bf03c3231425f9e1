(** * IntersectDevice: the FSAs of the output are products *)
From Coq Require Import ZArith List Lia Bool Permutation.
From Coq Require Import ZifyBool.
From Verif Require Import Base RaggedModel RaggedSpec RaggedProofs FsaSpec FsaLemmas ConnectProofs RaggedOpsModel RaggedOpsSpec RaggedOpsProofs PropsModel PropsSpec IDevModel IDevCore IDevStep IDevRun IDevOut IntersectModel IntersectSpec IntersectProofs IntersectPaths.
From Verif Require EpsLoopProofs ExtractProofs.
Import ListNotations.
Open Scope Z_scope.

Lemma ids_from_nils {A} n : forall r, ids_from r (repeat (@nil A) n) = [].
Proof. induction n as [|n IH]; intros r; cbn; auto. Qed.
Lemma concat_nils {A} n : concat (repeat (@nil A) n) = [].
Proof. induction n; auto. Qed.
Lemma rd_repeat {A} (x : A) n i y : rd (repeat x n) i = Some y -> y = x.
Proof. intros H. apply rd_In in H. now apply repeat_spec in H. Qed.
Lemma filter_imap_ks (f g : Z -> Z) k : forall ks r, NoDup ks -> In k ks -> exists i,
  filter (fun e => tk (snd e) =? k) (imap (fun i (x : tr) => (i, x)) r (map (fun k => T3 k (f k) (g k)) ks)) = [(i, T3 k (f k) (g k))] /\ r <= i < r + zlen ks.
Proof.
  induction ks as [|k0 ks IH]; intros r N Hk; [destruct Hk|]. apply NoDup_cons_iff in N as (N1 & N2). cbn [map imap filter snd tk]. rewrite zlen_cons. pose proof (zlen_nonneg ks). destruct (k0 =? k) eqn:E.
  - assert (k0 = k) by lia. subst. exists r. split; [|lia]. f_equal. clear IH Hk N2. revert N1. generalize (r + 1). clear. induction ks as [|k1 ks IH]; intros r N1; [reflexivity|]. cbn [map imap filter snd tk]. replace (k1 =? k) with false by (assert (k1 <> k) by (intros ->; apply N1; now left); lia). apply IH. intros X. apply N1. now right.
  - destruct Hk as [->|Hk]; [lia|]. destruct (IH (r + 1) N2 Hk) as (i & E1 & E2). exists i. split; [exact E1|lia].
Qed.

(** How the states of the intersection [c] of [a] and [b] are numbered.  [St]: the
    pair of states of each state.  [lv]: the iteration that made it.  [Cr]: the
    state and the two arcs it was made for (arc numbers within [a] and [b]); states
    are in the order of these.  State 0 is not entered; no other pair has two states. *)
Definition numbered (a b c : nfsa) : Prop := exists (St : list (Z * Z)) (lv : Z -> Z) (Cr : Z -> Z * (Z * Z) -> Prop),
  zlen St = zlen c /\ rd St 0 = Some (0, 0) /\ lv 0 = 0 /\
  (forall u, In u (all_arcs c) -> exists s x y, rd St (src u) = Some s /\ In x (all_arcs a) /\ In y (all_arcs b) /\ src x = fst s /\ src y = snd s /\ lab x = lab y /\
     lab u = lab x /\ sc u = sc x + sc y /\ rd St (dst u) = Some (dst x, dst y) /\ (lab u <> -1 -> 1 <= dst u < zlen c - 1 /\ lv (dst u) <= lv (src u) + 1)) /\
  (forall p s x y, rd St p = Some s -> In x (all_arcs a) -> In y (all_arcs b) -> src x = fst s -> src y = snd s -> lab x = lab y ->
     exists u, In u (all_arcs c) /\ src u = p /\ lab u = lab x /\ rd St (dst u) = Some (dst x, dst y)) /\
  (forall p p' s, 1 <= p -> 1 <= p' -> p < zlen c - 1 -> p' < zlen c - 1 -> rd St p = Some s -> rd St p' = Some s -> p = p') /\
  (forall p p', 0 <= p -> p <= p' -> p' < zlen c - 1 -> lv p <= lv p') /\
  (forall p, 1 <= p < zlen c - 1 -> exists w s x y, Cr p w /\ 0 <= fst w < p /\ rd St (fst w) = Some s /\ rd (all_arcs a) (fst (snd w)) = Some x /\ rd (all_arcs b) (snd (snd w)) = Some y /\
     src x = fst s /\ src y = snd s /\ lab x = lab y /\ lab x <> -1 /\ rd St p = Some (dst x, dst y) /\ lv p = lv (fst w) + 1) /\
  (forall p p' w w', p < p' -> Cr p w -> Cr p' w' -> earlier w w').

Lemma ids_mono {A} (y : list (list A)) i j t t' : i <= j -> rd (ids_of y) i = Some t -> rd (ids_of y) j = Some t' -> t <= t'.
Proof.
  unfold ids_of. assert (G : forall r i j t t', i <= j -> rd (ids_from r y) i = Some t -> rd (ids_from r y) j = Some t' -> r <= t <= t'); [|intros; eapply G; eauto].
  induction y as [|l y IH]; intros r i' j' u u' L H1 H2; [cbn in H1; rewrite rd_nil in H1; discriminate|]. change (l :: y) with ([l] ++ y) in *. rewrite ids_from_app, ids_from_one in H1, H2. change (zlen [l]) with 1 in *.
  pose proof (rd_Some_bound _ _ _ H1) as B1. destruct (Z_lt_le_dec j' (zlen l)) as [Lj|Lj].
  - rewrite rd_app_l, rd_map in H1 by (rewrite zlen_map; lia). rewrite rd_app_l, rd_map in H2 by (rewrite zlen_map; lia). destruct (rd l i'); [|discriminate]. destruct (rd l j'); [|discriminate]. cbn in H1, H2. injection H1 as <-. injection H2 as <-. lia.
  - rewrite rd_app_r in H2 by (rewrite zlen_map; lia). destruct (Z_lt_le_dec i' (zlen l)) as [Li|Li].
    + rewrite rd_app_l, rd_map in H1 by (rewrite zlen_map; lia). destruct (rd l i'); [|discriminate]. cbn in H1. injection H1 as <-. specialize (IH _ _ _ _ _ (Z.le_refl _) H2 H2). lia.
    + rewrite rd_app_r in H1 by (rewrite zlen_map; lia). rewrite zlen_map in *. specialize (IH _ (i' - zlen l) (j' - zlen l) u u' ltac:(lia) H1 H2). lia.
Qed.
Lemma filter_incr {A} (P : Z * A -> bool) l : (forall i j e e', i < j -> rd l i = Some e -> rd l j = Some e' -> fst e < fst e') ->
  forall i j e e', i < j -> rd (filter P l) i = Some e -> rd (filter P l) j = Some e' -> fst e < fst e'.
Proof.
  induction l as [|x l IH]; intros H; [intros i j e e' _ Hi; cbn [filter] in Hi; rewrite rd_nil in Hi; discriminate|].
  assert (IH' : forall i j e e', i < j -> rd (filter P l) i = Some e -> rd (filter P l) j = Some e' -> fst e < fst e').
  { apply IH. intros i j e e' Hij Hi Hj. pose proof (rd_Some_bound _ _ _ Hi). apply (H (i + 1) (j + 1) e e'); [lia| |]; rewrite rd_cons; [replace (i + 1 =? 0) with false by lia; replace (i + 1 - 1) with i by lia; auto|replace (j + 1 =? 0) with false by lia; replace (j + 1 - 1) with j by lia; auto]. }
  cbn [filter]. destruct (P x); [|exact IH']. intros i j e e' Hij Hi Hj. pose proof (rd_Some_bound _ _ _ Hi). rewrite rd_cons in Hi, Hj. replace (j =? 0) with false in Hj by lia. destruct (i =? 0) eqn:E0.
  - injection Hi as <-. apply rd_In, filter_In in Hj as (Hj & _). apply In_rd in Hj as (q & Bq & Hj). apply (H 0 (q + 1) x e'); [lia|apply rd_cons_0|]. rewrite rd_cons. replace (q + 1 =? 0) with false by lia. replace (q + 1 - 1) with q by lia. auto.
  - apply (IH' (i - 1) (j - 1)); auto; lia.
Qed.

Section G.
Variables (al bl : list nfsa) (m : list Z).
Hypothesis HA : forall a, In a al -> a = [] \/ valid a.
Hypothesis HB : forall b, In b bl -> b = [] \/ valid b.
Hypothesis Hm1 : zlen m = zlen bl.
Hypothesis Hm2 : forall i, In i m -> 0 <= i < zlen al.
Variable ord : Z -> list Z.
Hypothesis Ho : forall n, is_sched n (ord n).
Hypothesis Hn : 0 < zlen bl.
Let va := flat_vec al.
Let vb := flat_vec bl.
Notation fa := (fa al m).
Notation fb := (fb bl).
Notation mk := (mk m).
Notation anyT := (any al bl m).
Notation okT := (okT al bl m).
Notation enT := (enT al bl m).
Notation keyT := (keyT bl).
Notation Mt := (Mt al bl m).
Notation ks := (ks al bl m).
Notation init := (init al bl m).
Notation finals := (finals al bl m).
Notation Inv := (Inv al bl m).
Notation PK := (PK al bl m).
Variables (BB0 : list (list tr)) (pl0 : list (list (Z * Z))) (d : dint).
Hypothesis I0 : Inv BB0 [] pl0 d.

Lemma ks_sorted (f g : Z -> Z) : sortedT (map (fun k => T3 k (f k) (g k)) ks).
Proof.
  clear. intros i j x y Hij Hx Hy. rewrite rd_map in Hx, Hy. destruct (rd ks i) as [u|] eqn:Eu; [|discriminate]. destruct (rd ks j) as [v|] eqn:Ev; [|discriminate]. cbn in Hx, Hy. injection Hx as <-. injection Hy as <-. cbn [tk].
  destruct (Z.eq_dec i j) as [->|]; [assert (u = v) by congruence; lia|]. pose proof (zlen_nonneg bl). unfold IDevRun.ks in Eu, Ev. rewrite <- ExtractProofs.kept_from_zrange in Eu, Ev by auto.
  destruct (rd_kept_from_inv _ _ _ _ Eu) as (u' & -> & U1 & U2). destruct (rd_kept_from_inv _ _ _ _ Ev) as (v' & -> & V1 & V2). destruct (Z_lt_le_dec u' v') as [|L]; [lia|]. exfalso. assert (j <= i); [|lia]. rewrite <- U2, <- V2. apply zsum_firstn_mono. lia.
Qed.
Lemma NoDup_ks : NoDup ks.
Proof. clear. apply NoDup_filter, NoDup_zrange. Qed.

Let BB := BB0 ++ [finals].
Let pl := pl0 ++ repeat [] (length finals).
Let h := d_hash d.
Lemma cBB : concat BB = concat BB0 ++ finals.
Proof. clear. unfold BB. rewrite concat_app. cbn. now rewrite app_nil_r. Qed.
Lemma ZP : zlen pl = zlen (concat BB).
Proof. destruct I0 as (_ & _ & Z & _). rewrite cBB. unfold pl. rewrite !zlen_app, Z. f_equal. unfold zlen. now rewrite repeat_length. Qed.
Lemma fin_any T : In T finals -> anyT T /\ ta T = zlen (fa (tk T)) - 1 /\ tb T = zlen (fb (tk T)) - 1.
Proof. clear. intros H. apply in_map_iff in H as (k & <- & Hk). apply in_ks in Hk. unfold any. cbn. lia. Qed.
Lemma Ts0 : concat BB0 ++ [] = concat BB0.
Proof. apply app_nil_r. Qed.
Lemma AN T : In T (concat BB) -> anyT T.
Proof. rewrite cBB. intros H. apply in_app_iff in H as [H|H]; [|now apply fin_any]. apply ok_any. destruct I0 as (_ & _ & _ & _ & _ & _ & I7 & _). apply I7. now rewrite Ts0. Qed.
Lemma SO b : In b BB -> sortedT b.
Proof. intros H. unfold BB in H. apply in_app_iff in H as [H|[<-|[]]]; [|apply ks_sorted]. destruct I0 as (_ & _ & _ & _ & _ & _ & _ & I8 & _). apply I8, in_app_iff. now left. Qed.
Lemma no_leaving T ai bi x y : anyT T -> ta T = zlen (fa (tk T)) - 1 -> ~ Mt T ai bi x y.
Proof.
  intros AT E (ja & jb & H1 & _). destruct (geoA al bl m Hm1 Hm2 T AT) as (_ & _ & _ & _ & _ & _ & G). destruct (G _ _ H1) as (_ & G2). pose proof (srcA al bl m HA Hm1 Hm2 T _ _ AT H1) as S.
  destruct AT as (B1 & B2 & B3). destruct (validA al bl m HA Hm1 Hm2 _ B1 ltac:(lia)) as (_ & _ & V). destruct (V x (rd_In _ _ _ G2)) as (_ & _ & _ & N). apply N. unfold final, nstates. lia.
Qed.
Lemma PKall id T : rd (concat BB) id = Some T -> PK T (pick pl id).
Proof.
  intros H. pose proof (AN T (rd_In _ _ _ H)) as AT. pose proof I0 as (_ & _ & Z & _ & _ & I6 & _). rewrite cBB in H. destruct (Z_lt_le_dec id (zlen (concat BB0))) as [L|L].
  - pose proof (rd_Some_bound _ _ _ H). rewrite rd_app_l in H by lia. destruct (rd_in_bound pl0 id ltac:(lia)) as (p & Hp). unfold pick, pl. rewrite rd_app_l by lia. rewrite Hp. eapply I6; eauto.
  - rewrite rd_app_r in H by lia. destruct (fin_any T (rd_In _ _ _ H)) as (_ & E & _). assert (EP : pick pl id = []). { unfold pick, pl. rewrite rd_app_r by lia. destruct (rd _ (id - zlen pl0)) eqn:Er; auto. now apply rd_repeat in Er. }
    rewrite EP. split; [constructor|]. intros ai bi. split; [intros []|]. intros (x & y & HM). exfalso. eapply no_leaving; eauto.
Qed.
Lemma CL id T info : rd (concat BB) id = Some T -> In info (pick pl id) -> exists x y, Mt T (fst info) (snd info) x y /\
  (lab x <> -1 -> exists v, hfind h (keyT (dT T x y)) = Some v /\ rd (concat BB) v = Some (dT T x y)).
Proof.
  intros H HI. destruct (PKall id T H) as (_ & P). destruct info as (ai & bi). apply P in HI as (x & y & HM). exists x, y. split; auto. intros HL. cbn [fst snd] in *.
  pose proof I0 as (_ & _ & _ & _ & _ & _ & _ & _ & _ & I10 & I11 & _). rewrite Ts0 in *.
  assert (IN : In T (concat BB0)). { rewrite cBB in H. apply rd_In, in_app_iff in H as [H|H]; auto. exfalso. destruct (fin_any T H) as (A & E & _). eapply no_leaving; eauto. }
  destruct (I11 T ai bi x y IN HM HL) as (v & V1 & V2). exists v. split; [apply I10; eauto|]. rewrite cBB, rd_app_l; auto. apply rd_Some_bound in V2. lia.
Qed.
Notation FF := (FF bl BB).
Notation CC := (CC al bl BB pl h).

(** FormatOutput after the loop *)
Lemma output_ok : format_output ord va vb (ids_of bl) (mkDint (d_states d ++ map enT finals) (splits_of BB0 ++ [zlen (d_states d) + zlen (map enT finals)]) (d_arcs d) (d_rows d) h) =
  Some (flat_vec (map (map (map fst)) CC), map (fun y => fst (snd y)) (concat (concat CC)), map (fun y => snd (snd y)) (concat (concat CC))).
Proof.
  rewrite <- (format_output_ok al bl m HB Hm1 Hm2 ord Ho Hn BB pl h); [|unfold BB; rewrite zlen_app; change (zlen [_]) with 1; pose proof (zlen_nonneg BB0); lia|apply SO|apply AN|apply ZP|apply CL].
  f_equal. unfold dI. pose proof I0 as (I1 & _ & _ & I4 & I5 & _). rewrite Ts0 in I1. f_equal.
  - rewrite I1, cBB, map_app. reflexivity.
  - unfold BB. rewrite splits_of_snoc, I1, !zlen_map. reflexivity.
  - unfold pl. rewrite I4, concat_app, concat_nils, app_nil_r. reflexivity.
  - unfold pl. rewrite I5. unfold ids_of. rewrite ids_from_app, ids_from_nils, app_nil_r. reflexivity.
Qed.

(** ** One pair *)
Section K.
Variable k : Z.
Hypothesis Kk : In k ks.
Notation F := (filter (fun e : Z * tr => tk (snd e) =? k) (Ee BB)).
Lemma Bk : 0 <= k < zlen bl /\ 0 < zlen (fa k) /\ 0 < zlen (fb k).
Proof. now apply in_ks in Kk. Qed.
Lemma FFk : rd FF k = Some F.
Proof. pose proof Bk. unfold IDevOut.FF. rewrite rd_map, rd_zrange by lia. reflexivity. Qed.
Lemma F_shape : exists i mid j, F = (i, T3 k 0 0) :: mid ++ [(j, T3 k (zlen (fa k) - 1) (zlen (fb k) - 1))] /\ 0 <= i < zlen init /\
  (forall e, In e ((i, T3 k 0 0) :: mid) -> In (snd e) (concat BB0)) /\ (forall e, In e mid -> zlen init <= fst e).
Proof.
  pose proof I0 as (_ & _ & _ & _ & _ & _ & _ & _ & (R & I9) & _). rewrite Ts0 in I9. unfold Ee. rewrite cBB, I9. rewrite !imap_app, !filter_app.
  destruct (filter_imap_ks (fun _ => 0) (fun _ => 0) k ks 0 NoDup_ks Kk) as (i & Ei & Bi). destruct (filter_imap_ks (fun k => zlen (fa k) - 1) (fun k => zlen (fb k) - 1) k ks (0 + zlen (init ++ R)) NoDup_ks Kk) as (j & Ej & _).
  unfold IDevRun.init at 1. rewrite Ei. unfold IDevRun.finals. rewrite Ej. eexists i, _, j. split; [reflexivity|]. split; [unfold IDevRun.init; rewrite zlen_map; lia|].
  assert (MID : forall e, In e (filter (fun e : Z * tr => tk (snd e) =? k) (imap (fun i (x : tr) => (i, x)) (0 + zlen init) R)) -> In (snd e) R /\ zlen init <= fst e).
  { intros e He. apply filter_In in He as (He & _). apply In_rd in He as (q & Bq & He). rewrite rd_imap in He. destruct (rd R q) as [T|] eqn:Eq; [|discriminate]. injection He as <-. cbn. split; [eapply rd_In; eauto|]. apply rd_Some_bound in Eq. lia. }
  split.
  - intros e [<-|He]; [|apply in_app_iff; right; now apply MID]. cbn [snd]. apply in_app_iff. left. unfold IDevRun.init. apply in_map_iff. exists k. auto.
  - intros e He. now apply MID.
Qed.

Let a := fa k.
Let b := fb k.
Let oa := first_arc al (mk k).
Let ob := first_arc bl k.
Definition loc (z : arc * (Z * Z)) : arc * (Z * Z) := (fst z, (fst (snd z) - oa, snd (snd z) - ob)).
Definition St : list pair := map (fun e : Z * tr => (ta (snd e), tb (snd e))) F.
Lemma F_in p e : rd F p = Some e -> rd (concat BB) (fst e) = Some (snd e) /\ tk (snd e) = k /\ anyT (snd e).
Proof. intros H. apply rd_In, filter_In in H as (H & E). apply Ee_in in H. split; auto. split; [lia|]. apply AN. eapply rd_In; eauto. Qed.

Lemma CCk : exists C, rd CC k = Some C /\ zlen C = zlen F /\ forall p e, rd F p = Some e -> exists row, rd C p = Some row /\ map snd row = pick pl (fst e) /\
  forall z, In z row -> In (snd z) (pick pl (fst e)) /\ src (fst z) = p /\ lab (fst z) = lab (XA al (fst (snd z))) /\ sc (fst z) = sc (XA al (fst (snd z))) + sc (YB bl (snd (snd z))) /\
    (lab (fst z) = -1 -> dst (fst z) = zlen F - 1) /\ (lab (fst z) <> -1 -> exists v, hfind h (keyT (dT (snd e) (XA al (fst (snd z))) (YB bl (snd (snd z))))) = Some v /\ rd F (dst (fst z)) = Some (v, dT (snd e) (XA al (fst (snd z))) (YB bl (snd (snd z))))).
Proof.
  destruct F_shape as (i & mid & j & EF & _). assert (H0 : rd F 0 = Some (i, T3 k 0 0)) by (rewrite EF; apply rd_cons_0).
  destruct (CC_row al bl m HB Hm1 Hm2 ord Ho Hn BB pl h AN CL k F 0 _ FFk H0) as (C & _ & E1 & E2 & _). exists C. split; auto. split; auto. intros p e He.
  destruct (CC_row al bl m HB Hm1 Hm2 ord Ho Hn BB pl h AN CL k F p e FFk He) as (C' & row & E1' & _ & E3 & E4 & E5). assert (C' = C) by congruence. subst C'. exists row. auto.
Qed.

Lemma local_arc T ja jb x y : anyT T -> tk T = k -> rd (la al m T) ja = Some x -> rd (lb bl T) jb = Some y ->
  rd (all_arcs a) (a0 al m T + ja - oa) = Some x /\ rd (all_arcs b) (b0 bl T + jb - ob) = Some y /\ src x = ta T /\ src y = tb T.
Proof.
  intros AT Tk H1 H2. destruct (geoA al bl m Hm1 Hm2 T AT) as (_ & _ & _ & G1 & _ & _ & GA). destruct (geoB al bl m Hm1 Hm2 T AT) as (_ & _ & _ & _ & G2 & _ & _ & GB). destruct (GA _ _ H1) as (_ & A1). destruct (GB _ _ H2) as (_ & _ & B1). pose proof (srcA al bl m HA Hm1 Hm2 T _ _ AT H1) as S1. pose proof (srcB al bl m HB Hm1 Hm2 T _ _ AT H2) as S2. rewrite Tk in G1, G2, A1, B1.
  fold (first_arc al (mk k)) in G1. fold (first_arc bl k) in G2. fold oa in G1. fold ob in G2. split; [rewrite <- A1; f_equal; lia|]. split; [rewrite <- B1; f_equal; lia|]. split; auto.
Qed.

Lemma pair_prod : exists C, rd CC k = Some C /\ prod_ok false a b St (map (map loc) C).
Proof.
  destruct F_shape as (i0 & mid & j0 & EF & _ & IN0 & _). destruct CCk as (C & E1 & E2 & E3). exists C. split; auto.
  pose proof Bk as (B0 & Ba & Bb). destruct (validA al bl m HA Hm1 Hm2 k B0 Ba) as (Sa & Va & Va'). destruct (validB al bl m HB Hm1 Hm2 k B0 Bb) as (Sb & Vb & _). unfold nstates in Va, Vb. fold a in Sa, Va, Va'. fold b in Sb, Vb.
  assert (ZS : zlen St = zlen F) by (unfold St; apply zlen_map). assert (ZF : zlen F = zlen mid + 2) by (rewrite EF, zlen_cons, zlen_app; change (zlen [_]) with 1; lia). pose proof (zlen_nonneg mid) as Z0.
  assert (LAST : rd F (zlen F - 1) = Some (j0, T3 k (zlen a - 1) (zlen b - 1))). { rewrite ZF, EF. rewrite rd_cons. replace (zlen mid + 2 - 1 =? 0) with false by lia. rewrite rd_app_r by lia. replace (zlen mid + 2 - 1 - 1 - zlen mid) with 0 by lia. apply rd_cons_0. }
  assert (RS : forall t, rd St t = option_map (fun e : Z * tr => (ta (snd e), tb (snd e))) (rd F t)) by (intros; unfold St; apply rd_map).
  split.
  { intros t Ht. rewrite RS in Ht. destruct (rd F t) as [e|] eqn:Ee; [|discriminate]. injection Ht as X1 X2. pose proof (rd_Some_bound _ _ _ Ee) as Bt. destruct (Z.eq_dec t (zlen F - 1)) as [->|NE]; [lia|]. exfalso.
    assert (HIN : In e ((i0, T3 k 0 0) :: mid)). { rewrite EF in Ee. change ((i0, T3 k 0 0) :: mid ++ [(j0, T3 k (zlen (fa k) - 1) (zlen (fb k) - 1))]) with (((i0, T3 k 0 0) :: mid) ++ [(j0, T3 k (zlen (fa k) - 1) (zlen (fb k) - 1))]) in Ee. rewrite rd_app_l in Ee by (rewrite zlen_cons; lia). eapply rd_In; eauto. }
    apply IN0 in HIN. destruct I0 as (_ & _ & _ & _ & _ & _ & I7 & _). rewrite Ts0 in I7. destruct (I7 _ HIN) as (_ & O1 & _). destruct (F_in _ _ Ee) as (_ & Tk & _). rewrite Tk in O1. fold a in O1. lia. }
  split.
  { intros p Hp. unfold St in Hp. apply in_map_iff in Hp as (e & <- & He). apply In_rd in He as (q & _ & He). destruct (F_in _ _ He) as (_ & Tk & (_ & A1 & A2)). rewrite Tk in A1, A2. split; cbn; auto. }
  split; [rewrite RS, EF, rd_cons_0; reflexivity|]. split; [rewrite ZS, RS, LAST; reflexivity|]. split; [rewrite zlen_map; congruence|]. split; [lia|].
  intros p pp Hp. rewrite RS in Hp. destruct (rd F p) as [e|] eqn:He; [|discriminate]. injection Hp as <-. destruct (E3 p e He) as (row & R1 & R2 & R3). destruct (F_in _ _ He) as (Ie & Tk & AT). destruct (PKall _ _ Ie) as (ND & PM).
  exists (map loc row). split; [now rewrite rd_map, R1|]. split; [|split].
  - intros _. rewrite map_map. unfold loc. cbn [snd]. rewrite <- (map_map snd (fun x : Z * Z => (fst x - oa, snd x - ob))). rewrite R2. apply FinFun.Injective_map_NoDup; auto. intros (u & v) (u' & v') Q. cbn in Q. injection Q as Q1 Q2. f_equal; lia.
  - intros y Hy. apply in_map_iff in Hy as (z & <- & Hz). destruct (R3 z Hz) as (Z1 & Z2 & Z3 & Z4 & Z5 & Z6). destruct (infoXY al bl m HB Hm1 Hm2 BB pl h AN CL _ _ _ Ie Z1) as (HM & _). pose proof HM as (ja & jb & M1 & M2 & M3 & M4 & M5).
    destruct (local_arc _ _ _ _ _ AT Tk M1 M2) as (L1 & L2 & L3 & L4). rewrite <- M3 in L1. rewrite <- M4 in L2. set (X := XA al (fst (snd z))) in *. set (Y := YB bl (snd (snd z))) in *.
    exists (mkX (dst X, dst Y) (lab X) (sc X + sc Y) (fst (snd z) - oa) (snd (snd z) - ob)). split; [apply xs_both; auto; discriminate|]. unfold arc_of, loc. cbn [fst snd x_lab x_sc x_a x_b x_dest]. split; auto. split; auto. split; auto. split; auto. rewrite RS. destruct (Z.eq_dec (lab (fst z)) (-1)) as [EL|NL].
    + rewrite (Z5 EL), LAST. cbn. destruct (fin_dest al bl m HA HB Hm1 Hm2 _ _ _ _ _ AT HM ltac:(lia)) as (-> & ->). rewrite Tk. reflexivity.
    + destruct (Z6 NL) as (v & _ & ->). reflexivity.
  - intros x HX. inversion HX as [i u j v A1 A2 A3 A4 A5 A6|? ? Q|? ? Q]; [|discriminate|discriminate]. subst x.
    cbn [fst snd] in A3, A4. unfold all_arcs in A1, A2. pose proof A1 as A1'. pose proof A2 as A2'. apply rd_concat_inv in A1 as (r & st & ja & D1 & D2 & D3 & _). apply rd_concat_inv in A2 as (r' & st' & jb & D1' & D2' & D3' & _).
    assert (r = ta (snd e)) by (rewrite <- A3; symmetry; exact (Sa _ _ _ D1 (rd_In _ _ _ D2))). assert (r' = tb (snd e)) by (rewrite <- A4; symmetry; exact (Sb _ _ _ D1' (rd_In _ _ _ D2'))). subst r r'.
    assert (L1 : rd (la al m (snd e)) ja = Some u) by (unfold la; rewrite Tk; fold a; now rewrite D1). assert (L2 : rd (lb bl (snd e)) jb = Some v) by (unfold lb; rewrite Tk; fold b; now rewrite D1').
    assert (HM : Mt (snd e) (a0 al m (snd e) + ja) (b0 bl (snd e) + jb) u v) by (exists ja, jb; auto).
    assert (HI : In (a0 al m (snd e) + ja, b0 bl (snd e) + jb) (map snd row)) by (rewrite R2; apply PM; eauto). apply in_map_iff in HI as (z & Ez & Hz). exists (loc z). split; [now apply in_map|].
    destruct (R3 z Hz) as (Z1 & Z2 & Z3 & Z4 & Z5 & Z6). rewrite Ez in *. cbn [fst snd] in *.
    destruct (geoA al bl m Hm1 Hm2 _ AT) as (_ & _ & _ & G1 & _ & _ & GA). destruct (geoB al bl m Hm1 Hm2 _ AT) as (_ & _ & _ & _ & G2 & _ & _ & GB). destruct (GA _ _ L1) as (GA1 & _). destruct (GB _ _ L2) as (GB1 & _). rewrite Tk in G1, G2. fold (first_arc al (mk k)) in G1. fold (first_arc bl k) in G2. fold oa in G1. fold ob in G2. fold a in G1. fold b in G2.
    assert (EX : XA al (a0 al m (snd e) + ja) = u) by (unfold XA; now rewrite GA1). assert (EY : YB bl (b0 bl (snd e) + jb) = v) by (unfold YB; now rewrite GB1). rewrite EX, EY in *.
    unfold arc_of, loc. cbn [fst snd x_lab x_sc x_a x_b x_dest]. split; auto. split; auto. split; auto. split; [rewrite Ez; cbn [fst snd]; f_equal; lia|]. rewrite RS. destruct (Z.eq_dec (lab (fst z)) (-1)) as [EL|NL].
    + rewrite (Z5 EL), LAST. cbn. destruct (fin_dest al bl m HA HB Hm1 Hm2 _ _ _ _ _ AT HM ltac:(lia)) as (-> & ->). rewrite Tk. reflexivity.
    + destruct (Z6 NL) as (v' & _ & ->). reflexivity.
Qed.

(** Every state but the final one can be reached *)
Lemma pair_reach C : rd CC k = Some C -> forall s, 0 <= s < zlen F - 1 -> exists p, path (map fst (concat C)) 0 p s.
Proof.
  intros HC. destruct F_shape as (i0 & mid & j0 & EF & Bi & IN0 & INM). destruct CCk as (C' & E1 & E2 & E3). assert (C' = C) by congruence. subst C'.
  pose proof I0 as (_ & _ & _ & _ & _ & _ & _ & _ & _ & I10 & I11 & I12 & _). rewrite Ts0 in *.
  assert (ZF : zlen F = zlen mid + 2) by (rewrite EF, zlen_cons, zlen_app; change (zlen [_]) with 1; lia). pose proof (zlen_nonneg mid) as Z0.
  assert (FN : forall e, In e F -> exists q, rd F q = Some e) by (intros e He; apply In_rd in He as (q & _ & He); eauto).
  assert (UN : forall q q' e, rd F q = Some e -> rd F q' = Some e -> q = q').
  { assert (N : NoDup F). { apply NoDup_filter. apply NoDup_rd. intros i j e Hi Hj. apply Ee_rd in Hi. apply Ee_rd in Hj. destruct Hi, Hj. congruence. } intros q q' e H H'. pose proof (rd_Some_bound _ _ _ H). pose proof (rd_Some_bound _ _ _ H'). unfold rd in H, H'. destruct (q <? 0) eqn:?; [lia|]. destruct (q' <? 0) eqn:?; [lia|]. pose proof (proj1 (NoDup_nth_error F) N (Z.to_nat q) (Z.to_nat q')) as X. unfold zlen in *. specialize (X ltac:(lia) ltac:(congruence)). lia. }
  assert (G : forall n v s T, (Z.to_nat v < n)%nat -> rd F s = Some (v, T) -> s < zlen F - 1 -> exists p, path (map fst (concat C)) 0 p s).
  { induction n as [|n IH]; intros v s T Hv Hs Bs; [lia|]. pose proof (rd_Some_bound _ _ _ Hs) as Bs'.
    assert (HIN : In (v, T) ((i0, T3 k 0 0) :: mid)). { rewrite EF in Hs. change ((i0, T3 k 0 0) :: mid ++ [(j0, T3 k (zlen (fa k) - 1) (zlen (fb k) - 1))]) with (((i0, T3 k 0 0) :: mid) ++ [(j0, T3 k (zlen (fa k) - 1) (zlen (fb k) - 1))]) in Hs. rewrite rd_app_l in Hs by (rewrite zlen_cons; lia). eapply rd_In; eauto. }
    destruct HIN as [E|HM0].
    - assert (s = 0) by (apply (UN _ _ (v, T)); auto; rewrite EF, <- E; apply rd_cons_0). subst. exists []. constructor.
    - pose proof (INM _ HM0) as Vn. cbn [fst] in Vn. pose proof (IN0 _ (or_intror HM0)) as INB. cbn [snd] in INB. destruct (F_in _ _ Hs) as (Rv & Tk & _). cbn [fst snd] in *.
      assert (Rv0 : rd (concat BB0) v = Some T). { rewrite cBB in Rv. destruct (Z_lt_le_dec v (zlen (concat BB0))) as [L|L]; [rewrite rd_app_l in Rv; auto; lia|]. exfalso. rewrite rd_app_r in Rv by lia. destruct (fin_any _ (rd_In _ _ _ Rv)) as (_ & Ef & _). pose proof I0 as (_ & _ & _ & _ & _ & _ & I7 & _). rewrite Ts0 in I7. destruct (I7 _ INB) as (_ & O1 & _). lia. }
      destruct (I12 v T Vn Rv0) as (u & T0 & ai & bi & x & y & Uv & U1 & U2 & U3 & U4).
      assert (Eu : In (u, T0) (Ee BB)) by (apply Ee_in; cbn; rewrite cBB; rewrite rd_app_l; auto; apply rd_Some_bound in U1; lia).
      assert (T0k : tk T0 = k) by (rewrite <- Tk, U4; reflexivity). assert (Iu : In (u, T0) F) by (apply filter_In; split; auto; cbn; lia). destruct (FN _ Iu) as (q & Hq). pose proof (rd_Some_bound _ _ _ U1) as Bu.
      assert (Bq : q < zlen F - 1). { pose proof (rd_Some_bound _ _ _ Hq). destruct (Z.eq_dec q (zlen F - 1)) as [->|]; [|lia]. exfalso. destruct (F_in _ _ Hq) as (_ & _ & AT). pose proof I0 as (_ & _ & _ & _ & _ & _ & I7 & _). rewrite Ts0 in I7. destruct (I7 _ (rd_In _ _ _ U1)) as (_ & O1 & _).
        rewrite ZF, EF in Hq. rewrite rd_cons in Hq. replace (zlen mid + 2 - 1 =? 0) with false in Hq by lia. rewrite rd_app_r in Hq by lia. replace (zlen mid + 2 - 1 - 1 - zlen mid) with 0 in Hq by lia. rewrite rd_cons_0 in Hq. injection Hq as _ <-. cbn [tk ta] in O1. lia. }
      destruct (IH u q T0 ltac:(lia) Hq Bq) as (p & Hp). destruct (E3 q _ Hq) as (row & R1 & R2 & R3). cbn [fst snd] in *. destruct (F_in _ _ Hq) as (Ie & _ & AT). destruct (PKall _ _ Ie) as (_ & PM). cbn [fst snd] in *.
      assert (HI : In (ai, bi) (map snd row)) by (rewrite R2; apply PM; eauto). apply in_map_iff in HI as (z & Ez & Hz). destruct (R3 z Hz) as (Z1 & Z2 & Z3 & Z4 & Z5 & Z6). rewrite Ez in *. cbn [fst snd] in *.
      pose proof U2 as (ja & jb & M1 & M2 & M3 & M4 & M5). destruct (geoA al bl m Hm1 Hm2 _ AT) as (_ & _ & _ & _ & _ & _ & GA). destruct (geoB al bl m Hm1 Hm2 _ AT) as (_ & _ & _ & _ & _ & _ & _ & GB). destruct (GA _ _ M1) as (GA1 & _). destruct (GB _ _ M2) as (GB1 & _). rewrite <- M3 in GA1. rewrite <- M4 in GB1.
      assert (EX : XA al ai = x) by (unfold XA; now rewrite GA1). assert (EY : YB bl bi = y) by (unfold YB; now rewrite GB1). rewrite EX, EY in *. destruct (Z6 ltac:(lia)) as (v' & H1 & H2). rewrite <- U4 in H1, H2.
      assert (H3 : hfind (d_hash d) (keyT T) = Some v) by (apply I10; eauto). assert (v' = v) by (unfold h in H1; congruence). subst v'. assert (ES : dst (fst z) = s) by (apply (UN _ _ (v, T)); auto).
      exists (p ++ [fst z]). eapply path_app; [exact Hp|]. rewrite <- ES. rewrite <- Z2. constructor; [|constructor]. apply in_map. apply in_concat. exists row. split; auto. eapply rd_In; eauto. }
  intros s Bs. destruct (rd_in_bound F s ltac:(lia)) as ((v & T) & Hs). apply (G (S (Z.to_nat v)) v s T); auto; lia.
Qed.
Lemma pair_numbered C : rd CC k = Some C -> numbered a b (map (map fst) C).
Proof.
  intros HC. destruct F_shape as (i0 & mid & j0 & EF & Bi & IN0 & INM). destruct CCk as (C' & E1 & E2 & E3). assert (C' = C) by congruence. subst C'.
  destruct pair_prod as (C' & E1' & PO). assert (C' = C) by congruence. subst C'. clear E1'. destruct PO as (PO1 & PO2 & PO3 & PO4 & PO5 & PO6 & PO7).
  pose proof I0 as (_ & _ & _ & _ & _ & _ & I7 & _ & _ & I10 & I11 & I12 & ((ws & O1 & O2 & O3 & O4) & O5 & O6)). rewrite Ts0 in *. set (ids := ids_of (BB0 ++ [[]])) in *.
  assert (ZF : zlen F = zlen mid + 2) by (rewrite EF, zlen_cons, zlen_app; change (zlen [_]) with 1; lia). pose proof (zlen_nonneg mid) as Z0.
  assert (ZS : zlen St = zlen F) by (unfold St; apply zlen_map). assert (ZC : zlen (map (map fst) C) = zlen F) by now rewrite zlen_map.
  assert (INC : forall i j e e', i < j -> rd F i = Some e -> rd F j = Some e' -> fst e < fst e'). { apply filter_incr. intros i j e e' Hij Hi Hj. apply Ee_rd in Hi. apply Ee_rd in Hj. lia. }
  assert (INJ : forall i j e e', rd F i = Some e -> rd F j = Some e' -> fst e < fst e' -> i < j). { intros i j e e' Hi Hj L. destruct (Z_lt_le_dec i j); auto. exfalso. destruct (Z.eq_dec i j) as [->|]; [assert (e = e') by congruence; subst; lia|]. specialize (INC j i e' e ltac:(lia) Hj Hi). lia. }
  assert (UN : forall q q' e e', rd F q = Some e -> rd F q' = Some e' -> fst e = fst e' -> q = q'). { intros q q' e e' H H' HE. destruct (Z_lt_le_dec q q') as [L|L]; [specialize (INC _ _ _ _ L H H'); lia|]. destruct (Z.eq_dec q q'); auto. specialize (INC q' q _ _ ltac:(lia) H' H). lia. }
  assert (F0 : rd F 0 = Some (i0, T3 k 0 0)) by (rewrite EF; apply rd_cons_0).
  assert (FIN : forall p e, rd F p = Some e -> p < zlen F - 1 -> rd (concat BB0) (fst e) = Some (snd e) /\ okT (snd e) /\ (1 <= p -> zlen init <= fst e)).
  { intros p e Hp Bp. pose proof (rd_Some_bound _ _ _ Hp). destruct (F_in _ _ Hp) as (R1 & Tk & _). rewrite EF in Hp. change ((i0, T3 k 0 0) :: mid ++ [(j0, T3 k (zlen (fa k) - 1) (zlen (fb k) - 1))]) with (((i0, T3 k 0 0) :: mid) ++ [(j0, T3 k (zlen (fa k) - 1) (zlen (fb k) - 1))]) in Hp. rewrite rd_app_l in Hp by (rewrite zlen_cons; lia).
    pose proof (rd_In _ _ _ Hp) as HI. specialize (IN0 _ HI). specialize (I7 _ IN0). split; [|split; auto].
    - rewrite cBB in R1. destruct (Z_lt_le_dec (fst e) (zlen (concat BB0))) as [L|L]; [pose proof (rd_Some_bound _ _ _ R1); rewrite rd_app_l in R1; auto; lia|]. exfalso. rewrite rd_app_r in R1 by lia. destruct (fin_any _ (rd_In _ _ _ R1)) as (_ & Ef & _). destruct I7 as (_ & O & _). lia.
    - intros P1. rewrite rd_cons in Hp. replace (p =? 0) with false in Hp by lia. apply INM. eapply rd_In; eauto. }
  assert (FOF : forall v T, rd (concat BB0) v = Some T -> tk T = k -> exists q, rd F q = Some (v, T) /\ q < zlen F - 1 /\ (zlen init <= v -> 1 <= q)).
  { intros v T Hv HT. assert (HI : In (v, T) F). { apply filter_In. split; [apply Ee_in; cbn [fst snd]; rewrite cBB, rd_app_l; auto; apply rd_Some_bound in Hv; lia|cbn; lia]. }
    apply In_rd in HI as (q & Bq & Hq). exists q. split; auto. split.
    - destruct (Z.eq_dec q (zlen F - 1)) as [->|]; [|lia]. exfalso. specialize (I7 _ (rd_In _ _ _ Hv)). destruct I7 as (_ & O & _). rewrite HT in O. rewrite ZF, EF, rd_cons in Hq. replace (zlen mid + 2 - 1 =? 0) with false in Hq by lia. rewrite rd_app_r in Hq by lia. replace (zlen mid + 2 - 1 - 1 - zlen mid) with 0 in Hq by lia. rewrite rd_cons_0 in Hq. injection Hq as _ <-. cbn [ta] in O. lia.
    - intros Lv. destruct (Z.eq_dec q 0) as [->|]; [|lia]. rewrite F0 in Hq. injection Hq as <- _. lia. }
  assert (RS : forall p, rd St p = option_map (fun e : Z * tr => (ta (snd e), tb (snd e))) (rd F p)) by (intros; unfold St; apply rd_map).
  set (lv := fun p => match rd F p with Some e => match rd ids (fst e) with Some t => t | None => 0 end | None => 0 end).
  set (Cr := fun p w => exists e g, rd F p = Some e /\ rd ws (fst e - zlen init) = Some (g, (fst (snd w) + oa, snd (snd w) + ob)) /\ exists T, rd F (fst w) = Some (g, T)).
  assert (IDS : forall u T, rd (concat BB0) u = Some T -> exists t, rd ids u = Some t).
  { intros u T Hu. apply rd_in_bound. unfold ids. unfold ids_of. rewrite zlen_ids_from, concat_app. cbn. rewrite app_nil_r. now apply rd_Some_bound in Hu. }
  exists St, lv, Cr. rewrite ZC. split; [exact ZS|]. split; [exact PO3|]. split.
  { unfold lv. rewrite F0. cbn [fst]. now rewrite O5 by lia. }
  split; [|split; [|split; [|split; [|split]]]].
  - intros u Hu. unfold all_arcs in Hu. rewrite <- concat_map in Hu. apply in_map_iff in Hu as (z & <- & Hz). apply in_concat in Hz as (row & Hr & Hz). apply In_rd in Hr as (p & Bp & Hr). destruct (rd_in_bound F p ltac:(lia)) as (e & He). destruct (E3 p e He) as (row' & R1 & R2 & R3). assert (row' = row) by congruence. subst row'.
    destruct (PO7 p (ta (snd e), tb (snd e))) as (row' & Q1 & _ & Q2 & _); [rewrite RS, He; reflexivity|]. rewrite rd_map, Hr in Q1. injection Q1 as <-. destruct (Q2 (loc z) (in_map _ _ _ Hz)) as (x & X & A1 & A2 & A3 & A4 & A5). inversion X as [i u' j v' X1 X2 X3 X4 X5 X6|? ? D|? ? D]; [|discriminate|discriminate]. subst x. cbn [loc fst snd x_lab x_sc x_dest] in *.
    exists (ta (snd e), tb (snd e)), u', v'. rewrite A1. split; [rewrite RS, He; reflexivity|]. split; [eapply rd_In; eauto|]. split; [eapply rd_In; eauto|]. repeat (split; [assumption|]). intros NL.
    destruct (R3 z Hz) as (Z1 & Z2 & Z3 & Z4 & Z5 & Z6). destruct (Z6 NL) as (v & H1 & H2). apply I10 in H1 as (T & Lv & HT & KT).
    destruct (F_in _ _ He) as (Ie & Tk & AT). destruct (PKall _ _ Ie) as (_ & PM). destruct z as (z0 & (ai & bi)). cbn [fst snd] in *. apply PM in Z1 as (x & y & HM). pose proof HM as (ja & jb & M1 & M2 & M3 & M4 & M5).
    destruct (geoA al bl m Hm1 Hm2 _ AT) as (_ & _ & _ & _ & _ & _ & GA). destruct (geoB al bl m Hm1 Hm2 _ AT) as (_ & _ & _ & _ & _ & _ & _ & GB). destruct (GA _ _ M1) as (GA1 & _). destruct (GB _ _ M2) as (GB1 & _). rewrite <- M3 in GA1. rewrite <- M4 in GB1.
    assert (EX : XA al ai = x) by (unfold XA; now rewrite GA1). assert (EY : YB bl bi = y) by (unfold YB; now rewrite GB1). rewrite EX, EY in *.
    destruct (F_in _ _ H2) as (Rd & _ & _). cbn [fst snd] in Rd. rewrite cBB, rd_app_l in Rd by (apply rd_Some_bound in HT; lia). assert (T = dT (snd e) x y) by congruence. subst T.
    destruct (FOF v _ HT ltac:(cbn; auto)) as (q & Hq & Bq & Bq'). assert (q = dst z0) by (eapply UN; [exact Hq|exact H2|reflexivity]). subst q. split; [specialize (Bq' Lv); lia|].
    assert (Bp' : p < zlen F - 1). { destruct (Z.eq_dec p (zlen F - 1)) as [EL|]; [|lia]. exfalso. rewrite EL in He. rewrite <- ZS in He at 1. pose proof (PO4 : rd St (zlen St - 1) = _) as P4. rewrite RS, He in P4. cbn in P4. injection P4 as P4 _. destruct (validA al bl m HA Hm1 Hm2 k (proj1 Bk) (proj1 (proj2 Bk))) as (Sa & Va & Va'). apply rd_In in X1. specialize (Va' _ X1). fold a in Va'. unfold final, nstates in *. lia. }
    destruct (FIN p e He Bp') as (Re & Oe & _). destruct (IDS _ _ Re) as (t & Ht). destruct (O6 _ t _ ai bi x y Re Ht HM ltac:(lia)) as (v2 & t2 & V1 & V2 & V3 & V4).
    assert (v2 = v). { assert (K1 : hfind (d_hash d) (keyT (dT (snd e) x y)) = Some v2) by (apply I10; eauto). assert (K2 : hfind (d_hash d) (keyT (dT (snd e) x y)) = Some v) by (apply I10; eauto). congruence. } subst v2.
    unfold lv. rewrite He, H2. cbn [fst]. rewrite Ht, V3. lia.
  - intros p s x y Hs Hx Hy S1 S2 L. destruct (PO7 p s Hs) as (row & Q1 & _ & _ & Q3). rewrite rd_map in Q1. destruct (rd C p) as [row0|] eqn:ER; [|discriminate]. injection Q1 as <-. apply In_rd in Hx as (i & _ & Hx). apply In_rd in Hy as (j & _ & Hy).
    destruct (Q3 _ (xs_both false a b s i x j y Hx Hy S1 S2 L ltac:(discriminate))) as (z & Hz & A1 & A2 & _ & _ & A5). apply in_map_iff in Hz as (z0 & <- & Hz). exists (fst z0). cbn [loc fst snd x_lab x_dest] in *. split; [|auto]. unfold all_arcs. rewrite <- concat_map. apply in_map, in_concat. exists row0. split; auto. eapply rd_In; eauto.
  - intros p p' s P1 P2 B1 B2 Hp Hp'. rewrite RS in Hp. rewrite RS in Hp'. destruct (rd F p) as [e|] eqn:Ee1; [|discriminate]. destruct (rd F p') as [e'|] eqn:Ee2; [|discriminate]. cbn in Hp, Hp'. destruct (FIN _ _ Ee1 B1) as (R1 & _ & L1). destruct (FIN _ _ Ee2 B2) as (R2 & _ & L2). specialize (L1 P1). specialize (L2 P2). destruct (F_in _ _ Ee1) as (_ & K1 & _). destruct (F_in _ _ Ee2) as (_ & K2 & _).
    assert (ET : snd e = snd e') by (destruct (snd e), (snd e'); cbn in *; f_equal; congruence). apply (UN _ _ _ _ Ee1 Ee2). assert (X1 : hfind (d_hash d) (keyT (snd e)) = Some (fst e)) by (apply I10; eauto). assert (X2 : hfind (d_hash d) (keyT (snd e)) = Some (fst e')) by (rewrite ET; apply I10; eauto). congruence.
  - intros p p' P1 Hpp B. destruct (rd_in_bound F p ltac:(lia)) as (e & He). destruct (rd_in_bound F p' ltac:(lia)) as (e' & He'). destruct (FIN _ _ He ltac:(lia)) as (R1 & _). destruct (FIN _ _ He' B) as (R2 & _). destruct (IDS _ _ R1) as (t & Ht). destruct (IDS _ _ R2) as (t' & Ht'). unfold lv. rewrite He, He', Ht, Ht'.
    assert (LE : fst e <= fst e') by (destruct (Z.eq_dec p p') as [->|]; [assert (e = e') by congruence; subst; lia|]; specialize (INC p p' e e' ltac:(lia) He He'); lia). eapply ids_mono; eauto.
  - intros p Bp. destruct (rd_in_bound F p ltac:(lia)) as (e & He). destruct (FIN _ _ He ltac:(lia)) as (R1 & _ & L1). specialize (L1 ltac:(lia)). pose proof (rd_Some_bound _ _ _ R1). destruct (rd_in_bound ws (fst e - zlen init) ltac:(lia)) as ((g & (ai & bi)) & Hw).
    destruct (O4 (fst e - zlen init) _ (snd e) Hw) as ((T & x & y & M1 & M2 & M3 & M4) & t & T1 & T2); [replace (zlen init + (fst e - zlen init)) with (fst e) by lia; auto|]. replace (zlen init + (fst e - zlen init)) with (fst e) in T2 by lia. cbn [fst snd] in *.
    destruct (F_in _ _ He) as (_ & Tk & _). assert (TK : tk T = k) by (rewrite <- Tk, M4; reflexivity). destruct (FOF _ _ M1 TK) as (q & Hq & Bq & _). exists (q, (ai - oa, bi - ob)), (ta T, tb T), x, y. cbn [fst snd].
    pose proof M2 as (ja & jb & N1 & N2 & N3 & N4 & N5). assert (AT : anyT T) by (apply ok_any, I7; eapply rd_In; eauto). destruct (local_arc T ja jb x y AT TK N1 N2) as (LA & LB & S1 & S2). rewrite <- N3 in LA. rewrite <- N4 in LB.
    assert (BQ : 0 <= q < p). { split; [apply rd_Some_bound in Hq; lia|]. apply (INJ q p (g, T) e Hq He). cbn [fst]. assert (t < t + 1) by lia. destruct (Z_lt_le_dec g (fst e)); auto. exfalso. pose proof (ids_mono _ _ _ _ _ l T2 T1). lia. }
    split; [exists e, g; cbn [fst snd]; split; [auto|]; split; [rewrite Hw; do 2 f_equal; f_equal; lia|eauto]|]. split; [auto|]. split; [rewrite RS, Hq; reflexivity|]. split; [auto|]. split; [auto|]. split; [auto|]. split; [auto|]. split; [auto|]. split; [auto|].
    split; [rewrite RS, He; cbn [option_map]; rewrite M4; reflexivity|]. unfold lv. rewrite He, Hq. cbn [fst]. rewrite T1, T2. reflexivity.
  - intros p p' w w' Hpp (e & g & H1 & H2 & T & H3) (e' & g' & H1' & H2' & T' & H3'). specialize (INC _ _ _ _ Hpp H1 H1'). assert (EA := O1 (fst e - zlen init) (fst e' - zlen init) _ _ ltac:(lia) H2 H2'). unfold earlier in *. cbn [fst snd] in *.
    destruct EA as [L|(-> & L)]; [left; exact (INJ _ _ _ _ H3 H3' L)|]. right. split; [exact (UN _ _ _ _ H3 H3' eq_refl)|lia].
Qed.
End K.

(** A pair with an empty FSA gives an empty FSA *)
Lemma pair_empty k : 0 <= k < zlen bl -> ~ In k ks -> rd CC k = Some [].
Proof.
  intros Bk NK. unfold IDevOut.CC. rewrite rd_imap. assert (E : rd FF k = Some []); [|rewrite E; reflexivity]. unfold IDevOut.FF. rewrite rd_map, rd_zrange by lia. cbn [option_map]. f_equal.
  apply IDenseInit.filter_none. intros e He. apply Ee_in in He. destruct (AN _ (rd_In _ _ _ He)) as (A1 & A2 & A3). destruct (tk (snd e) =? k) eqn:E; auto. exfalso. apply NK. apply in_ks. assert (tk (snd e) = k) by lia. subst k. lia.
Qed.
End G.
