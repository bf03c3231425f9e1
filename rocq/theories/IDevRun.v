(** * IntersectDevice: the invariant of the loop, and its termination *)
From Coq Require Import ZArith List Lia Bool Permutation.
From Coq Require Import ZifyBool.
From Verif Require Import Base RaggedModel RaggedSpec RaggedProofs FsaSpec FsaLemmas ConnectProofs PropsModel PropsSpec IDevModel IDevCore IDevStep.
From Verif Require EpsLoopProofs IntersectProofs ExtractProofs.
Import ListNotations.
Open Scope Z_scope.

Lemma NoDup_rd {X} (l : list X) : (forall i j x, rd l i = Some x -> rd l j = Some x -> i = j) -> NoDup l.
Proof.
  induction l as [|x l IH]; intros H; constructor.
  - intros Hx. apply In_rd in Hx as (i & Bi & Hi). specialize (H 0 (i + 1) x (rd_cons_0 _ _)). rewrite rd_cons_S in H by lia. specialize (H Hi). lia.
  - apply IH. intros i j y Hi Hj. pose proof (rd_Some_bound _ _ _ Hi). pose proof (rd_Some_bound _ _ _ Hj). specialize (H (i + 1) (j + 1) y). rewrite !rd_cons_S in H by lia. specialize (H Hi Hj). lia.
Qed.

Lemma ids_from_one {A} (l : list A) r : ids_from r [l] = map (fun _ => r) l.
Proof. cbn. rewrite app_nil_r. induction l; cbn; congruence. Qed.
Lemma ids_of_range {A} (y : list (list A)) i t : rd (ids_of y) i = Some t -> 0 <= t < zlen y.
Proof.
  intros H. pose proof (rd_Some_bound _ _ _ H) as B. unfold ids_of in *. rewrite zlen_ids_from in B. destruct (rd_in_bound (concat y) i B) as (v & Hv). destruct (rd_concat_inv _ _ _ Hv) as (r & l & j & A1 & _ & _ & A4). unfold ids_of in A4. rewrite H in A4. injection A4 as ->. apply rd_Some_bound in A1. exact A1.
Qed.

Section G.
Variables (al bl : list nfsa) (m : list Z).
Hypothesis HA : forall a, In a al -> a = [] \/ valid a.
Hypothesis HB : forall b, In b bl -> b = [] \/ valid b.
Hypothesis Hm1 : zlen m = zlen bl.
Hypothesis Hm2 : forall i, In i m -> 0 <= i < zlen al.
Variable ord : Z -> list Z.
Hypothesis Ho : forall n, is_sched n (ord n).
Variable sorted : bool.
Hypothesis SA : sorted = true -> forall a, In a al -> p_arcsorted a /\ int32_labels a.
Hypothesis SB : sorted = true -> forall b, In b bl -> int32_labels b.
Let va := flat_vec al.
Let vb := flat_vec bl.
Notation fa := (fa al m).
Notation fb := (fb bl).
Notation anyT := (any al bl m).
Notation okT := (okT al bl m).
Notation enT := (enT al bl m).
Notation keyT := (keyT bl).
Notation Mt := (Mt al bl m).
Notation PK := (PK al bl m).
Notation made_by := (made_by al bl m).

(** Pairs where both FSAs have states *)
Definition both (k : Z) : bool := (0 <? zlen (fa k)) && (0 <? zlen (fb k)).
Definition ks : list Z := filter both (zrange (zlen bl)).
Definition init : list tr := map (fun k => T3 k 0 0) ks.
Definition finals : list tr := map (fun k => T3 k (zlen (fa k) - 1) (zlen (fb k) - 1)) ks.
Definition num_pairs : Z := zsum (map (fun k => zlen (fa k) * zlen (fb k)) (zrange (zlen bl))).
Definition universe : list tr :=
  flat_map (fun k => flat_map (fun i => map (fun j => T3 k i j) (zrange (zlen (fb k)))) (zrange (zlen (fa k)))) (zrange (zlen bl)).

Lemma zlen_flat_map {X Y} (f : X -> list Y) l : zlen (flat_map f l) = zsum (map (fun x => zlen (f x)) l).
Proof. clear. induction l as [|x l IH]; [reflexivity|]. cbn [flat_map map]. rewrite zlen_app, IH. reflexivity. Qed.
Lemma zlen_universe : zlen universe = num_pairs.
Proof.
  clear. unfold universe, num_pairs. rewrite zlen_flat_map. f_equal. apply map_ext. intros k. rewrite zlen_flat_map.
  rewrite (map_ext _ (fun _ => zlen (fb k))) by (intros; rewrite zlen_map, zlen_zrange; [auto|apply zlen_nonneg]).
  pose proof (zlen_nonneg (fa k)). rewrite <- (zlen_zrange (zlen (fa k))) at 2 by auto. generalize (zrange (zlen (fa k))). intros l. induction l as [|x l IH]; [reflexivity|]. cbn [map]. rewrite zlen_cons. change (zsum (zlen (fb k) :: map (fun _ => zlen (fb k)) l)) with (zlen (fb k) + zsum (map (fun _ => zlen (fb k)) l)). rewrite IH. ring.
Qed.
Lemma in_universe T : anyT T -> In T universe.
Proof.
  clear. intros (H1 & H2 & H3). apply in_flat_map. exists (tk T). split; [now apply in_zrange|]. apply in_flat_map. exists (ta T). split; [now apply in_zrange|]. apply in_map_iff. exists (tb T). split; [now destruct T|now apply in_zrange].
Qed.
Lemma in_ks k : In k ks <-> 0 <= k < zlen bl /\ 0 < zlen (fa k) /\ 0 < zlen (fb k).
Proof. clear. unfold ks, both. rewrite filter_In, in_zrange. lia. Qed.
Lemma init_ok T : In T init -> okT T.
Proof.
  clear ord Ho SA SB. intros H. apply in_map_iff in H as (k & <- & Hk). apply in_ks in Hk as (B & B1 & B2). destruct (validA al bl m HA Hm1 Hm2 k B B1) as (_ & V1 & _). destruct (validB al bl m HB Hm1 Hm2 k B B2) as (_ & V2 & _). unfold nstates in *. unfold IDevCore.okT. cbn. lia.
Qed.

(** 140-197 FirstIter *)
Lemma first_iter_ok : first_iter ord va vb m = Some (mkDint (map enT init) [0; zlen ks] [] [] [], map enT finals).
Proof.
  clear HA HB SA SB. unfold first_iter. cbv zeta. replace (zlen (v_rs1 vb) - 1) with (zlen bl) by (unfold vb; cbn [flat_vec v_rs1]; rewrite zlen_splits_of; lia).
  assert (SBk : forall k, 0 <= k < zlen bl -> rd (v_rs1 vb) k = Some (off1 bl k) /\ rd (v_rs1 vb) (k + 1) = Some (off1 bl k + zlen (fb k))).
  { intros k Hk. destruct (pair_k al bl m Hm1 Hm2 k Hk) as (_ & _ & E). cbn [vb flat_vec v_rs1]. rewrite !rd_splits_off by lia. rewrite (off1_next _ _ _ E). auto. }
  assert (SAk : forall k, 0 <= k < zlen bl -> rd (v_rs1 va) (mk m k) = Some (off1 al (mk m k)) /\ rd (v_rs1 va) (mk m k + 1) = Some (off1 al (mk m k) + zlen (fa k))).
  { intros k Hk. destruct (pair_k al bl m Hm1 Hm2 k Hk) as (_ & E & _). cbn [va flat_vec v_rs1]. pose proof (rd_Some_bound _ _ _ E). rewrite !rd_splits_off by lia. rewrite (off1_next _ _ _ E). auto. }
  match goal with |- context [mapM ?f (zrange (zlen bl))] => replace (mapM f (zrange (zlen bl))) with (Some (map both (zrange (zlen bl)))) end.
  2:{ symmetry. apply mapM_Some_map. intros k Hk. apply in_zrange in Hk. destruct (SBk k Hk) as (-> & ->). destruct (SAk k Hk) as (E1 & E2). destruct (pair_k al bl m Hm1 Hm2 k Hk) as (-> & _). rewrite E1, E2. f_equal. unfold both. lia. }
  pose proof (zlen_nonneg bl). rewrite new2old_kept by (rewrite zlen_map, zlen_zrange by auto; apply Ho). rewrite ExtractProofs.kept_from_zrange by auto. fold ks.
  match goal with |- context [mapM ?f ks] => replace (mapM f ks) with (Some (map (fun k => (enT (T3 k 0 0), enT (T3 k (zlen (fa k) - 1) (zlen (fb k) - 1)))) ks)) end.
  2:{ symmetry. apply mapM_Some_map. intros k Hk. apply in_ks in Hk as (Hk & _). destruct (SBk k Hk) as (-> & ->). destruct (SAk k Hk) as (E1 & E2). destruct (pair_k al bl m Hm1 Hm2 k Hk) as (-> & _). rewrite E1, E2. f_equal. unfold IDevCore.enT, IDevCore.ea, IDevCore.eb. cbn [tk ta tb]. repeat (f_equal; try lia). }
  unfold init, finals. rewrite !map_map. reflexivity.
Qed.

(** The order of the states: [ws] are the arcs that made them; a state is made by one
    of the iteration before, and every arc leads to a state of the next iteration or an
    earlier one *)
Definition OrdI (BB0 : list (list tr)) (cur : list tr) : Prop :=
  let Ts := concat BB0 ++ cur in let ids := ids_of (BB0 ++ [cur]) in
  (exists ws, in_order ws /\ zlen init + zlen ws = zlen Ts /\ (forall w, In w ws -> fst w < zlen (concat BB0)) /\
     forall i w T', rd ws i = Some w -> rd Ts (zlen init + i) = Some T' -> made_by Ts w T' /\ exists t, rd ids (fst w) = Some t /\ rd ids (zlen init + i) = Some (t + 1)) /\
  (forall i, 0 <= i < zlen init -> rd ids i = Some 0) /\
  (forall u t T ai bi x y, rd (concat BB0) u = Some T -> rd ids u = Some t -> Mt T ai bi x y -> lab x <> -1 ->
     exists v t', zlen init <= v /\ rd Ts v = Some (dT T x y) /\ rd ids v = Some t' /\ t' <= t + 1).
Definition Inv (BB0 : list (list tr)) (cur : list tr) (pl : list (list (Z * Z))) (d : dint) : Prop :=
  let Ts := concat BB0 ++ cur in
  d_states d = map enT Ts /\ d_iters d = splits_of (BB0 ++ [cur]) /\ zlen pl = zlen (concat BB0) /\ d_arcs d = concat pl /\ d_rows d = ids_of pl /\
  (forall i T p, rd (concat BB0) i = Some T -> rd pl i = Some p -> PK T p) /\
  (forall T, In T Ts -> okT T) /\
  (forall b, In b (BB0 ++ [cur]) -> sortedT b) /\
  (exists R, Ts = init ++ R) /\
  (forall key v, hfind (d_hash d) key = Some v <-> exists T, zlen init <= v /\ rd Ts v = Some T /\ key = keyT T) /\
  (forall T ai bi x y, In T (concat BB0) -> Mt T ai bi x y -> lab x <> -1 -> exists v, zlen init <= v /\ rd Ts v = Some (dT T x y)) /\
  (forall v T', zlen init <= v -> rd Ts v = Some T' -> exists u T ai bi x y, u < v /\ rd Ts u = Some T /\ Mt T ai bi x y /\ lab x <> -1 /\ T' = dT T x y) /\
  OrdI BB0 cur.

Lemma inv_init : Inv [] init [] (mkDint (map enT init) [0; zlen ks] [] [] []).
Proof.
  unfold Inv. cbn [concat app d_states d_iters d_arcs d_rows d_hash]. split; auto. split; [unfold init; cbn; unfold splits_of; cbn; rewrite zlen_map; repeat f_equal|]. split; auto. split; auto. split; auto.
  split; [intros i T p H; rewrite rd_nil in H; discriminate|]. split; [apply init_ok|]. split.
  { intros b [<-|[]]. intros i j x y Hij Hx Hy. unfold init in Hx, Hy. rewrite rd_map in Hx, Hy. destruct (rd ks i) as [u|] eqn:Eu; [|discriminate]. destruct (rd ks j) as [v|] eqn:Ev; [|discriminate]. cbn in Hx, Hy. injection Hx as <-. injection Hy as <-. cbn [tk].
    destruct (Z.eq_dec i j) as [->|]; [assert (u = v) by congruence; lia|]. pose proof (zlen_nonneg bl). unfold ks in Eu, Ev. rewrite <- ExtractProofs.kept_from_zrange in Eu, Ev by auto.
    destruct (rd_kept_from_inv _ _ _ _ Eu) as (u' & -> & U1 & U2). destruct (rd_kept_from_inv _ _ _ _ Ev) as (v' & -> & V1 & V2). destruct (Z_lt_le_dec u' v') as [|L]; [lia|]. exfalso. assert (j <= i); [|lia]. rewrite <- U2, <- V2. apply zsum_firstn_mono. lia. }
  split; [exists []; now rewrite app_nil_r|]. split.
  { intros key v. split; [discriminate|]. intros (T & H1 & H2 & _). apply rd_Some_bound in H2. lia. }
  split; [intros T ai bi x y []|]. split; [intros v T' H1 H2; apply rd_Some_bound in H2; lia|].
  unfold OrdI. cbn [concat app]. split; [|split].
  - exists []. split; [intros i j w w' _ H; rewrite rd_nil in H; discriminate|]. split; [rewrite zlen_nil; lia|]. split; [intros w []|]. intros i w T' H. rewrite rd_nil in H. discriminate.
  - intros i Hi. unfold ids_of. rewrite ids_from_one, rd_map. destruct (rd_in_bound init i Hi) as (T & ->). reflexivity.
  - intros u t T ai bi x y H. rewrite rd_nil in H. discriminate.
Qed.

Lemma inv_step BB0 cur pl d : Inv BB0 cur pl d -> exists cs d' new pln,
  (if sorted then cands_sorted va vb (d_states d) (zlen (concat BB0)) (zlen (concat BB0) + zlen cur) else cands_all va vb (d_states d) (zlen (concat BB0)) (zlen (concat BB0) + zlen cur)) = Some cs /\
  one_iter ord sorted va vb (ids_of bl) m (zlen (concat BB0) + zlen cur) d cs = Some d' /\ Inv (BB0 ++ [cur]) new (pl ++ pln) d'.
Proof.
  intros (I1 & I2 & I3 & I4 & I5 & I6 & I7 & I8 & (R & I9) & I10 & I11 & I12 & ((ws & O1 & O2 & O3 & O4) & O5 & O6)). set (pre := concat BB0) in *.
  assert (AC : forall T, In T cur -> anyT T) by (intros T HT; apply ok_any, I7, in_app_iff; now right).
  assert (CS : exists cs, (if sorted then cands_sorted va vb (d_states d) (zlen pre) (zlen pre + zlen cur) else cands_all va vb (d_states d) (zlen pre) (zlen pre + zlen cur)) = Some cs /\ cs_ok al bl m (zlen pre) cur cs).
  { rewrite I1. destruct sorted; [apply cands_sorted_ok; auto|apply cands_all_ok; auto]. }
  assert (INC : In cur (BB0 ++ [cur])) by (apply in_app_iff; right; now left).
  destruct CS as (cs & E1 & E2). destruct (one_iter_ok al bl m HA HB Hm1 Hm2 ord Ho sorted pre cur d cs AC (I8 cur INC) I1 E2) as (d' & new & pln & F1 & F2 & F3 & F4 & F5 & F6 & F7 & F8 & F9 & F10 & F11 & (wn & N1 & N2 & N3)).
  exists cs, d', new, pln. split; auto. split; auto.
  assert (EC : concat (BB0 ++ [cur]) = pre ++ cur) by (rewrite concat_app; cbn; now rewrite app_nil_r). unfold Inv. rewrite EC. cbv zeta.
  set (Ts := pre ++ cur) in *. assert (ZT : zlen Ts = zlen pre + zlen cur) by apply zlen_app.
  assert (ZI : zlen init <= zlen Ts) by (rewrite I9, zlen_app; pose proof (zlen_nonneg R); lia).
  assert (OLD : forall v T, rd Ts v = Some T -> rd (Ts ++ new) v = Some T) by (intros v T H; rewrite rd_app_l; auto; apply rd_Some_bound in H; lia).
  assert (OKALL : forall T, In T (Ts ++ new) -> okT T) by (intros T HT; apply in_app_iff in HT as [HT|HT]; [auto|apply F9; auto]).
  assert (HASH : forall key v, hfind (d_hash d') key = Some v <-> exists T, zlen init <= v /\ rd (Ts ++ new) v = Some T /\ key = keyT T).
  { intros key v. rewrite F10. split.
    - intros [(i & T & H1 & H2 & H3)|H]; [|apply I10 in H as (T & H1 & H2 & H3); eauto]. exists T. pose proof (rd_Some_bound _ _ _ H1). split; [lia|]. split; auto. rewrite rd_app_r by lia. rewrite <- H1. f_equal. lia.
    - intros (T & H1 & H2 & H3). destruct (Z_lt_le_dec v (zlen Ts)) as [L|L].
      + right. apply I10. exists T. split; auto. split; auto. rewrite rd_app_l in H2 by lia. auto.
      + left. exists (v - zlen Ts), T. rewrite rd_app_r in H2 by lia. repeat split; auto. lia. }
  split; [rewrite F2, I1, <- map_app; reflexivity|]. split; [rewrite F3, I2, (IntersectProofs.splits_of_snoc (BB0 ++ [cur])), EC, ZT; reflexivity|].
  split; [rewrite zlen_app; lia|]. split; [rewrite F4, I4, concat_app; reflexivity|].
  split; [rewrite F5, I5; unfold ids_of; rewrite ids_from_app; f_equal; f_equal; lia|].
  split.
  { intros i T p HT Hp. destruct (Z_lt_le_dec i (zlen pre)) as [L|L].
    - pose proof (rd_Some_bound _ _ _ HT). unfold Ts in HT. rewrite rd_app_l in HT by lia. rewrite rd_app_l in Hp by lia. eapply I6; eauto.
    - unfold Ts in HT. rewrite rd_app_r in HT by lia. rewrite rd_app_r in Hp by lia. rewrite I3 in Hp. eapply F7; eauto. }
  split; auto. split.
  { intros b Hb. apply in_app_iff in Hb as [Hb|[<-|[]]]; auto. }
  split; [exists (R ++ new); rewrite I9, app_assoc; auto|]. split; auto. split.
  { intros T ai bi x y HT HM HL. unfold Ts in HT. apply in_app_iff in HT as [HT|HT].
    - destruct (I11 T ai bi x y HT HM HL) as (v & V1 & V2). exists v. split; auto.
    - destruct (F11 T ai bi x y HT HM HL) as (v & Hv). apply HASH in Hv as (T' & V1 & V2 & V3). exists v. split; auto. rewrite V2. f_equal. apply (keyT_inj al bl m Hm1 Hm2); auto.
      + apply ok_any, OKALL. eapply rd_In; eauto.
      + apply ok_any. eapply dT_ok; eauto. }
  split.
  { intros v T' H1 H2. destruct (Z_lt_le_dec v (zlen Ts)) as [L|L].
  - rewrite rd_app_l in H2 by lia. destruct (I12 v T' H1 H2) as (u & T & ai & bi & x & y & U1 & U2 & U3). exists u, T, ai, bi, x, y. split; auto.
  - rewrite rd_app_r in H2 by lia. destruct (F9 T' (rd_In _ _ _ H2)) as (_ & _ & T & ai & bi & x & y & U1 & U2 & U3 & U4). apply In_rd in U1 as (u & Bu & Hu). exists (zlen pre + u), T, ai, bi, x, y. split; [lia|]. split; auto. apply OLD. unfold Ts. rewrite rd_app_r by lia. rewrite <- Hu. f_equal. lia. }
  set (ids := ids_of (BB0 ++ [cur])) in *. assert (IDS : ids_of ((BB0 ++ [cur]) ++ [new]) = ids ++ map (fun _ => zlen (BB0 ++ [cur])) new) by (unfold ids_of, ids; rewrite ids_from_app, ids_from_one, Z.add_0_l; reflexivity).
  assert (ZID : zlen ids = zlen Ts) by (unfold ids, ids_of; rewrite zlen_ids_from, EC; reflexivity).
  assert (IOLD : forall v t, rd ids v = Some t -> rd (ids ++ map (fun _ => zlen (BB0 ++ [cur])) new) v = Some t) by (intros v t H; rewrite rd_app_l; auto; apply rd_Some_bound in H; lia).
  assert (ICUR : forall r T, rd cur r = Some T -> rd ids (zlen pre + r) = Some (zlen BB0)).
  { intros r T H. unfold ids, ids_of. rewrite ids_from_app, ids_from_one. pose proof (rd_Some_bound _ _ _ H). assert (ZB : zlen (ids_from 0 BB0) = zlen pre) by apply zlen_ids_from. rewrite rd_app_r by lia. rewrite ZB. replace (zlen pre + r - zlen pre) with r by lia. rewrite rd_map, H. cbn. f_equal. }
  assert (INEW : forall r T, rd new r = Some T -> rd (ids ++ map (fun _ => zlen (BB0 ++ [cur])) new) (zlen Ts + r) = Some (zlen BB0 + 1)).
  { intros r T H. pose proof (rd_Some_bound _ _ _ H). rewrite rd_app_r by lia. rewrite ZID. replace (zlen Ts + r - zlen Ts) with r by lia. rewrite rd_map, H. cbn. f_equal. rewrite zlen_app. reflexivity. }
  unfold OrdI. rewrite EC, IDS. fold Ts. split; [|split].
  - exists (ws ++ map (fun w => (zlen pre + fst w, snd w)) wn). split; [|split; [|split]].
    + intros i j w w' Hij Hw Hw'. destruct (Z_lt_le_dec j (zlen ws)) as [L|L]; [rewrite rd_app_l in Hw by lia; rewrite rd_app_l in Hw' by lia; exact (O1 i j w w' Hij Hw Hw')|]. rewrite rd_app_r in Hw' by lia. rewrite rd_map in Hw'. destruct (rd wn (j - zlen ws)) as [w2|] eqn:E2'; [|discriminate]. cbn in Hw'. injection Hw' as <-. destruct (N3 _ _ (match rd new (j - zlen ws) with Some T => T | None => T3 0 0 0 end) E2') as (T2 & x2 & y2 & M1 & _).
      { pose proof (rd_Some_bound _ _ _ E2'). destruct (rd_in_bound new (j - zlen ws)) as (T & ->); [lia|reflexivity]. }
      pose proof (rd_Some_bound _ _ _ M1). unfold earlier. cbn [fst snd]. destruct (Z_lt_le_dec i (zlen ws)) as [Li|Li].
      * rewrite rd_app_l in Hw by lia. specialize (O3 w (rd_In _ _ _ Hw)). left. lia.
      * rewrite rd_app_r in Hw by lia. rewrite rd_map in Hw. destruct (rd wn (i - zlen ws)) as [w1|] eqn:E1'; [|discriminate]. cbn in Hw. injection Hw as <-. cbn [fst snd]. destruct (N1 _ _ _ _ (ltac:(lia) : i - zlen ws < j - zlen ws) E1' E2') as [H'|(H' & H'')]; [left; lia|right; split; [lia|auto]].
    + rewrite !zlen_app, zlen_map. lia.
    + intros w Hw. apply in_app_iff in Hw as [Hw|Hw]; [specialize (O3 w Hw); pose proof (zlen_nonneg cur); lia|]. apply in_map_iff in Hw as (w1 & <- & Hw). apply In_rd in Hw as (i & Bi & Hw). destruct (rd_in_bound new i) as (T & HT); [lia|]. destruct (N3 _ _ _ Hw HT) as (T2 & x2 & y2 & M1 & _). apply rd_Some_bound in M1. cbn [fst]. lia.
    + intros i w T' Hw HT'. destruct (Z_lt_le_dec i (zlen ws)) as [L|L].
      * rewrite rd_app_l in Hw by lia. pose proof (rd_Some_bound _ _ _ Hw). rewrite rd_app_l in HT' by lia. destruct (O4 i w T' Hw HT') as ((T & x & y & M1 & M2) & t & T1 & T2). split; [exists T, x, y; split; auto|]. exists t. auto.
      * rewrite rd_app_r in Hw by lia. rewrite rd_map in Hw. destruct (rd wn (i - zlen ws)) as [w1|] eqn:E1'; [|discriminate]. cbn in Hw. injection Hw as <-. rewrite rd_app_r in HT' by lia. replace (zlen init + i - zlen Ts) with (i - zlen ws) in HT' by lia. destruct (N3 _ _ _ E1' HT') as (T & x & y & M1 & M2). cbn [fst snd]. split.
        { exists T, x, y. cbn [fst snd]. split; auto. pose proof (rd_Some_bound _ _ _ M1). apply OLD. unfold Ts. rewrite rd_app_r by lia. rewrite <- M1. f_equal. lia. }
        exists (zlen BB0). split; [apply IOLD; eapply ICUR; eauto|]. replace (zlen init + i) with (zlen Ts + (i - zlen ws)) by lia. eapply INEW; eauto.
  - intros i Hi. apply IOLD. auto.
  - intros u t T ai bi x y HT Ht HM HL. pose proof (rd_Some_bound _ _ _ HT) as BU. destruct (Z_lt_le_dec u (zlen pre)) as [L|L].
    + unfold Ts in HT. rewrite rd_app_l in HT by lia. rewrite rd_app_l in Ht by lia. destruct (O6 u t T ai bi x y HT Ht HM HL) as (v & t' & V1 & V2 & V3 & V4). exists v, t'. auto.
    + unfold Ts in HT. rewrite rd_app_r in HT by lia. pose proof (ICUR _ _ HT) as IC. replace (zlen pre + (u - zlen pre)) with u in IC by lia. rewrite (IOLD _ _ IC) in Ht. injection Ht as <-.
      destruct (F11 T ai bi x y (rd_In _ _ _ HT) HM HL) as (v & Hv). apply HASH in Hv as (T' & V1 & V2 & V3). exists v. assert (T' = dT T x y) as ->.
      { apply (keyT_inj al bl m Hm1 Hm2); auto; [apply ok_any, OKALL; eapply rd_In; eauto|]. apply ok_any. eapply dT_ok; eauto. apply AC. eapply rd_In; eauto. }
      destruct (Z_lt_le_dec v (zlen Ts)) as [Lv|Lv].
      * destruct (rd_in_bound ids v) as (t' & Ht'); [pose proof (rd_Some_bound _ _ _ V2); lia|]. exists t'. repeat split; auto. pose proof Ht' as X. unfold ids, ids_of in X. rewrite ids_from_app, ids_from_one in X. destruct (Z_lt_le_dec v (zlen pre)) as [Lw|Lw].
        -- rewrite rd_app_l in X by (rewrite zlen_ids_from; fold pre; lia). apply ids_of_range in X. lia.
        -- rewrite rd_app_r in X by (rewrite zlen_ids_from; fold pre; lia). rewrite rd_map in X. destruct (rd cur (v - zlen (ids_from 0 BB0))); [|discriminate]. cbn [option_map] in X. injection X as <-. lia.
      * rewrite rd_app_r in V2 by lia. pose proof (INEW _ _ V2) as IN. replace (zlen Ts + (v - zlen Ts)) with v in IN by lia. exists (zlen BB0 + 1). split; auto. split; [rewrite rd_app_r by lia; auto|]. split; [exact IN|lia].
Qed.

Lemma inv_count BB0 cur pl d : Inv BB0 cur pl d -> zlen (concat BB0 ++ cur) <= zlen init + num_pairs.
Proof.
  intros (I1 & I2 & I3 & I4 & I5 & I6 & I7 & I8 & (R & I9) & I10 & _). rewrite I9, zlen_app. assert (zlen R <= num_pairs); [|lia]. rewrite <- zlen_universe.
  assert (ND : NoDup R).
  { apply NoDup_rd. intros i j T Hi Hj. pose proof (rd_Some_bound _ _ _ Hi). pose proof (rd_Some_bound _ _ _ Hj).
    assert (A : forall i, rd R i = Some T -> hfind (d_hash d) (keyT T) = Some (zlen init + i)). { intros q Hq. apply I10. pose proof (rd_Some_bound _ _ _ Hq). exists T. split; [lia|]. split; auto. rewrite I9, rd_app_r by lia. rewrite <- Hq. f_equal. lia. }
    pose proof (A i Hi). pose proof (A j Hj). assert (zlen init + i = zlen init + j) by congruence. lia. }
  assert (L : (length R <= length universe)%nat). { apply NoDup_incl_length; auto. intros T HT. apply in_universe, ok_any, I7. rewrite I9. apply in_app_iff. now right. }
  unfold zlen. lia.
Qed.

Lemma forward_ok : forall fuel BB0 cur pl d, Inv BB0 cur pl d -> (cur = [] -> (1 <= fuel)%nat) -> (cur <> [] -> zlen init + num_pairs + 2 <= Z.of_nat fuel + zlen (concat BB0 ++ cur)) ->
  exists BB pl' d', Inv BB [] pl' d' /\ forward fuel ord sorted va vb (ids_of bl) m (zlen BB0) d = Some (mkDint (d_states d') (splits_of BB) (d_arcs d') (d_rows d') (d_hash d')).
Proof.
  induction fuel as [|fuel IH]; intros BB0 cur pl d HI F1 F2.
  - exfalso. destruct cur; [specialize (F1 eq_refl); lia|]. specialize (F2 ltac:(discriminate)). pose proof (inv_count _ _ _ _ HI). lia.
  - pose proof (inv_count _ _ _ _ HI) as CT. cbn [forward]. assert (IT : d_iters d = splits_of BB0 ++ [zlen (concat BB0) + zlen cur]) by (destruct HI as (_ & -> & _); apply IntersectProofs.splits_of_snoc).
    pose proof (zlen_nonneg BB0). assert (E0 : rd (d_iters d) (zlen BB0) = Some (zlen (concat BB0))) by (rewrite IT, rd_app_l by (rewrite zlen_splits_of; lia); rewrite rd_splits_off by lia; now rewrite EpsLoopProofs.off1_all).
    assert (E1 : rd (d_iters d) (zlen BB0 + 1) = Some (zlen (concat BB0) + zlen cur)) by (rewrite IT, rd_app_r by (rewrite zlen_splits_of; lia); rewrite zlen_splits_of; replace (zlen BB0 + 1 - (zlen BB0 + 1)) with 0 by lia; reflexivity).
    replace (zlen BB0 + 2 =? zlen (d_iters d)) with true by (rewrite IT, zlen_app, zlen_splits_of; change (zlen [_]) with 1; lia). rewrite E0, E1.
    replace (zlen (concat BB0) + zlen cur - zlen (concat BB0)) with (zlen cur) by lia. destruct cur as [|T cur].
    + change (zlen [] =? 0) with true. cbv iota. exists BB0, pl, d. split; auto. rewrite IT, removelast_last. reflexivity.
    + set (C := T :: cur) in *. assert (zlen C > 0) by (unfold C; rewrite zlen_cons; pose proof (zlen_nonneg cur); lia). replace (zlen C =? 0) with false by lia.
      destruct (inv_step _ _ _ _ HI) as (cs & d' & new & pln & S1 & S2 & S3). rewrite S1, S2. replace (zlen BB0 + 1) with (zlen (BB0 ++ [C])) by (rewrite zlen_app; reflexivity).
      specialize (F2 ltac:(discriminate)). apply (IH (BB0 ++ [C]) new (pl ++ pln) d' S3).
      * intros _. lia.
      * intros Hn. rewrite concat_app. cbn [concat]. rewrite app_nil_r. rewrite (zlen_app _ new). destruct new; [congruence|]. rewrite zlen_cons. pose proof (zlen_nonneg new). lia.
Qed.
End G.
