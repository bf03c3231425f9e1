(** * C67: prune_on_arc_post *)
From Coq Require Import ZArith List Lia Lra Bool Sorted Reals.
From Coq Require Import ZifyBool.
From Verif Require Import Base RaggedModel RaggedSpec RaggedProofs FsaSpec FsaLemmas SelectProofs RaggedOpsModel PropsSpec PropsProps ConnectSpec ConnectProofs ConnectProps BatchModel OpsModel FsaOpsModel
  LogReal MutualInfoProofs ScoreModel ScoreSpec PathSums ScoreProps CdfProofs UniqueProps IPrunedCut ArcPruneModel ArcPruneSpec.
Import ListNotations.
Open Scope Z_scope.

(** *** Decorated lists *)
Lemma deco1 {A B} (l : list A) : forall (b : list B), length b = length l -> exists d, map fst d = l /\ map snd d = b.
Proof. induction l as [|a l IH]; intros [|x b] H; try discriminate; [exists []; auto|]. injection H as H. destruct (IH b H) as (d & <- & <-). exists ((a, x) :: d). auto. Qed.
Lemma cut_list {B} (b : list B) n m : length b = (n + m)%nat -> exists b1 b2, b = b1 ++ b2 /\ length b1 = n /\ length b2 = m.
Proof. intros H. exists (firstn n b), (skipn n b). split; [now rewrite firstn_skipn|]. rewrite firstn_length, skipn_length. lia. Qed.
Lemma deco2 {A B} (ll : list (list A)) : forall (b : list B), length b = length (concat ll) -> exists D, map (map fst) D = ll /\ map snd (concat D) = b.
Proof.
  induction ll as [|l ll IH]; intros b H; [destruct b; [exists []; auto|discriminate]|]. cbn [concat] in H. rewrite app_length in H. destruct (cut_list b _ _ H) as (b1 & b2 & -> & H1 & H2).
  destruct (deco1 l b1 H1) as (d & <- & <-). destruct (IH b2 H2) as (D & <- & <-). exists (d :: D). cbn [map concat]. rewrite map_app. auto.
Qed.
Lemma deco3 {A B} (fs : list (list (list A))) : forall (b : list B), length b = length (concat (concat fs)) -> exists D, map (map (map fst)) D = fs /\ map snd (concat (concat D)) = b.
Proof.
  induction fs as [|f fs IH]; intros b H; [destruct b; [exists []; auto|discriminate]|]. cbn [concat] in H. rewrite concat_app, app_length in H. destruct (cut_list b _ _ H) as (b1 & b2 & -> & H1 & H2).
  destruct (deco2 f b1 H1) as (d & <- & <-). destruct (IH b2 H2) as (D & <- & <-). exists (d :: D). cbn [map concat]. rewrite concat_app, map_app. auto.
Qed.

(** *** The arcs kept *)
Definition gd (d : list (list (arc * bool))) : nfsa := map (fun st => map fst (filter snd st)) d.
Lemma kept_sorted keep : forall o, StronglySorted Z.lt (kept_from o keep) /\ forall j, In j (kept_from o keep) -> o <= j.
Proof.
  induction keep as [|b keep IH]; intros o; [split; [constructor|intros j []]|]. destruct (IH (o + 1)) as (S1 & S2). destruct b; cbn.
  - split; [constructor; auto; apply Forall_forall; intros j Hj; apply S2 in Hj; lia|]. intros j [<-|Hj]; [lia|apply S2 in Hj; lia].
  - split; auto. intros j Hj. apply S2 in Hj. lia.
Qed.
Lemma gather_fst {A} (l : list (A * bool)) : mapM (rd (map fst l)) (kept_from 0 (map snd l)) = Some (map fst (filter snd l)).
Proof.
  pose proof (gather_filter snd l) as G. revert G. generalize (kept_from 0 (map snd l)) (filter snd l). intros is. induction is as [|j is IH]; intros r G; cbn [mapM] in *; [injection G as <-; reflexivity|].
  rewrite rd_map. destruct (rd l j); [|discriminate]. destruct (mapM (rd l) is) as [r'|]; [|discriminate]. injection G as <-. cbn [option_map]. rewrite (IH r' eq_refl). reflexivity.
Qed.
Lemma cnt_kept l : IPrunedCut.cnt (concat l) = zlen (concat (map (kept_from 0) l)).
Proof. induction l as [|k l IH]; [reflexivity|]. cbn [map concat]. unfold IPrunedCut.cnt in *. rewrite map_app, zsum_app, zlen_app, zlen_kept_from, IH. reflexivity. Qed.
Lemma gd_arcs d : all_arcs (gd d) = map fst (filter snd (concat d)).
Proof. unfold all_arcs, gd. rewrite filter_concat, concat_map, map_map. reflexivity. Qed.
Lemma gd_pruned d : pruned (map (map fst) d) (gd d) (kept_from 0 (map snd (concat d))).
Proof.
  split; [unfold gd; now rewrite !zlen_map|]. split; [apply kept_sorted|]. split.
  - unfold all_arcs at 1. rewrite <- concat_map, gd_arcs. apply gather_fst.
  - unfold gd. induction d as [|st d IH]; constructor; auto. intros a Ha. apply in_map_iff in Ha as (x & <- & Hx). apply filter_In in Hx as (Hx & _). now apply in_map.
Qed.

Lemma prune_ok sched (D : list (list (list (arc * bool)))) post thr : (0 < thr < 1)%R -> map snd (concat (concat D)) = map (keep_arc (ln thr)) post ->
  is_sched (zlen (concat (concat D)) + 1) sched ->
  prune_arcs sched (flat_vec (map (map (map fst)) D)) post thr =
    Some (mkVOut (flat_vec (map gd D)) (ids_of (concat (map gd D))) (kept_from 0 (map snd (concat (concat D))))).
Proof.
  intros (T0 & T1) EK HS. unfold prune_arcs, flat_vec. cbn [v_rs1 v_rs2 v_arcs]. destruct (Rlt_dec 0 thr); [|contradiction]. destruct (Rlt_dec thr 1); [|contradiction].
  assert (EC : concat (map (map (map fst)) D) = map (map fst) (concat D)) by (symmetry; apply concat_map). rewrite EC.
  assert (EA : concat (map (map (@fst arc bool)) (concat D)) = map fst (concat (concat D))) by (symmetry; apply concat_map). rewrite EA.
  assert (ZL : zlen (map fst (concat (concat D))) = zlen post). { rewrite zlen_map, <- (zlen_map snd), EK, zlen_map. reflexivity. } rewrite ZL, Z.eqb_refl, <- EK.
  rewrite new2old_kept by now rewrite zlen_map. rewrite <- ZL, <- EA, row_ids_of_splits, zlen_splits_of, zlen_map. replace (zlen (concat D) + 1 - 1) with (zlen (concat D)) by lia.
  replace (ids_of (map (map fst) (concat D))) with (ids_of (concat D)) by (symmetry; apply ids_of_zlen; rewrite map_map; apply map_ext; intros; apply zlen_map).
  rewrite index_last_filter. cbn [fst snd]. rewrite EA.
  rewrite gather_fst.
  assert (EG : concat (map gd D) = map (fun st => map fst (filter snd st)) (concat D)) by (unfold gd; symmetry; apply concat_map).
  do 2 f_equal; [f_equal|].
  - unfold splits_of. f_equal. rewrite !map_map. apply map_ext. intros d. unfold gd. now rewrite !zlen_map.
  - rewrite EG. unfold splits_of. f_equal. rewrite !map_map. apply map_ext. intros st. now rewrite zlen_map.
  - rewrite EG, filter_concat, concat_map, map_map. reflexivity.
  - rewrite EG. symmetry. apply ids_of_zlen. rewrite !map_map. apply map_ext. intros st. now rewrite zlen_map.
Qed.

(** C67 *)
Theorem C67_prune : forall (fs : list nfsa) (scores : list (option R)) sched lp sched' ord thr,
  Forall well_formed fs -> Forall p_topsorted_acyclic fs -> zlen (concat fs) < int_max -> zlen scores = zlen (concat (concat fs)) ->
  (forall n, is_sched n (sched n)) -> is_sched (zlen fs * 2 ^ Z.of_nat lp) sched' -> fair ord ->
  (forall k f, rd fs k = Some f -> exists T, path_sum true (arc_score fs scores k) (successful f) (Some T)) -> (0 < thr < 1)%R ->
  exists gs m, prune_on_arc_post sched lp sched' ord (flat_vec fs) scores thr = Some (mkVOut (flat_vec gs) (ids_of (concat gs)) m) /\ zlen gs = zlen fs /\
    forall k f, rd fs k = Some f -> exists g kept, rd gs k = Some g /\ pruned f g kept /\
      kept_above f (arc_score fs scores k) thr kept /\
      (forall i j, rd kept i = Some j -> rd m (off1 (map all_arcs gs) k + i) = Some (off1 (map all_arcs fs) k + j)).
Proof.
  intros fs scores sched lp sched' ord thr WF TS SM ZS SC SC' FO HT TH.
  destruct (C31_arc_post true fs scores lp sched' ord WF TS SM ZS SC' FO) as (tot & post & E1 & E2 & ZP & K).
  destruct (C30_tot_scores true fs scores lp sched' ord) as (tot' & E3 & ZT & K'); auto. rewrite E1 in E3. injection E3 as <-.
  assert (LB : length (map (keep_arc (ln thr)) post) = length (concat (concat fs))) by (rewrite map_length; unfold zlen in ZP; lia).
  destruct (deco3 fs _ LB) as (D & ED & EK).
  assert (CD : concat (concat fs) = map fst (concat (concat D))). { rewrite <- ED. rewrite <- concat_map. symmetry. rewrite <- concat_map. reflexivity. }
  exists (map gd D), (kept_from 0 (map snd (concat (concat D)))). split; [|split].
  - unfold prune_on_arc_post. rewrite E2. rewrite <- ED at 2. apply prune_ok; auto. cbn [flat_vec v_arcs]. rewrite CD, zlen_map. apply SC.
  - rewrite <- ED. now rewrite !zlen_map.
  - intros k f Hk. assert (HD : exists d, rd D k = Some d /\ f = map (map fst) d). { rewrite <- ED, rd_map in Hk. destruct (rd D k) as [d|]; [|discriminate]. injection Hk as <-. eauto. }
    destruct HD as (d & Hd & ->). exists (gd d), (kept_from 0 (map snd (concat d))). split; [rewrite rd_map, Hd; reflexivity|]. split; [apply gd_pruned|].
    set (f := map (map fst) d) in *. assert (EF : all_arcs f = map fst (concat d)) by (unfold all_arcs, f; symmetry; apply concat_map).
    assert (OF : off1 (map all_arcs fs) k = off1 (map (fun d => map snd (concat d)) D) k). { apply map_zlen_rd. rewrite <- ED, !map_map. apply map_ext. intros x. unfold all_arcs. rewrite <- concat_map, !zlen_map. reflexivity. }
    assert (CK : concat (map (fun d => map snd (concat d)) D) = map snd (concat (concat D))). { rewrite <- (map_map (@concat _) (map snd)), <- concat_map, concat_map_concat. reflexivity. }
    assert (HK : rd (map (fun d => map snd (concat d)) D) k = Some (map snd (concat d))) by (rewrite rd_map, Hd; reflexivity).
    split.
    + intros j q Bj (x & T & PT & PX & ->). destruct (K' k f Hk) as (T' & HT' & PT'). rewrite (path_sum_unique _ _ _ _ _ PT' PT) in HT'. destruct (K k f j T Hk Bj HT') as (x' & PX' & HP). rewrite (path_sum_unique _ _ _ _ _ PX' PX) in HP.
      rewrite kept_from_in, Z.sub_0_r. rewrite EF, zlen_map in Bj. destruct (rd_in_bound (concat d) j Bj) as (y & Hy). rewrite rd_map, Hy. cbn [option_map].
      assert (HB : rd (map snd (concat d)) j = Some (snd y)) by (rewrite rd_map, Hy; reflexivity). destruct (rd_concat_off _ _ _ _ _ HK HB) as (G & _). rewrite CK, EK, rd_map, <- OF, HP in G. injection G as G. rewrite <- G. unfold keep_arc.
      destruct x as [x|]; cbn [ladd expo].
      * replace (exp x / exp T)%R with (exp (x + - T)) by (rewrite exp_plus, exp_Ropp; reflexivity). destruct TH as (T0 & _). destruct (Rlt_dec (x + - T) (ln thr)) as [L|L]; split; intros H; try discriminate; auto.
        -- exfalso. apply exp_increasing in L. rewrite exp_ln in L by exact T0. lra.
        -- apply Rnot_lt_le in L. rewrite <- (exp_ln thr T0). destruct L as [L|L]; [apply Rlt_le, exp_increasing, L|rewrite L; apply Rle_refl].
      * unfold Rdiv. rewrite Rmult_0_l. split; intros H; [discriminate|lra].
    + intros i j Hi. assert (OG : off1 (map all_arcs (map gd D)) k = off1 (map (fun d => kept_from 0 (map snd (concat d))) D) k).
      { apply map_zlen_rd. rewrite !map_map. apply map_ext. intros x. rewrite gd_arcs, zlen_map, zlen_kept_from, map_map. clear. induction (concat x) as [|y l IH]; [reflexivity|]. cbn [filter map]. unfold zsum in *. cbn [fold_right]. rewrite <- IH. destruct (snd y); cbn [b2z]; rewrite ?zlen_cons; lia. }
      rewrite <- CK, OF, OG. pose proof (IPrunedCut.n2o_cat (map (fun d => map snd (concat d)) D) k (map snd (concat d)) i j HK Hi) as N. rewrite cnt_kept, <- firstn_map, map_map in N. exact N.
Qed.
Print Assumptions C67_prune.

(** C67: the successful paths of the pruned FSA are those of the FSA that only use
    arcs that are kept, with the same arcs. *)
Theorem C67_paths : forall f g kept, pruned f g kept ->
  forall p', successful g p' <-> exists p, successful f p /\ (forall j, In j p -> In j kept) /\ mapM (rd kept) p' = Some p.
Proof.
  intros f g kept (ZG & SK & EG & _). unfold successful, nstates. rewrite ZG.
  assert (ZK : zlen (all_arcs g) = zlen kept) by (unfold zlen; now rewrite (mapM_length _ _ _ EG)).
  assert (AT : forall i j, rd kept i = Some j -> rd (all_arcs g) i = rd (all_arcs f) j). { intros i j H. pose proof (rd_Some_bound _ _ _ H) as B. rewrite <- ZK in B. destruct (rd_in_bound _ _ B) as (a & Ha). destruct (mapM_rd _ _ _ _ _ EG Ha) as (x & X1 & X2). congruence. }
  assert (P : forall s p' t, apath g s p' t <-> exists p, apath f s p t /\ (forall j, In j p -> In j kept) /\ mapM (rd kept) p' = Some p).
  { intros s p' t. split.
    - induction 1 as [s|i a p' t Ha _ (p & P1 & P2 & P3)]; [exists []; split; [constructor|split; [intros j []|reflexivity]]|].
      pose proof (rd_Some_bound _ _ _ Ha) as B. rewrite ZK in B. destruct (rd_in_bound kept i B) as (j & Hj). rewrite (AT _ _ Hj) in Ha. exists (j :: p). split; [now constructor|]. split; [intros j' [<-|H]; [exact (rd_In _ _ _ Hj)|auto]|]. cbn [mapM]. now rewrite Hj, P3.
    - revert s. induction p' as [|i p' IH]; intros s (p & P1 & P2 & P3); cbn [mapM] in P3; [injection P3 as <-; inversion P1; constructor|].
      destruct (rd kept i) as [j|] eqn:Hj; [|discriminate]. destruct (mapM (rd kept) p') as [p1|] eqn:E; [|discriminate]. injection P3 as <-. inversion P1 as [|j0 a p0 t0 Ha Hp]; subst. rewrite <- (AT _ _ Hj) in Ha. constructor; auto. apply IH. exists p1. split; auto. split; auto. intros j' H. apply P2. now right. }
  intros p'. rewrite P. split; [intros (H & p & H1 & H2 & H3); exists p; auto|intros (p & (H & H1) & H2 & H3); split; eauto].
Qed.
Print Assumptions C67_paths.

Lemma apath_bound f s p t : apath f s p t -> forall j, In j p -> 0 <= j < zlen (all_arcs f).
Proof. induction 1 as [s|i a p t Ha _ IH]; [intros j []|]. intros j [<-|H]; [exact (rd_Some_bound _ _ _ Ha)|auto]. Qed.
Lemma path_list f w T : path_sum true w (successful f) (Some T) -> exists L, NoDup L /\ (forall p, In p L <-> successful f p) /\ exp T = sumf (fun p => expo (pweight w p)) L.
Proof. intros (L & ND & HL & E). exists L. split; auto. split; auto. pose proof (expo_ssum (map (pweight w) L)) as X. rewrite <- E in X. cbn [expo] in X. rewrite X, sumf_map. reflexivity. Qed.
Lemma expo_nonneg x : (0 <= expo x)%R.
Proof. destruct x; cbn; [apply Rlt_le, exp_pos|lra]. Qed.
Lemma sub_sum f w (P : list Z -> Prop) (b : list Z -> bool) L x : NoDup L -> (forall p, In p L <-> successful f p) -> (forall p, b p = true <-> P p) -> path_sum true w (fun p => successful f p /\ P p) x ->
  expo x = sumf (fun p => expo (pweight w p)) (filter b L).
Proof.
  intros ND HL HB PS. assert (Q : path_sum true w (fun p => successful f p /\ P p) (ssum true (map (pweight w) (filter b L)))).
  { exists (filter b L). split; [now apply NoDup_filter|]. split; [|reflexivity]. intros p. rewrite filter_In, HL, HB. reflexivity. }
  rewrite (path_sum_unique _ _ _ _ _ PS Q), expo_ssum, sumf_map. reflexivity.
Qed.
Definition memb (l : list Z) (j : Z) : bool := existsb (Z.eqb j) l.
Lemma memb_in l j : memb l j = true <-> In j l.
Proof. unfold memb. rewrite existsb_exists. split; [intros (x & H1 & H2); replace j with x by lia; auto|intros H; exists j; split; auto; lia]. Qed.

(** C67: no path of probability [thr] or more is lost. *)
Theorem C67_likely_paths : forall f w thr kept p q, kept_above f w thr kept ->
  successful f p -> path_probability f w p q -> (thr <= q)%R -> forall j, In j p -> In j kept.
Proof.
  intros f w thr kept p q KA SP (T & PT & ->) TQ j Hj. destruct (path_list f w T PT) as (L & ND & HL & ET).
  assert (Bj : 0 <= j < zlen (all_arcs f)). { destruct SP as (_ & SP). exact (apath_bound _ _ _ _ SP j Hj). }
  set (L' := filter (fun p => memb p j) L). set (x := ssum true (map (pweight w) L')).
  assert (PX : path_sum true w (fun p => successful f p /\ In j p) x). { exists L'. split; [now apply NoDup_filter|]. split; [|reflexivity]. intros p'. unfold L'. rewrite filter_In, HL, memb_in. reflexivity. }
  apply (KA j (expo x / exp T)%R Bj); [exists x, T; auto|]. apply Rle_trans with (1 := TQ). apply Rmult_le_compat_r; [apply Rlt_le, Rinv_0_lt_compat, exp_pos|].
  unfold x. rewrite expo_ssum, sumf_map. apply (sumf_le (fun p => expo (pweight w p))); [intros; apply expo_nonneg|]. unfold L'. rewrite filter_In, HL, memb_in. auto.
Qed.
Print Assumptions C67_likely_paths.

Lemma union_bound {A} (F : A -> R) (b : Z -> A -> bool) js L : (forall a, 0 <= F a)%R ->
  (sumf F (filter (fun a => existsb (fun j => b j a) js) L) <= sumf (fun j => sumf F (filter (b j) L)) js)%R.
Proof.
  intros N. induction js as [|j js IH]; [cbn [existsb]; replace (filter (fun _ => false) L) with (@nil A) by (clear; induction L; auto); cbn; lra|].
  rewrite sumf_cons. apply Rle_trans with (sumf F (filter (b j) L) + sumf F (filter (fun a => existsb (fun j => b j a) js) L))%R; [|lra].
  cbn [existsb]. clear IH. rewrite !sumf_filter, <- sumf_plus. induction L as [|a L IH]; [cbn; lra|]. rewrite !sumf_cons. pose proof (N a). destruct (b j a), (existsb (fun j => b j a) js); cbn [orb]; lra.
Qed.

(** C67: the paths that survive have at least the probability 1 - r * [thr], where r
    is the number of arcs removed. *)
Theorem C67_mass : forall f w thr kept q, kept_above f w thr kept -> StronglySorted Z.lt kept -> (forall j, In j kept -> 0 <= j < zlen (all_arcs f)) -> (0 < thr)%R ->
  probability f w (fun p => forall j, In j p -> In j kept) q -> (1 - IZR (zlen (all_arcs f) - zlen kept) * thr <= q)%R.
Proof.
  intros f w thr kept q KA SK BK T0 (x & T & PT & PX & ->). destruct (path_list f w T PT) as (L & ND & HL & ET). set (F := fun p => expo (pweight w p)) in *.
  set (A := zlen (all_arcs f)) in *. set (js := filter (fun j => negb (memb kept j)) (zrange A)).
  assert (ZJ : zlen js = A - zlen kept).
  { pose proof (zlen_nonneg (all_arcs f)) as A0. fold A in A0. assert (N : NoDup kept). { clear - SK. induction SK as [|a l S IH F]; constructor; auto. intros H. rewrite Forall_forall in F. apply F in H. lia. }
    assert (Pm : Permutation.Permutation kept (filter (memb kept) (zrange A))). { apply Permutation.NoDup_Permutation; [exact N|apply NoDup_filter, NoDup_zrange|]. intros j. rewrite filter_In, memb_in. split; [intros H; split; auto; apply in_zrange; now apply BK|tauto]. }
    assert (Zk : zlen kept = zlen (filter (memb kept) (zrange A))) by (unfold zlen; now rewrite (Permutation.Permutation_length Pm)). rewrite Zk. rewrite <- (zlen_zrange A A0) at 1. unfold js. clear. induction (zrange A) as [|j l IH]; [reflexivity|]. cbn [filter]. destruct (memb kept j); cbn [negb]; rewrite ?zlen_cons in *; lia. }
  assert (AB : forall p, successful f p -> forall j, In j p -> 0 <= j < A). { intros p (_ & SP). exact (apath_bound _ _ _ _ SP). }
  set (bad := fun p => existsb (fun j => memb p j) js).
  assert (EX : expo x = sumf F (filter (fun p => negb (bad p)) L)).
  { set (good := fun p => forallb (memb kept) p). rewrite (sub_sum f w (fun p => forall j, In j p -> In j kept) good L x ND HL); [|intros p; unfold good; rewrite forallb_forall; split; intros H j Hj; apply memb_in, H, Hj|exact PX].
    fold F. f_equal. apply filter_ext_in. intros p Hp. apply HL in Hp. unfold good, bad. apply eq_true_iff_eq. rewrite forallb_forall, negb_true_iff. split.
    - intros H. apply not_true_iff_false. intros E. apply existsb_exists in E as (j & J1 & J2). apply memb_in in J2. unfold js in J1. apply filter_In in J1 as (_ & J1). rewrite (H j J2) in J1. discriminate.
    - intros E j Hj. destruct (memb kept j) eqn:M; [reflexivity|]. exfalso. apply not_true_iff_false in E. apply E. apply existsb_exists. exists j. split; [|now apply memb_in]. unfold js. apply filter_In. split; [apply in_zrange; eauto|now rewrite M]. }
  assert (ES : exp T = (sumf F (filter bad L) + expo x)%R). { rewrite ET, EX, !sumf_filter, <- sumf_plus. apply sumf_ext. intros p _. destruct (bad p); cbn [negb]; lra. }
  assert (UB : (sumf F (filter bad L) <= IZR (zlen js) * (thr * exp T))%R).
  { apply Rle_trans with (1 := union_bound F (fun j p => memb p j) js L (fun p => expo_nonneg _)).
    assert (J : forall j, In j js -> (sumf F (filter (fun p => memb p j) L) <= thr * exp T)%R).
    { intros j Hj. unfold js in Hj. apply filter_In in Hj as (J1 & J2). apply in_zrange in J1. set (L' := filter (fun p => memb p j) L). set (y := ssum true (map (pweight w) L')).
      assert (PY : path_sum true w (fun p => successful f p /\ In j p) y). { exists L'. split; [now apply NoDup_filter|]. split; [|reflexivity]. intros p'. unfold L'. rewrite filter_In, HL, memb_in. reflexivity. }
      assert (EY : expo y = sumf F L') by (unfold y; rewrite expo_ssum, sumf_map; reflexivity). rewrite <- EY. destruct (KA j (expo y / exp T)%R J1 ltac:(exists y, T; auto)) as (_ & KB).
      destruct (Rle_lt_dec thr (expo y / exp T)) as [C|C]; [apply KB, memb_in in C; rewrite C in J2; discriminate|]. apply Rlt_le. pose proof (exp_pos T) as P. apply (Rmult_lt_compat_r (exp T)) in C; [|exact P]. unfold Rdiv in C. rewrite Rmult_assoc, Rinv_l, Rmult_1_r in C by lra. exact C. }
    clear - J. clearbody js. induction js as [|j js IH]; [rewrite sumf_nil, zlen_nil; lra|]. rewrite sumf_cons, zlen_cons, plus_IZR. pose proof (J j (or_introl eq_refl)). pose proof (IH (fun i Hi => J i (or_intror Hi))). lra. }
  rewrite <- ZJ. pose proof (exp_pos T) as P. apply (Rmult_le_reg_r (exp T)); [exact P|]. unfold Rdiv. rewrite Rmult_assoc, Rinv_l, Rmult_1_r by lra. lra.
Qed.
Print Assumptions C67_mass.

(** Two arcs in parallel with weights 1 and 9 and a final arc: the one that a path
    crosses with a probability of 1/10 goes, those with 9/10 and 1 stay. *)
Definition f67 : nfsa := [[mkArc 0 1 1 0; mkArc 0 1 2 0]; [mkArc 1 2 (-1) 0]; []].
Definition sc67 : list (option R) := [Some 0%R; Some (ln 9); Some 0%R].
Lemma f67_paths p : successful f67 p <-> In p [[0; 2]; [1; 2]].
Proof.
  split.
  - intros (_ & H). assert (E : forall s q, apath f67 s q 2 -> (s = 1 -> q = [2]) /\ (s = 2 -> q = [])).
    { clear. intros s q H. remember 2 as t. induction H as [s|i a q t Ha Hq IH]; [split; [lia|reflexivity]|]. specialize (IH Heqt). pose proof (rd_Some_bound _ _ _ Ha) as B. change (zlen (all_arcs f67)) with 3 in B. assert (C : i = 0 \/ i = 1 \/ i = 2) by lia.
      destruct C as [->|[->| ->]]; cbn in Ha; injection Ha as <-; cbn [src dst] in *; (split; [intros E|intros E]; try lia). subst t. f_equal. now apply IH. }
    change (nstates f67 - 1) with 2 in H. inversion H as [|i a q t Ha Hq]; subst. pose proof (rd_Some_bound _ _ _ Ha) as B. change (zlen (all_arcs f67)) with 3 in B. assert (C : i = 0 \/ i = 1 \/ i = 2) by lia.
    destruct C as [->|[->| ->]]; cbn in Ha; injection Ha as <-; cbn [src dst] in *; try lia; rewrite (proj1 (E _ _ Hq) eq_refl); cbn; auto.
  - intros [<-|[<-|[]]]; (split; [reflexivity|]; change (nstates f67 - 1) with 2).
    + apply (ap_cons f67 0 (mkArc 0 1 1 0)); [reflexivity|]. apply (ap_cons f67 2 (mkArc 1 2 (-1) 0)); [reflexivity|]. constructor.
    + apply (ap_cons f67 1 (mkArc 0 1 2 0)); [reflexivity|]. apply (ap_cons f67 2 (mkArc 1 2 (-1) 0)); [reflexivity|]. constructor.
Qed.
Lemma f67_sum (P : list Z -> bool) : path_sum true (arc_score [f67] sc67 0) (fun p => successful f67 p /\ P p = true) (ssum true (map (pweight (arc_score [f67] sc67 0)) (filter P [[0; 2]; [1; 2]]))).
Proof. exists (filter P [[0; 2]; [1; 2]]). split; [apply NoDup_filter; repeat constructor; cbn; intuition discriminate|]. split; [|reflexivity]. intros p. rewrite filter_In, f67_paths. reflexivity. Qed.
Lemma mapM_some_in {A B} (f : A -> option B) l ys : mapM f l = Some ys -> forall x, In x l -> exists y, f x = Some y.
Proof. revert ys. induction l as [|a l IH]; intros ys E x []; cbn [mapM] in E; destruct (f a) as [y|] eqn:Ea; try discriminate; destruct (mapM f l) as [y'|]; try discriminate; [subst; eauto|eauto]. Qed.
Lemma f67_wf : well_formed f67.
Proof.
  split.
  - intros s st a Hs Ha. pose proof (rd_Some_bound _ _ _ Hs) as B. change (zlen f67) with 3 in B. assert (C : s = 0 \/ s = 1 \/ s = 2) by lia. destruct C as [->|[->| ->]]; cbn in Hs; injection Hs as <-; cbn in Ha; intuition (subst; reflexivity).
  - cbn. intros a H. repeat (destruct H as [<-|H]; [cbv; split; congruence|]). destruct H.
Qed.
Lemma f67_ts : p_topsorted_acyclic f67.
Proof. intros a H. cbn in H. intuition (subst; reflexivity). Qed.
Lemma sched_rev n : is_sched n (rev (zrange n)).
Proof. unfold is_sched. apply Permutation.Permutation_sym, Permutation.Permutation_rev. Qed.
Example C67_ex : exists g m, prune_on_arc_post (fun n => rev (zrange n)) 2 (rev (zrange 4)) rev_ord (flat_vec [f67]) sc67 (1 / 5)%R = Some (mkVOut (flat_vec [g]) (ids_of g) m) /\ g = [[mkArc 0 1 2 0]; [mkArc 1 2 (-1) 0]; []].
Proof.
  set (w := arc_score [f67] sc67 0).
  assert (E9 : exp (ln 9) = 9%R) by (apply exp_ln; lra).
  assert (W0 : expo (pweight w [0; 2]) = 1%R). { change (expo (pweight w [0; 2])) with (exp (0 + (0 + 0))). rewrite !Rplus_0_r. apply exp_0. }
  assert (W1 : expo (pweight w [1; 2]) = 9%R). { change (expo (pweight w [1; 2])) with (exp (ln 9 + (0 + 0))). rewrite !Rplus_0_r. exact E9. }
  assert (ST : exists T, path_sum true w (successful f67) (Some T) /\ exp T = 10%R).
  { pose proof (f67_sum (fun _ => true)) as X. fold w in X. cbn [filter] in X. pose proof (expo_ssum (map (pweight w) [[0; 2]; [1; 2]])) as Y. rewrite sumf_map in Y. unfold sumf in Y. cbn [fold_right] in Y. rewrite W0, W1 in Y.
    destruct (ssum true (map (pweight w) [[0; 2]; [1; 2]])) as [T|]; [|cbn [expo] in Y; lra]. exists T. cbn [expo] in Y. split; [|lra]. destruct X as (L & X1 & X2 & X3). exists L. split; auto. split; auto. intros p. rewrite X2. tauto. }
  destruct ST as (T & PT & ET).
  assert (PJ : forall j, probability f67 w (In j) (sumf (fun p => expo (pweight w p)) (filter (fun p => memb p j) [[0; 2]; [1; 2]]%Z) / 10)%R).
  { intros j. pose proof (f67_sum (fun p => memb p j)) as X. fold w in X. eexists _, T. split; [exact PT|]. split.
    - destruct X as (L & X1 & X2 & X3). exists L. split; auto. split; [|exact X3]. intros p. rewrite X2, memb_in. reflexivity.
    - rewrite expo_ssum, sumf_map, ET. reflexivity. }
  destruct (C67_prune [f67] sc67 (fun n => rev (zrange n)) 2 (rev (zrange 4)) rev_ord (1 / 5)%R) as (gs & m & EP & ZG & K).
  - constructor; [|constructor]. apply f67_wf.
  - constructor; [|constructor]. apply f67_ts.
  - reflexivity.
  - reflexivity.
  - apply sched_rev.
  - change (is_sched 4 (rev (zrange 4))). apply sched_rev.
  - exact (proj2 (proj2 (proj2 (proj2 (proj2 fs30_ok))))).
  - intros k f Hk. pose proof (rd_Some_bound _ _ _ Hk) as B. change (zlen [f67]) with 1 in B. replace k with 0 in * by lia. injection Hk as <-. exists T. exact PT.
  - lra.
  - destruct (K 0 f67 eq_refl) as (g & kept & Hg & PR & KA & _). fold w in KA. destruct gs as [|g' [|g'' gs]]; [discriminate ZG| |exfalso; change (zlen [f67]) with 1 in ZG; rewrite !zlen_cons in ZG; pose proof (zlen_nonneg gs); lia]. injection Hg as ->. exists g, m.
    split; [rewrite EP; cbn [concat]; rewrite app_nil_r; reflexivity|].
    assert (EK : kept = [1; 2]).
    { assert (K0 : ~ In 0 kept). { rewrite (KA 0 _ ltac:(cbv; split; congruence) (PJ 0)). change (filter (fun p => memb p 0) [[0; 2]; [1; 2]]) with [[0; 2]]. unfold sumf. cbn [fold_right]. rewrite W0. lra. }
      assert (K1 : In 1 kept). { rewrite (KA 1 _ ltac:(cbv; split; congruence) (PJ 1)). change (filter (fun p => memb p 1) [[0; 2]; [1; 2]]) with [[1; 2]]. unfold sumf. cbn [fold_right]. rewrite W1. lra. }
      assert (K2 : In 2 kept). { rewrite (KA 2 _ ltac:(cbv; split; congruence) (PJ 2)). change (filter (fun p => memb p 2) [[0; 2]; [1; 2]]) with [[0; 2]; [1; 2]]. unfold sumf. cbn [fold_right]. rewrite W0, W1. lra. }
      destruct PR as (_ & SK & A & _). assert (BK : forall j, In j kept -> 0 <= j < 3). { intros j Hj. destruct (mapM_some_in _ _ _ A j Hj) as (y & Hy). exact (rd_Some_bound _ _ _ Hy). }
      clear - K0 K1 K2 SK BK. destruct kept as [|a l]; [destruct K1|]. inversion_clear SK as [|? ? SL FL]. assert (a = 1). { pose proof (BK a (or_introl eq_refl)). assert (a <> 0) by (intros ->; apply K0; now left). destruct K1 as [E|E]; [exact E|]. rewrite Forall_forall in FL. pose proof (FL 1 E). lia. }
      subst a. f_equal. destruct K2 as [E|K2]; [lia|]. destruct l as [|b l]; [destruct K2|]. inversion_clear SL as [|? ? SM FM]. assert (b = 2). { pose proof (BK b (or_intror (or_introl eq_refl))). inversion_clear FL. lia. }
      subst b. f_equal. destruct l as [|c l]; [reflexivity|]. exfalso. pose proof (BK c (or_intror (or_intror (or_introl eq_refl)))). inversion_clear FM. lia. }
    destruct PR as (Z & _ & A & I). rewrite EK in A. cbn in A. injection A as A.
    inversion I as [|? s0 ? g0 I0 I1]; subst. inversion I1 as [|? s1 ? g1 I2 I3]; subst. inversion I3 as [|? s2 ? g2 I4 I5]; subst. inversion I5; subst. assert (s2 = []) by (destruct s2 as [|x s2]; [reflexivity|destruct (I4 x (or_introl eq_refl))]). subst s2.
    unfold all_arcs in A. cbn [concat app] in A. rewrite !app_nil_r in A. destruct s0 as [|x s0]; cbn [app] in A.
    + exfalso. rewrite <- A in I2. destruct (I2 (mkArc 0 1 2 0) (or_introl eq_refl)) as [E|[]]. discriminate E.
    + injection A as <- A. destruct s0 as [|y s0]; cbn [app] in A; [subst s1; reflexivity|]. injection A as <- A. exfalso. destruct (I0 (mkArc 1 2 (-1) 0) (or_intror (or_introl eq_refl))) as [E|[E|[]]]; discriminate E.
Qed.
