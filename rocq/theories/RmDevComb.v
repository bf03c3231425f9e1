(** Combining the epsilon closure with the other arcs *)
From Coq Require Import ZArith List Lia Bool Permutation Sorted.
From Coq Require Import ZifyBool ZifyNat.
From Verif Require Import Base RaggedModel RaggedSpec RaggedProofs FsaSpec FsaLemmas FsaOpsModel SelectProofs OpsModel RaggedOpsModel RaggedOpsSpec RaggedOpsProofs RaggedOpsProps EpsLoopProofs
  PropsModel PropsSpec PropsProofs PropsProps ReverseModel ReverseProofs ReverseProps ConnectProofs ExtractProofs ConnectRun IntersectProps RmEpsLang RmDevModel RmDevRagged RmDevEnc RmDevIter RmDevStep RmDevClos RmDevMap.
Import ListNotations.
Open Scope Z_scope.

Definition combf (x y : item) : item := (mkArc (isrc x) (idst y) (ilab y) (isc x + isc y), snd x ++ snd y).
Definition combp (x y : item) : item := (mkArc (isrc x) (idst y) (ilab x) (isc x + isc y), snd x ++ snd y).

Section Cmb.
Variable fs : list nfsa.
Notation N := (NS fs).
Variable K : Z -> bool.

Section Dec.
Variables Rm Rn : Z -> list item.
Hypothesis WM : wf fs K Rm.
Hypothesis WN : wf fs K Rn.
Definition dests : list Z := map (fun x => nw K (idst x)) (fl fs Rn).
Definition indeg (o : Z) : Z := match rd (buckets dests (nw K N)) (nw K o) with Some b => zlen b | None => 0 end.
Definition prec (x : item) : bool := negb ((nw K (isrc x) =? nw K (so fs (isrc x))) || (zlen (Rn (idst x)) <? indeg (isrc x))).
Lemma nwN : 0 <= nw K N. Proof. apply zlen_nonneg. Qed.
Lemma nw_in o : 0 <= o < N -> K o = true -> 0 <= nw K o < nw K N.
Proof. intros B KO. split; [apply zlen_nonneg|now apply nw_lt]. Qed.
Lemma decide_ok : decide (vec fs K Rm) (vec fs K Rn) = Some (map (fun x => if prec x then (true, 0) else (false, zlen (Rn (idst x)))) (fl fs Rm)).
Proof.
  unfold decide, dest_states01. cbn [v_arcs]. rewrite zlen_arcs.
  assert (ED : mapM (fun i => a <- rd (r_arcs (vec fs K Rn)) i;; s <- rd (r_ids2 (vec fs K Rn)) i;; Some (dst a + (s - src a))) (zrange (zlen (fl fs Rn))) = Some dests).
  { apply mapM_by_rd; [unfold dests; rewrite zlen_map, zlen_zrange by apply zlen_nonneg; auto|]. intros j j' Hj. pose proof (rd_Some_bound _ _ _ Hj) as B. rewrite zlen_zrange in B by apply zlen_nonneg. rewrite rd_zrange in Hj by auto. injection Hj as <-. destruct (rd_in_bound (fl fs Rn) j B) as (x & Hx). destruct (rd_fl fs K Rn WN j x Hx) as (k & _ & _ & _ & _ & H5 & _). rewrite (arc_rd fs K Rn _ _ Hx), H5. unfold dests. rewrite rd_map, Hx. cbn. f_equal. lia. }
  rewrite ED. change (r_ids1 (vec fs K Rn)) with (ids_of (Lg fs K)). rewrite zlen_ids1.
  rewrite incoming_arcs_ok; [|apply nwN|]. 2:{ unfold dests. apply Forall_forall. intros t Ht. apply in_map_iff in Ht as (x & <- & Hx). destruct (in_fl fs K Rn WN x Hx) as (_ & _ & _ & W1 & W2 & _). now apply nw_in. }
  apply mapM_by_rd; [rewrite zlen_map, zlen_arcs, zlen_zrange by apply zlen_nonneg; auto|]. intros j j' Hj. pose proof (rd_Some_bound _ _ _ Hj) as B. rewrite zlen_arcs, zlen_zrange in B by apply zlen_nonneg. rewrite zlen_arcs, rd_zrange in Hj by auto. injection Hj as <-. destruct (rd_in_bound (fl fs Rm) j B) as (x & Hx). rewrite (arc_pos_ok fs K Rm WM _ _ Hx). destruct (rd_fl fs K Rm WM j x Hx) as (k & Bo & KO & _ & _ & _ & W1 & W2 & _).
  pose proof (nw_in _ Bo KO) as BN. assert (ZB : zlen (buckets dests (nw K N)) = nw K N) by (unfold buckets; apply zlen_tab, nwN). destruct (rd_in_bound (buckets dests (nw K N)) (nw K (isrc x)) ltac:(lia)) as (bk & Hb). destruct (splits_nth _ _ _ Hb) as (S1 & S2). rewrite S1, S2. rewrite enc_dst, (rs2_rd fs K Rn WN), (rs2_rd1 fs K Rn WN) by (auto; lia). rewrite rd_map, Hx. cbn [option_map]. f_equal.
  replace (A Rn (idst x) + zlen (Rn (idst x)) - A Rn (idst x)) with (zlen (Rn (idst x))) by lia. replace (off1 (buckets dests (nw K N)) (nw K (isrc x)) + zlen bk - off1 (buckets dests (nw K N)) (nw K (isrc x))) with (zlen bk) by lia. unfold prec, indeg. rewrite Hb. destruct (_ || _); reflexivity.
Qed.

Definition ef (x : item) : list item := if prec x then [] else map (combf x) (Rn (idst x)).
Lemma wf_ef : wf fs K (ex ef Rm).
Proof.
  split; [intros o Ho; apply (ex_nil K); auto; apply WM|]. intros o z B Hz. unfold ex in Hz. apply in_concat in Hz as (l & H1 & H2). apply in_map_iff in H1 as (x & <- & Hx). destruct (proj2 WM o x B Hx) as (S1 & W1 & W2 & W3). unfold ef in H2. destruct (prec x); [destruct H2|]. apply in_map_iff in H2 as (y & <- & Hy). destruct (proj2 WN _ y W1 Hy) as (T1 & T2 & T3 & T4). split; [exact S1|]. split; [exact T2|]. split; [exact T3|]. change (idst (combf x y)) with (idst y). congruence.
Qed.
Theorem combine_following_ok nmap : map (fun j => [j]) nmap = map snd (fl fs Rn) ->
  combine_following (vec fs K Rm) (map snd (fl fs Rm)) (vec fs K Rn) nmap (map snd (map (fun x => if prec x then (true, 0) else (false, zlen (Rn (idst x)))) (fl fs Rm))) =
  Some (vec fs K (ex ef Rm), map snd (fl fs (ex ef Rm))).
Proof.
  intros HN. unfold combine_following. rewrite map_map. assert (EC : map (fun x => snd (if prec x then (true, 0) else (false, zlen (Rn (idst x))))) (fl fs Rm) = map zlen (map ef (fl fs Rm))). { rewrite map_map. apply map_ext. intros x. unfold ef. destruct (prec x); cbn [snd]; [reflexivity|now rewrite zlen_map]. }
  rewrite EC. set (LL := map ef (fl fs Rm)). change (exsum (map zlen LL)) with (splits_of LL). rewrite zlen_map, rd_splits_off by (pose proof (zlen_nonneg LL); lia). rewrite off1_all, row_ids_of_splits.
  set (h := fun i0 k => p <- arc_pos (vec fs K Rm) i0;; let '(a, s, b) := p in l0 <- rd (r_rs2 (vec fs K Rn)) (b + dst a);; let l := l0 + k in c <- rd (r_arcs (vec fs K Rn)) l;; m <- rd (map snd (fl fs Rm)) i0;; e <- rd nmap l;; Some (mkArc (src a) (dst c) (lab c) (sc a + sc c), m ++ [e])).
  assert (RE := ragged_eval LL h (fun z => (enc fs K z, snd z))). unfold h in RE. cbv beta in RE. rewrite RE; clear RE.
  - cbn [vec r_rs2 r_ids2 r_rs1 r_ids1]. pose proof (ex_splits N K Rm ef (proj1 WM)) as E1. pose proof (ex_ids N K Rm ef (proj1 WM)) as E2. change (map ef (flatR N Rm)) with LL in E1, E2. rewrite E1, E2. rewrite !map_map. cbn [fst snd]. assert (EF : concat LL = fl fs (ex ef Rm)) by (unfold fl; rewrite ex_flat; reflexivity). rewrite EF. reflexivity.
  - intros r l k z Hr Hk. unfold LL in Hr. rewrite rd_map in Hr. destruct (rd (fl fs Rm) r) as [x|] eqn:Hx; [|discriminate]. injection Hr as <-. unfold ef in Hk. destruct (prec x); [rewrite rd_nil in Hk; discriminate|]. rewrite rd_map in Hk. destruct (rd (Rn (idst x)) k) as [y|] eqn:Hy; [|discriminate]. injection Hk as <-.
    rewrite (arc_pos_ok fs K Rm WM _ _ Hx). destruct (rd_fl fs K Rm WM r x Hx) as (k' & Bo & KO & _ & _ & _ & W1 & W2 & W3). rewrite enc_dst, (rs2_rd fs K Rn WN) by lia. pose proof (fl_rd fs K Rn WN _ _ _ W1 Hy) as Hf. rewrite (arc_rd fs K Rn _ _ Hf). rewrite rd_map, Hx. cbn [option_map].
    assert (HNM : exists e, rd nmap (A Rn (idst x) + k) = Some e /\ snd y = [e]). { assert (Q : rd (map (fun j => [j]) nmap) (A Rn (idst x) + k) = Some (snd y)) by (rewrite HN, rd_map, Hf; reflexivity). rewrite rd_map in Q. destruct (rd nmap (A Rn (idst x) + k)) as [e|]; [|discriminate]. injection Q as Q. eauto. }
    destruct HNM as (e & -> & Ee). cbn [combf snd]. rewrite Ee. do 2 f_equal. destruct (proj2 WN _ y W1 ltac:(eapply rd_In; eauto)) as (T1 & _). unfold enc. cbn. rewrite T1, W3. reflexivity.
Qed.
End Dec.

Section Pre.
Variables Rp R : Z -> list item.
Hypothesis WP : wf fs K Rp.
Hypothesis WR : wf fs K R.
Definition ep (x : item) : list item := map (combp x) (Rp (idst x)).
Lemma wf_ep : wf fs K (ex ep R).
Proof.
  split; [intros o Ho; apply (ex_nil K); auto; apply WR|]. intros o z B Hz. unfold ex in Hz. apply in_concat in Hz as (l & H1 & H2). apply in_map_iff in H1 as (x & <- & Hx). destruct (proj2 WR o x B Hx) as (S1 & W1 & W2 & W3). unfold ep in H2. apply in_map_iff in H2 as (y & <- & Hy). destruct (proj2 WP _ y W1 Hy) as (T1 & T2 & T3 & T4). split; [exact S1|]. split; [exact T2|]. split; [exact T3|]. change (idst (combp x y)) with (idst y). congruence.
Qed.
Theorem combine_preceding_ok : combine_preceding (vec fs K Rp) (map snd (fl fs Rp)) (vec fs K R) (map snd (fl fs R)) = Some (vec fs K (ex ep R), map snd (fl fs (ex ep R))).
Proof.
  unfold combine_preceding. rewrite zlen_arcs.
  assert (EC : mapM (fun j => p <- arc_pos (vec fs K R) j;; let '(a, s, b) := p in l0 <- rd (r_rs2 (vec fs K Rp)) (b + dst a);; l1 <- rd (r_rs2 (vec fs K Rp)) (b + dst a + 1);; Some (l1 - l0)) (zrange (zlen (fl fs R))) = Some (map zlen (map ep (fl fs R)))).
  { apply mapM_by_rd; [rewrite !zlen_map, zlen_zrange by apply zlen_nonneg; auto|]. intros j j' Hj. pose proof (rd_Some_bound _ _ _ Hj) as B. rewrite zlen_zrange in B by apply zlen_nonneg. rewrite rd_zrange in Hj by auto. injection Hj as <-. destruct (rd_in_bound (fl fs R) j B) as (x & Hx). rewrite (arc_pos_ok fs K R WR _ _ Hx). destruct (rd_fl fs K R WR j x Hx) as (k & Bo & KO & _ & _ & _ & W1 & W2 & _). rewrite enc_dst, (rs2_rd fs K Rp WP), (rs2_rd1 fs K Rp WP) by (auto; lia). rewrite !rd_map, Hx. cbn [option_map]. unfold ep. rewrite zlen_map. f_equal. lia. }
  rewrite EC. set (LL := map ep (fl fs R)). change (exsum (map zlen LL)) with (splits_of LL). rewrite zlen_map, rd_splits_off by (pose proof (zlen_nonneg LL); lia). rewrite off1_all, row_ids_of_splits.
  set (h := fun i0 k => p <- arc_pos (vec fs K R) i0;; let '(a, s, b) := p in l0 <- rd (r_rs2 (vec fs K Rp)) (b + dst a);; let l := l0 + k in c <- rd (r_arcs (vec fs K Rp)) l;; m <- rd (map snd (fl fs R)) i0;; mp <- rd (map snd (fl fs Rp)) l;; Some (mkArc (src a) (dst c) (lab a) (sc a + sc c), m ++ mp)).
  assert (RE := ragged_eval LL h (fun z => (enc fs K z, snd z))). unfold h in RE. cbv beta in RE. rewrite RE; clear RE.
  - cbn [vec r_rs2 r_ids2 r_rs1 r_ids1]. pose proof (ex_splits N K R ep (proj1 WR)) as E1. pose proof (ex_ids N K R ep (proj1 WR)) as E2. change (map ep (flatR N R)) with LL in E1, E2. rewrite E1, E2. rewrite !map_map. cbn [fst snd]. assert (EF : concat LL = fl fs (ex ep R)) by (unfold fl; rewrite ex_flat; reflexivity). rewrite EF. reflexivity.
  - intros r l k z Hr Hk. unfold LL in Hr. rewrite rd_map in Hr. destruct (rd (fl fs R) r) as [x|] eqn:Hx; [|discriminate]. injection Hr as <-. unfold ep in Hk. rewrite rd_map in Hk. destruct (rd (Rp (idst x)) k) as [y|] eqn:Hy; [|discriminate]. injection Hk as <-.
    rewrite (arc_pos_ok fs K R WR _ _ Hx). destruct (rd_fl fs K R WR r x Hx) as (k' & Bo & KO & _ & _ & _ & W1 & W2 & W3). rewrite enc_dst, (rs2_rd fs K Rp WP) by lia. pose proof (fl_rd fs K Rp WP _ _ _ W1 Hy) as Hf. rewrite (arc_rd fs K Rp _ _ Hf). rewrite !rd_map, Hx, Hf. cbn [option_map combp snd]. do 2 f_equal. destruct (proj2 WP _ y W1 ltac:(eapply rd_In; eauto)) as (T1 & _). unfold enc. cbn. rewrite T1, W3. reflexivity.
Qed.
End Pre.

(** ** Cat *)
Lemma layer_rows {Y} (g : item -> Y) R : wf fs K R -> let x := map (fun o => map g (R o)) (L N K) in
  (mk_layer (splits_of (map R (L N K))) (ids_of (map R (L N K))), map g (fl fs R)) = (mk_layer (splits_of x) (ids_of x), concat x).
Proof.
  intros WF x. assert (E : map zlen (map R (L N K)) = map zlen x) by (unfold x; rewrite !map_map; apply map_ext; intros; now rewrite zlen_map). rewrite (splits_zlen _ _ E), (ids_of_zlen _ _ E). f_equal. rewrite <- (rows_concat fs K R WF). unfold x. rewrite concat_map, map_map. reflexivity.
Qed.
Lemma cat_ok {Y} (g : item -> Y) (Rl : list (Z -> list item)) : Rl <> [] -> (forall R, In R Rl -> wf fs K R) ->
  let y := map (fun o => map g (concat (map (fun R => R o) Rl))) (L N K) in
  ragged_cat1 (map (fun R => (mk_layer (splits_of (map R (L N K))) (ids_of (map R (L N K))), map g (fl fs R))) Rl) = Some (mk_layer (splits_of y) (ids_of y), concat y).
Proof.
  intros NE WF y. set (xs := map (fun R : Z -> list item => map (fun o => map g (R o)) (L N K)) Rl).
  assert (E : map (fun R => (mk_layer (splits_of (map R (L N K))) (ids_of (map R (L N K))), map g (fl fs R))) Rl = map (fun x => (mk_layer (splits_of x) (ids_of x), concat x)) xs) by (unfold xs; rewrite map_map; apply map_ext_in; intros R HR; apply layer_rows; auto).
  rewrite E, (C07_cat_axis1 _ xs (zlen (L N K))).
  - cbv zeta. assert (EY : cat_rows xs (zlen (L N K)) = y); [|now rewrite EY]. unfold cat_rows, y. apply list_ext_rd; [rewrite !zlen_map, zlen_zrange by apply zlen_nonneg; auto|]. intros i Hi. rewrite zlen_map, zlen_zrange in Hi by apply zlen_nonneg. rewrite !rd_map, rd_zrange by auto. destruct (rd_in_bound (L N K) i Hi) as (o & Ho). rewrite Ho. cbn [option_map]. f_equal. unfold xs. rewrite concat_map, !map_map. f_equal. apply map_ext. intros R. unfold pick. rewrite rd_map, Ho. reflexivity.
  - unfold xs. destruct Rl; [congruence|discriminate].
  - apply Forall_forall. intros x Hx. unfold xs in Hx. apply in_map_iff in Hx as (R & <- & _). apply zlen_map.
Qed.
Lemma wf_cat Rl : (forall R, In R Rl -> wf fs K R) -> wf fs K (fun o => concat (map (fun R : Z -> list item => R o) Rl)).
Proof.
  intros H. split.
  - intros o Ho. induction Rl as [|R Rl IH]; [reflexivity|]. cbn. rewrite (proj1 (H R (or_introl eq_refl)) o Ho). cbn. apply IH. intros; apply H; now right.
  - intros o x B Hx. apply in_concat in Hx as (l & H1 & H2). apply in_map_iff in H1 as (R & <- & HR). now apply (proj2 (H R HR)).
Qed.

(** ** The FSAs of the result *)
Definition gsof (R : Z -> list item) : list nfsa := map (map (fun o => map (enc fs K) (R o))) (Lg fs K).
Lemma concat_gs R : concat (gsof R) = map (fun o => map (enc fs K) (R o)) (L N K).
Proof. unfold gsof. rewrite <- concat_map, concat_Lg. reflexivity. Qed.
Lemma concat_concat_gs R : wf fs K R -> concat (concat (gsof R)) = map (enc fs K) (fl fs R).
Proof. intros WF. rewrite concat_gs, <- (rows_concat fs K R WF), concat_map, map_map. reflexivity. Qed.
Lemma flat_gs R : wf fs K R -> flat_vec (gsof R) = mkVec (splits_of (Lg fs K)) (splits_of (map R (L N K))) (map (enc fs K) (fl fs R)).
Proof.
  intros WF. unfold flat_vec. f_equal.
  - apply splits_zlen. unfold gsof. rewrite map_map. apply map_ext. intros; apply zlen_map.
  - rewrite concat_gs. apply splits_zlen. rewrite !map_map. apply map_ext. intros; apply zlen_map.
  - now apply concat_concat_gs.
Qed.
Lemma resplit {X Y} (ll : list (list X)) : forall F : list Y, zlen F = zlen (concat ll) -> exists ll', concat ll' = F /\ map zlen ll' = map zlen ll.
Proof.
  induction ll as [|l ll IH]; intros F H; cbn in H.
  - exists []. destruct F; [auto|]. rewrite zlen_nil, zlen_cons in H. pose proof (zlen_nonneg F). lia.
  - rewrite zlen_app in H. destruct (IH (skipn (length l) F)) as (ll' & E1 & E2). { unfold zlen in *. rewrite skipn_length. lia. }
    exists (firstn (length l) F :: ll'). cbn. rewrite E1, firstn_skipn, E2. split; [auto|]. f_equal. unfold zlen in *. rewrite firstn_length. lia.
Qed.
(** sorting the arcs of each state *)
Lemma sorted_items R gs' m : wf fs K R -> sorted_version (gsof R) gs' m -> exists R', gs' = gsof R' /\ mapM (rd (map snd (fl fs R))) m = Some (map snd (fl fs R')) /\ wf fs K R' /\ forall o z, 0 <= o < N -> (In z (R' o) <-> In z (R o)).
Proof.
  intros WF (SZ & SP & SV & SI & SR).
  assert (ZG : zlen (concat (concat (gsof R))) = zlen (fl fs R)) by (rewrite concat_concat_gs, zlen_map by auto; auto).
  assert (EF : exists F, mapM (rd (fl fs R)) m = Some F).
  { destruct (mapM_ex (rd (fl fs R)) (fun _ _ => True) m) as (F & E & _); [|eauto]. intros j Hj. assert (Bj : 0 <= j < zlen (fl fs R)) by (rewrite <- ZG; apply in_zrange; eapply Permutation_in; eauto). destruct (rd_in_bound _ _ Bj) as (x & ->). eauto. }
  destruct EF as (F & EF). pose proof (mapM_rd_map (enc fs K) _ _ _ EF) as EE. rewrite <- concat_concat_gs in EE by auto. rewrite SV in EE. injection EE as EE.
  (* row sizes *)
  pose proof (map_zlen_rd _ _ SZ) as (GZ & _ & GO & GF). assert (RZ : map zlen (concat gs') = map zlen (concat (gsof R))).
  { rewrite !concat_map. f_equal. apply list_ext_rd; [rewrite !zlen_map; auto|]. intros k Bk. rewrite zlen_map in Bk. rewrite !rd_map. destruct (rd_in_bound gs' k Bk) as (f' & Hf'). destruct (rd_in_bound (gsof R) k ltac:(lia)) as (f & Hf). rewrite Hf, Hf'. cbn. f_equal. pose proof (GF k f f' Hf Hf') as ZF. apply list_ext_rd; [rewrite !zlen_map; auto|]. intros r Br. rewrite zlen_map in Br. rewrite !rd_map. destruct (rd_in_bound f' r Br) as (st' & Hs'). destruct (rd_in_bound f r ltac:(lia)) as (st & Hs). rewrite Hs, Hs'. cbn. f_equal. destruct (SR k f f' r st st' Hf Hf' Hs Hs') as (P & _). unfold zlen. now rewrite (Permutation_length P). }
  assert (ZF : zlen F = zlen (concat (concat gs'))) by (rewrite EE, zlen_map; auto).
  destruct (resplit (concat gs') F ZF) as (rows & CR & LR).
  assert (LR2 : map zlen rows = map zlen (map R (L N K))) by (rewrite LR, RZ, concat_gs, !map_map; apply map_ext; intros; apply zlen_map).
  assert (ZR : zlen rows = nw K N) by (rewrite <- (zlen_map zlen rows), LR2, !zlen_map; reflexivity).
  set (R' := rowf N K rows). assert (RM : map R' (L N K) = rows) by (now apply rowf_map). assert (RN : forall o, K o = false -> R' o = []) by (intros; now apply rowf_nil).
  assert (FL : fl fs R' = F) by (unfold fl; rewrite <- (concat_L N K R' RN), RM; auto).
  assert (IDS : ids_of rows = ids_of (concat gs')) by (now apply ids_of_zlen).
  assert (IDR : ids_of (concat (gsof R)) = ids_of (map R (L N K))) by (apply ids_of_zlen; rewrite concat_gs, !map_map; apply map_ext; intros; apply zlen_map).
  assert (IN : forall o z, 0 <= o < N -> (In z (R' o) <-> In z (R o))).
  { intros o z B. split; intros Hz.
    - apply In_rd in Hz as (k & _ & Hz). pose proof (flat_rd N K R' RN o k z Hz B) as H1. destruct (rd_flat N K R' RN _ _ H1) as (o2 & k2 & B2 & K2 & H2 & H3 & H4). assert (o2 = o).
      { destruct (K o) eqn:KO; [|rewrite RN in Hz by auto; rewrite rd_nil in Hz; discriminate]. assert (Q : rd (ids_of (map R' (L N K))) (A R' o + k) = Some (nw K o)). { rewrite <- (off_L N K R' RN) by lia. apply (rd_concat_off (map R' (L N K)) (nw K o) (R' o) k z); auto. rewrite rd_map, rd_L; auto. } rewrite H4 in Q. injection Q as Q. apply nw_inj in Q; auto; lia. }
      subst o2. change (flatR N R') with (fl fs R') in H1. rewrite FL in H1. destruct (mapM_rd _ _ _ _ _ EF H1) as (j & J1 & J2). rewrite RM, IDS in H4. destruct (mapM_rd _ _ _ _ _ SI H4) as (j' & J3 & J4). rewrite J1 in J3. injection J3 as <-. rewrite IDR in J4. destruct (rd_flat N K R (proj1 WF) _ _ J2) as (o3 & k3 & B3 & K3 & H5 & H6 & H7). rewrite J4 in H7. injection H7 as H7. apply nw_inj in H7; auto; try lia. subst o3. eapply rd_In; eauto.
    - apply In_rd in Hz as (k & _ & Hz). pose proof (flat_rd N K R (proj1 WF) o k z Hz B) as H1. pose proof (rd_Some_bound _ _ _ H1) as Bj. destruct (K o) eqn:KO; [|rewrite (proj1 WF) in Hz by auto; rewrite rd_nil in Hz; discriminate]. assert (Q : rd (ids_of (map R (L N K))) (A R o + k) = Some (nw K o)). { rewrite <- (off_L N K R (proj1 WF)) by lia. apply (rd_concat_off (map R (L N K)) (nw K o) (R o) k z); auto. rewrite rd_map, rd_L; auto. }
      assert (Ij : In (A R o + k) m) by (eapply Permutation_in; [apply Permutation_sym; exact SP|]; apply in_zrange; rewrite ZG; exact Bj). apply In_rd in Ij as (i & Bi & Hi).
      pose proof (mapM_length _ _ _ EF) as L1. pose proof (mapM_length _ _ _ SI) as L2. destruct (rd_in_bound F i ltac:(unfold zlen in *; lia)) as (z' & Hz'). destruct (mapM_rd _ _ _ _ _ EF Hz') as (j & J1 & J2). rewrite Hi in J1. injection J1 as <-. change (flatR N R) with (fl fs R) in H1. rewrite H1 in J2. injection J2 as <-.
      rewrite <- FL in Hz'. destruct (rd_flat N K R' RN _ _ Hz') as (o2 & k2 & B2 & K2 & H2 & H3 & H4). rewrite RM, IDS in H4. destruct (mapM_rd _ _ _ _ _ SI H4) as (j' & J3 & J4). rewrite Hi in J3. injection J3 as <-. rewrite IDR, Q in J4. injection J4 as J4. apply nw_inj in J4; auto; try lia. subst o2. eapply rd_In; eauto. }
  assert (WF' : wf fs K R'). { split; [exact RN|]. intros o x B Hx. apply IN in Hx; auto. now apply WF. }
  exists R'. split; [|split; [|split; [exact WF'|exact IN]]].
  - assert (EC : concat gs' = concat (gsof R')). { apply rows_eq; [|rewrite concat_concat_gs by auto; now rewrite FL]. rewrite concat_gs. rewrite <- LR, <- RM, !map_map. apply map_ext. intros; now rewrite zlen_map. }
    apply rows_eq; [|exact EC]. rewrite SZ. unfold gsof. rewrite !map_map. apply map_ext. intros; now rewrite !zlen_map.
  - rewrite FL. now apply mapM_rd_map.
Qed.
End Cmb.
