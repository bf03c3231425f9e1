(** * C59: k2.intersect_device *)
From Coq Require Import ZArith List Lia Bool Permutation.
From Coq Require Import ZifyBool.
From Verif Require Import Base RaggedModel RaggedSpec RaggedProofs FsaSpec FsaLemmas ConnectProofs RaggedOpsModel PropsModel PropsSpec PropsProps IDevModel IDevCore IDevStep IDevRun IDevOut IDevPair IntersectModel IntersectSpec IntersectProofs IntersectPaths IntersectProps.
From Verif Require ComposeProps EpsLoopProofs FsaLemmas.
Import ListNotations.
Open Scope Z_scope.

Lemma u32_le v : 0 <= v -> u32 v <= v.
Proof. intros H. unfold u32. apply Z.mod_le; lia. Qed.
Lemma max_in m : m <> [] -> (forall i, In i m -> 0 <= i) -> In (fold_right Z.max (- 2 ^ 31) m) m.
Proof.
  induction m as [|x m IH]; [congruence|]. intros _ H. cbn [fold_right]. destruct m as [|y m]; [cbn; pose proof (H x (or_introl eq_refl)); left; lia|].
  specialize (IH ltac:(discriminate) (fun i Hi => H i (or_intror Hi))). destruct (Z.max_spec x (fold_right Z.max (- 2 ^ 31) (y :: m))) as [(_ & ->)|(_ & ->)]; [now right|now left].
Qed.
Lemma props_ok sched fs : is_sched (zlen (concat (concat fs))) sched -> (forall f, In f fs -> input f) ->
  exists p, py_properties sched (flat_vec fs) = Some p /\ (Z.land p kArcSorted =? 0 = false <-> forall f, In f fs -> p_arcsorted f).
Proof.
  intros Hs HI. assert (V : Forall p_valid fs). { apply Forall_forall. intros f Hf. destruct (HI f Hf) as ([->|V] & _); [apply ComposeProps.p_valid_nil|now apply ComposeProps.valid_p_valid]. }
  destruct (proj2 (C15_properties_raises sched fs Hs) V) as (p & E). exists p. split; auto. unfold py_properties in E. destruct (props_sorted sched fs Hs) as (q & E' & S); [intros; apply HI; auto|]. rewrite E' in E. destruct (Z.land (snd q) kValid =? 1); [|discriminate]. injection E as <-. rewrite <- S. destruct (Z.land (snd q) kArcSorted =? 0); split; auto.
Qed.

(** The number of pairs of a state of FSA [m k] of the first batch and a state of
    FSA [k] of the second, over all [k] *)
Definition pairs_of_states (al bl : list nfsa) (m : list Z) : Z :=
  zsum (map (fun x => zlen (match rd al (fst x) with Some a => a | None => [] end) * zlen (snd x)) (combine m bl)).
Lemma pairs_ok al bl m : zlen m = zlen bl -> pairs_of_states al bl m = num_pairs al bl m.
Proof.
  intros H. unfold pairs_of_states, num_pairs. f_equal. apply list_ext_rd.
  - rewrite !zlen_map, zlen_zrange by apply zlen_nonneg. unfold zlen in *. rewrite combine_length. lia.
  - intros i Hi. rewrite zlen_map in Hi. assert (Bi : 0 <= i < zlen bl) by (unfold zlen in *; rewrite combine_length in Hi; lia).
    rewrite !rd_map, rd_zrange by lia. destruct (rd_in_bound m i ltac:(lia)) as (j & Hj). destruct (rd_in_bound bl i Bi) as (b & Hb).
    assert (E : rd (combine m bl) i = Some (j, b)). { unfold rd in *. destruct (i <? 0); [discriminate|]. clear -Hj Hb. revert bl Hb Hj. revert m. generalize (Z.to_nat i). induction n as [|n IH]; intros [|x m] [|y bl] Hb Hj; cbn in *; try discriminate; [congruence|now apply IH]. }
    rewrite E. cbn. unfold fa, fb, mk. now rewrite Hj, Hb.
Qed.

Lemma device_full : forall fuel ord sorted al bl m, fair ord -> bl <> [] ->
  (forall a, In a al -> input a) -> (forall b, In b bl -> input b) -> (sorted = true -> forall a, In a al -> p_arcsorted a) ->
  zlen m = zlen bl -> (forall i, In i m -> 0 <= i < zlen al) -> pairs_of_states al bl m + 2 <= Z.of_nat fuel ->
  exists cl ma mb, intersect_device fuel ord sorted (flat_vec al) (flat_vec bl) m = Some (flat_vec cl, ma, mb) /\
    zlen cl = zlen bl /\ zlen ma = zlen (concat (concat cl)) /\ zlen mb = zlen (concat (concat cl)) /\
    forall k ia a b c, rd m k = Some ia -> rd al ia = Some a -> rd bl k = Some b -> rd cl k = Some c ->
      let oa := first_arc al ia in let ob := first_arc bl k in let oc := first_arc cl k in
      (a <> [] /\ b <> [] -> valid c) /\ (a = [] \/ b = [] -> c = []) /\
      is_intersection false a b c (proj ma oc oa) (proj mb oc ob) /\
      (forall j u, rd (all_arcs c) j = Some u -> exists i i', rd ma (oc + j) = Some i /\ rd mb (oc + j) = Some i' /\ origin false a b oa ob u i i') /\
      (forall s, 0 <= s < final c -> exists p, path (all_arcs c) 0 p s) /\
      (a <> [] /\ b <> [] -> numbered a b c).
Proof.
  intros fuel ord sorted al bl m Ho Hne Ia Ib Sa Hm1 Hm2 Hf. rewrite (pairs_ok al bl m Hm1) in Hf.
  assert (HA : forall a, In a al -> a = [] \/ valid a) by (intros; apply Ia; auto). assert (HB : forall b, In b bl -> b = [] \/ valid b) by (intros; apply Ib; auto).
  assert (Hn : 0 < zlen bl) by (destruct bl; [congruence|rewrite zlen_cons; pose proof (zlen_nonneg bl); lia]).
  assert (SA : sorted = true -> forall a, In a al -> p_arcsorted a /\ int32_labels a) by (intros; split; [apply Sa|apply Ia]; auto). assert (SB : sorted = true -> forall b, In b bl -> int32_labels b) by (intros; apply Ib; auto).
  unfold intersect_device. destruct (props_ok (ord (zlen (v_arcs (flat_vec al)))) al (Ho _) Ia) as (pa & -> & PA). destruct (props_ok (ord (zlen (v_arcs (flat_vec bl)))) bl (Ho _) Ib) as (pb & -> & _).
  assert (CK : negb (sorted && (Z.land pa kArcSorted =? 0)) = true). { destruct sorted; auto. cbn. rewrite (proj2 PA (Sa eq_refl)). reflexivity. } rewrite CK.
  cbn [flat_vec v_rs1 v_rs2 v_arcs]. rewrite !zlen_splits_of. replace (zlen bl + 1 - 1) with (zlen bl) by lia. replace (zlen al + 1 - 1) with (zlen al) by lia. replace (zlen (concat bl) + 1 - 1) with (zlen (concat bl)) by lia.
  replace (zlen m =? zlen bl) with true by lia. assert (M : In (fold_right Z.max (- 2 ^ 31) m) m). { apply max_in; [|intros; apply Hm2; auto]. destruct m; [change (zlen []) with 0 in Hm1; lia|discriminate]. }
  apply Hm2 in M. pose proof (u32_le _ (proj1 M)). destruct (u32 (fold_right Z.max (- 2 ^ 31) m) <? zlen al) eqn:E; [|lia]. clear E. rewrite row_ids_of_splits.
  fold (flat_vec al). fold (flat_vec bl). rewrite (first_iter_ok al bl m Hm1 Hm2 ord Ho).
  pose proof (inv_init al bl m HA HB Hm1 Hm2 ord Ho sorted SA SB) as II. pose proof (zlen_nonneg (universe al bl m)) as ZU. rewrite zlen_universe in ZU.
  destruct (forward_ok al bl m HA HB Hm1 Hm2 ord Ho sorted SA SB fuel [] (init al bl m) [] _ II) as (BB & pl & d & I0 & EF); [intros; lia|intros; cbn [concat app]; lia|].
  change (zlen (@nil (list tr))) with 0 in EF. rewrite EF. unfold last_iter. cbn [d_iters d_states d_arcs d_rows d_hash]. rewrite zlen_splits_of. replace (zlen BB + 1 - 1) with (zlen BB) by lia. pose proof (zlen_nonneg BB) as ZB0. rewrite rd_splits_off by lia. rewrite EpsLoopProofs.off1_all.
  assert (ES : zlen (d_states d) = zlen (concat BB)) by (destruct I0 as (-> & _); rewrite app_nil_r; apply zlen_map). replace (zlen (d_states d) =? zlen (concat BB)) with true by lia.
  rewrite (output_ok al bl m HA HB Hm1 Hm2 ord Ho Hn BB pl d I0).
  set (CCv := CC al bl (BB ++ [finals al bl m]) (pl ++ repeat [] (length (finals al bl m))) (d_hash d)).
  exists (map (map (map fst)) CCv), (map (fun y => fst (snd y)) (concat (concat CCv))), (map (fun y => snd (snd y)) (concat (concat CCv))).
  assert (ZC : zlen CCv = zlen bl) by (unfold CCv, CC; rewrite zlen_imap; apply zlen_FF; auto). set (cl := map (map (map fst)) CCv).
  assert (LEN : zlen (concat (concat CCv)) = zlen (concat (concat cl))). { unfold cl. rewrite <- !concat_map. now rewrite zlen_map. }
  split; [reflexivity|]. split; [unfold cl; now rewrite zlen_map|]. split; [now rewrite zlen_map|]. split; [now rewrite zlen_map|].
  intros k ia a b c Hk Ha Hb Hc. cbv zeta. pose proof (rd_Some_bound _ _ _ Hb) as Bk. destruct (pair_k al bl m Hm1 Hm2 k Bk) as (P1 & P2 & P3). assert (ia = mk m k) by congruence. subst ia. assert (a = fa al m k) by congruence. assert (b = fb bl k) by congruence.
  unfold cl in Hc. rewrite rd_map in Hc. destruct (rd CCv k) as [C|] eqn:EC; [|discriminate]. injection Hc as <-.
  assert (FA : first_arc cl k = off1 (map (@concat _) CCv) k). { unfold first_arc. apply IDenseInit.off1_same. unfold cl. rewrite !map_map. apply map_ext. intros x. unfold all_arcs. rewrite <- concat_map. apply zlen_map. }
  assert (RC : forall j z, rd (concat C) j = Some z -> rd (concat (concat CCv)) (first_arc cl k + j) = Some z).
  { intros j z Hj. rewrite FA, <- concat_map_concat. apply (rd_concat_off (map (@concat _) CCv) k (concat C) j z); auto. now rewrite rd_map, EC. }
  destruct (in_dec Z.eq_dec k (ks al bl m)) as [Kk|NK].
  2:{ assert (C = []). { unfold CCv in EC. rewrite (pair_empty al bl m Hm2 ord Ho BB pl d I0 k Bk NK) in EC. congruence. } subst C.
      assert (EMP : a = [] \/ b = []). { destruct a as [|sa a']; [auto|]. destruct b as [|sb b']; [auto|]. exfalso. apply NK, in_ks. split; auto. rewrite <- H0, <- H1, !zlen_cons. pose proof (zlen_nonneg a'). pose proof (zlen_nonneg b'). lia. }
      split; [intros (? & ?); destruct EMP; contradiction|]. split; [auto|]. split; [|split; [|split]].
      - split; [|split].
        + intros q (Hq & _). unfold nstates in Hq. change (zlen (map (map fst) [])) with 0 in Hq. lia.
        + intros p1 p2 (H2 & _) (H3 & _). unfold nstates in *. destruct EMP as [X|X]; rewrite X in *; change (zlen []) with 0 in *; lia.
        + intros _ q q' (Hq & _). unfold nstates in Hq. change (zlen (map (map fst) [])) with 0 in Hq. lia.
      - intros j u Hu. cbn in Hu. rewrite rd_nil in Hu. discriminate.
      - intros s Hs. unfold final, nstates in Hs. change (zlen (map (map fst) [])) with 0 in Hs. lia.
      - intros (? & ?); destruct EMP; contradiction. }
  destruct (pair_prod al bl m HA HB Hm1 Hm2 ord Ho Hn BB pl d I0 k Kk) as (C' & EC' & PO). fold CCv in EC'. assert (C' = C) by congruence. subst C'. rewrite <- H0, <- H1 in PO.
  pose proof Kk as Kk'. apply in_ks in Kk' as (_ & K1 & K2). assert (Va : valid a) by (rewrite H0; apply (validA al bl m HA Hm1 Hm2); auto). assert (Vb : valid b) by (rewrite H1; apply (validB al bl m HB Hm1 Hm2); auto).
  destruct (product_ok false a b _ _ Va Vb PO) as (Vc & IS).
  set (lo := loc al bl m k) in *. assert (EL : map (map fst) (map (map lo) C) = map (map fst) C) by (rewrite map_map; apply map_ext; intros row; rewrite map_map; reflexivity). rewrite EL in Vc, IS.
  assert (ECC : concat (map (map lo) C) = map lo (concat C)) by (symmetry; apply concat_map). rewrite ECC in IS.
  assert (CA : all_arcs (map (map fst) C) = map fst (concat C)) by (unfold all_arcs; symmetry; apply concat_map).
  set (oa := first_arc al (mk m k)) in *. set (ob := first_arc bl k) in *.
  assert (ORG : forall j z, rd (concat C) j = Some z -> origin false a b oa ob (fst z) (fst (snd z)) (snd (snd z)) /\ fst (snd z) - oa <> -1 /\ snd (snd z) - ob <> -1 /\ 0 <= fst (snd z) /\ 0 <= snd (snd z)).
  { intros j z Hz. destruct (c_arc false a b _ _ PO j (lo z)) as (p & x & _ & _ & X & D1 & D2 & D3 & D4 & D5); [rewrite ECC, rd_map, Hz; reflexivity|]. inversion X as [i u i' v X1 X2 E1 E2 E3 E4|? ? Q|? ? Q]; [|discriminate|discriminate]. subst x.
    cbn [lo loc fst snd x_lab x_sc x_a x_b] in *. injection D4 as D6 D7. fold oa in D6. fold ob in D7. pose proof (rd_Some_bound _ _ _ X1). pose proof (rd_Some_bound _ _ _ X2). pose proof (off1_nonneg (map all_arcs al) (mk m k)). pose proof (off1_nonneg (map all_arcs bl) k). unfold first_arc in oa, ob. fold oa in H4. fold ob in H5.
    split; [|lia]. left. exists u, v. rewrite D6, D7. repeat split; auto; congruence. }
  split; [auto|]. split; [intros [X|X]; rewrite X in *; [destruct Va as (_ & V & _)|destruct Vb as (_ & V & _)]; unfold nstates in V; change (zlen []) with 0 in V; lia|]. split; [|split; [|split]].
  - revert IS. apply is_int_ext. intros q (_ & Q). pose proof (apath_pos _ _ _ _ Q) as PQ. rewrite CA, zlen_map in PQ.
    split; apply proj_ext; intros j Hj; destruct (rd_in_bound (concat C) j (PQ j Hj)) as (z & Hz); destruct (ORG j z Hz) as (_ & O1 & O2 & O3 & O4); rewrite Z.add_0_l, !rd_map, Hz, (RC j z Hz); cbn [option_map lo loc fst snd]; do 2 eexists; (split; [reflexivity|]); (split; [reflexivity|]); right; fold oa; fold ob; lia.
  - intros j u Hu. rewrite CA, rd_map in Hu. destruct (rd (concat C) j) as [z|] eqn:Hz; [|discriminate]. injection Hu as <-. rewrite !rd_map, (RC j z Hz). do 2 eexists. split; [reflexivity|]. split; [reflexivity|]. apply (ORG j z Hz).
  - intros s Hs. rewrite CA. apply (pair_reach al bl m HA HB Hm1 Hm2 ord Ho Hn BB pl d I0 k Kk C); [exact EC|]. destruct PO as (_ & _ & _ & _ & ZCF & _). unfold St in ZCF. rewrite !zlen_map in ZCF. unfold final, nstates in Hs. rewrite zlen_map in Hs. lia.
  - intros _. rewrite H0, H1. exact (pair_numbered al bl m HA HB Hm1 Hm2 ord Ho Hn BB pl d I0 k Kk C EC).
Qed.

(** C59.  FSA k of the result is the intersection of FSA k of the second batch and
    the FSA of the first batch that b_to_a_map gives; epsilons are ordinary
    labels; the two arc maps give the paths.  All states but the final one can be
    reached from the start.  [sorted] is sorted_match_a. *)
Theorem C59_intersect_device : forall fuel ord sorted al bl m, fair ord -> bl <> [] ->
  (forall a, In a al -> input a) -> (forall b, In b bl -> input b) -> (sorted = true -> forall a, In a al -> p_arcsorted a) ->
  zlen m = zlen bl -> (forall i, In i m -> 0 <= i < zlen al) -> pairs_of_states al bl m + 2 <= Z.of_nat fuel ->
  exists cl ma mb, intersect_device fuel ord sorted (flat_vec al) (flat_vec bl) m = Some (flat_vec cl, ma, mb) /\
    zlen cl = zlen bl /\ zlen ma = zlen (concat (concat cl)) /\ zlen mb = zlen (concat (concat cl)) /\
    forall k ia a b c, rd m k = Some ia -> rd al ia = Some a -> rd bl k = Some b -> rd cl k = Some c ->
      let oa := first_arc al ia in let ob := first_arc bl k in let oc := first_arc cl k in
      (a <> [] /\ b <> [] -> valid c) /\ (a = [] \/ b = [] -> c = []) /\
      is_intersection false a b c (proj ma oc oa) (proj mb oc ob) /\
      (forall j u, rd (all_arcs c) j = Some u -> exists i i', rd ma (oc + j) = Some i /\ rd mb (oc + j) = Some i' /\ origin false a b oa ob u i i') /\
      (forall s, 0 <= s < final c -> exists p, path (all_arcs c) 0 p s).
Proof.
  intros fuel ord sorted al bl m H1 H2 H3 H4 H5 H6 H7 H8. destruct (device_full fuel ord sorted al bl m H1 H2 H3 H4 H5 H6 H7 H8) as (cl & ma & mb & E1 & E2 & E3 & E4 & E5). exists cl, ma, mb. do 4 (split; [assumption|]).
  intros k ia a b c K1 K2 K3 K4. destruct (E5 k ia a b c K1 K2 K3 K4) as (A1 & A2 & A3 & A4 & A5 & _). repeat (split; [assumption|]). assumption.
Qed.
Print Assumptions C59_intersect_device.

(** In terms of strings *)
Theorem C59_language : forall fuel ord sorted al bl m, fair ord -> bl <> [] ->
  (forall a, In a al -> input a) -> (forall b, In b bl -> input b) -> (sorted = true -> forall a, In a al -> p_arcsorted a) ->
  zlen m = zlen bl -> (forall i, In i m -> 0 <= i < zlen al) -> pairs_of_states al bl m + 2 <= Z.of_nat fuel ->
  exists cl ma mb, intersect_device fuel ord sorted (flat_vec al) (flat_vec bl) m = Some (flat_vec cl, ma, mb) /\ zlen cl = zlen bl /\
    forall k ia a b c, rd m k = Some ia -> rd al ia = Some a -> rd bl k = Some b -> rd cl k = Some c ->
      forall w s, accepts c w s <-> exists s1 s2, accepts a w s1 /\ accepts b w s2 /\ s = s1 + s2.
Proof.
  intros fuel ord sorted al bl m H1 H2 H3 H4 H5 H6 H7 H8. destruct (C59_intersect_device fuel ord sorted al bl m H1 H2 H3 H4 H5 H6 H7 H8) as (cl & ma & mb & E & Z & _ & _ & K).
  exists cl, ma, mb. split; auto. split; auto. intros k ia a b c Hk Ha Hb Hc. destruct (K k ia a b c Hk Ha Hb Hc) as (_ & _ & I & _). exact (int_language false a b c _ _ I).
Qed.
Print Assumptions C59_language.

(** What is refused: a map of the wrong length, an FSA number that is too large,
    an empty batch, and with sorted_match_a an FSA that is not arc-sorted. *)
Theorem C59_refused : forall fuel ord sorted al bl m, fair ord -> (forall a, In a al -> int32_labels a) -> zlen al < 2 ^ 32 ->
  zlen m <> zlen bl \/ (exists i, In i m /\ zlen al <= i < 2 ^ 31) \/ (bl = [] /\ zlen al <= 2 ^ 31) \/ (sorted = true /\ exists a, In a al /\ ~ p_arcsorted a) ->
  (forall i, In i m -> i < 2 ^ 31) -> intersect_device fuel ord sorted (flat_vec al) (flat_vec bl) m = None.
Proof.
  intros fuel ord sorted al bl m Ho La Za H Hi. unfold intersect_device. destruct (py_properties _ (flat_vec al)) as [pa|] eqn:EA; [|reflexivity]. destruct (py_properties _ (flat_vec bl)) as [pb|]; [|reflexivity].
  destruct (negb (sorted && (Z.land pa kArcSorted =? 0))) eqn:E1; [|reflexivity]. destruct (zlen m =? zlen (v_rs1 (flat_vec bl)) - 1) eqn:E2; [|reflexivity]. destruct (u32 (fold_right Z.max (- 2 ^ 31) m) <? zlen (v_rs1 (flat_vec al)) - 1) eqn:E3; [|reflexivity]. exfalso.
  cbn [flat_vec v_rs1] in E2, E3. rewrite zlen_splits_of in E2, E3. destruct H as [H|[(i & I1 & I2)|[(-> & I2)|(-> & a & I1 & I2)]]].
  - lia.
  - assert (G : i <= fold_right Z.max (- 2 ^ 31) m < 2 ^ 31). { clear -I1 Hi. split; [clear Hi; induction m as [|x m IH]; [destruct I1|]; cbn [fold_right]; destruct I1 as [->|I1]; [lia|specialize (IH I1); lia]|]. clear I1. induction m as [|x m IH]; [cbn; lia|]. cbn [fold_right]. pose proof (Hi x (or_introl eq_refl)). specialize (IH (fun y Hy => Hi y (or_intror Hy))). lia. }
    pose proof (zlen_nonneg al). unfold u32 in E3. rewrite Z.mod_small in E3 by lia. lia.
  - change (zlen []) with 0 in E2. assert (m = []) as -> by (apply zlen_0_nil; lia). cbn [fold_right] in E3. change (u32 (- 2 ^ 31)) with (2 ^ 31) in E3. lia.
  - unfold py_properties in EA. destruct (props_sorted (ord (zlen (v_arcs (flat_vec al)))) al (Ho _) La) as (q & E' & S). rewrite E' in EA. destruct (Z.land (snd q) kValid =? 1); [|discriminate]. injection EA as <-. apply I2. apply S; auto.
Qed.
Print Assumptions C59_refused.

(** A batch with an FSA that is used twice, a cycle and an empty FSA *)
Definition c59_a0 : nfsa := [[mkArc 0 0 3 1; mkArc 0 1 4 2]; [mkArc 1 2 (-1) 5]; []].
Definition c59_b0 : nfsa := [[mkArc 0 1 3 10; mkArc 0 0 4 7]; [mkArc 1 0 3 20; mkArc 1 2 4 30]; [mkArc 2 3 (-1) 40]; []].
Definition c59_b2 : nfsa := [[mkArc 0 1 4 100]; [mkArc 1 2 (-1) 200]; []].
Definition c59_al : list nfsa := [[]; c59_a0].
Definition c59_bl : list nfsa := [c59_b0; c59_b0; c59_b2].
Definition c59_m : list Z := [1; 0; 1].
Example C59_ex :
  fair zrange /\ c59_bl <> [] /\ (forall a, In a c59_al -> input a) /\ (forall b, In b c59_bl -> input b) /\ (forall a, In a c59_al -> p_arcsorted a) /\
  zlen c59_m = zlen c59_bl /\ (forall i, In i c59_m -> 0 <= i < zlen c59_al) /\ pairs_of_states c59_al c59_bl c59_m + 2 <= Z.of_nat 23 /\
  intersect_device 23 zrange true (flat_vec c59_al) (flat_vec c59_bl) c59_m =
    Some (flat_vec [[[mkArc 0 1 3 11; mkArc 0 2 4 9]; [mkArc 1 3 3 21; mkArc 1 4 4 32]; []; [mkArc 3 1 3 11; mkArc 3 2 4 9]; [mkArc 4 5 (-1) 45]; []];
                    []; [[mkArc 0 1 4 102]; [mkArc 1 2 (-1) 205]; []]], [0; 1; 0; 1; 0; 1; 2; 1; 2], [0; 1; 2; 3; 0; 1; 4; 10; 11]) /\
  (exists r, intersect_device 23 (fun n => rev (zrange n)) false (flat_vec c59_al) (flat_vec c59_bl) c59_m = Some r).
Proof.
  assert (V1 : valid c59_a0) by (apply FsaLemmas.validb_ok; reflexivity). assert (V2 : valid c59_b0) by (apply FsaLemmas.validb_ok; reflexivity). assert (V3 : valid c59_b2) by (apply FsaLemmas.validb_ok; reflexivity).
  split; [intros n; apply is_sched_zrange|]. split; [discriminate|].
  split; [intros a [<-|[<-|[]]]; split; auto; [intros u []|intros u [<-|[<-|[<-|[]]]]; cbn; lia]|].
  split; [intros b [<-|[<-|[<-|[]]]]; split; auto; [intros u [<-|[<-|[<-|[<-|[<-|[]]]]]]; cbn; lia|intros u [<-|[<-|[<-|[<-|[<-|[]]]]]]; cbn; lia|intros u [<-|[<-|[]]]; cbn; lia]|].
  split; [intros a [<-|[<-|[]]]; [intros st []|intros st [<-|[<-|[<-|[]]]]; repeat constructor; left; vm_compute; reflexivity]|].
  split; [reflexivity|]. split; [intros i [<-|[<-|[<-|[]]]]; split; vm_compute; congruence|]. split; [vm_compute; discriminate|]. split; [vm_compute; reflexivity|]. eexists. vm_compute. reflexivity.
Qed.
