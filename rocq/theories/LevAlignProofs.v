(** * Proofs: levenshtein_alignment *)
From Coq Require Import ZArith List Lia Lra Bool Reals.
From Coq Require Import ZifyBool.
From Verif Require Import Base RaggedModel RaggedSpec RaggedProofs RaggedOpsModel RaggedOpsProofs OpsModel FsaSpec FsaLemmas PropsSpec ConnectSpec ConnectModel ConnectProofs BatchModel LogReal FsaOpsModel GraphModel FstSpec GraphProofs LevProofs GraphProps
  ScoreModel ScoreSpec ShortestModel ShortestSpec ShortestProps IntersectSpec IntersectPaths IntersectProps ComposeProps UnionEpsProps PropsProps IDevModel IDevPair IDevProps LevOrder LevAlignModel LevAlignSpec LevCols.
From Verif Require Import SelectProofs.
Import ListNotations.
Open Scope Z_scope.

Lemma zsum_cons x l : zsum (x :: l) = x + zsum l. Proof. reflexivity. Qed.
Notation tl := (arc * (Z * Z))%type.
Notation latarc := (arc * (tl * tl))%type.
Definition tx (z : latarc) : tl := fst (snd z).
Definition ty (z : latarc) : tl := snd (snd z).
Definition keep (z : latarc) : bool := negb (is_eps_self_loop (fst z)).

Lemma arcs_at_tag {B} (T : list (list (arc * B))) q tq : mapM (rd (concat T)) q = Some tq -> arcs_at (map (map fst) T) q = map fst tq.
Proof.
  revert tq. induction q as [|j q IH]; intros tq E; [injection E as <-; reflexivity|]. cbn [mapM] in E. destruct (rd (concat T) j) as [z|] eqn:Hz; [|discriminate]. destruct (mapM (rd (concat T)) q) as [tq'|] eqn:E'; [|discriminate]. injection E as <-.
  unfold arcs_at in *. cbn [flat_map]. rewrite all_arcs_map, rd_map, Hz. cbn [option_map map]. rewrite <- (IH tq' eq_refl). rewrite all_arcs_map. reflexivity.
Qed.
Lemma tag_pos {B} (T : list (list (arc * B))) s p t : tpath (concat T) s p t <-> exists q, apath (map (map fst) T) s q t /\ mapM (rd (concat T)) q = Some p.
Proof.
  apply tpath_pos; [now rewrite all_arcs_map, zlen_map|]. intros i u z H1 H2. rewrite all_arcs_map, rd_map, H2 in H1. injection H1 as <-. auto.
Qed.
Lemma filter_tpath (P : latarc -> bool) T : (forall z, In z T -> P z = false -> src (fst z) = dst (fst z)) -> forall s p t, tpath T s p t -> tpath (filter P T) s (filter P p) t.
Proof.
  intros H s p t. induction 1 as [s|z p t Hz Hp IH]; [constructor|]. cbn [filter]. destruct (P z) eqn:E; [constructor; auto; apply filter_In; auto|]. now rewrite (H z Hz E).
Qed.
Lemma filter_tscore (P : latarc -> bool) p : (forall z, In z p -> P z = false -> sc (fst z) <= 0) -> tscore p <= tscore (filter P p).
Proof.
  induction p as [|z p IH]; intros H; [cbn; lia|]. unfold tscore in *. cbn [filter]. specialize (IH (fun z Hz => H z (or_intror Hz))). specialize (H z (or_introl eq_refl)). destruct (P z); cbn [map]; rewrite ?zsum_cons; [lia|]. specialize (H eq_refl). lia.
Qed.

(** ** One pair *)
Section Pair.
Variables h d : Z.
Variables ref hyp : list Z.
Hypothesis Hh : 0 < h.
Hypothesis Hd : d < 0.
Hypothesis FR : Forall (fun a => 1 <= a) ref.
Hypothesis FY : Forall (fun a => 1 <= a) hyp.
Let G := lev_nested h d ref.
Let H := lev_nested h d hyp.
Variables ma mb : list Z.
Variables oc oa ob : Z.
Hypothesis OA : 0 <= oa.
Hypothesis OB : 0 <= ob.
Variable TL : list (list latarc).
Hypothesis NE : 0 < zlen TL.
Let c := map (map fst) TL.
Hypothesis IS : is_intersection false (map (map fst) G) (map (map fst) H) c (proj ma oc oa) (proj mb oc ob).
Hypothesis TG : forall j z, rd (concat TL) j = Some z -> exists i i', rd ma (oc + j) = Some i /\ rd mb (oc + j) = Some i' /\ rd (concat G) (i - oa) = Some (tx z) /\ rd (concat H) (i' - ob) = Some (ty z) /\
  lab (fst z) = lab (fst (tx z)) /\ lab (fst z) = lab (fst (ty z)) /\ sc (fst z) = sc (fst (tx z)) + sc (fst (ty z)).

Lemma proj_tags q tq : mapM (rd (concat TL)) q = Some tq -> mapM (rd (concat G)) (proj ma oc oa q) = Some (map tx tq) /\ mapM (rd (concat H)) (proj mb oc ob q) = Some (map ty tq).
Proof.
  revert tq. induction q as [|j q IH]; intros tq E; [injection E as <-; split; reflexivity|]. cbn [mapM] in E. destruct (rd (concat TL) j) as [z|] eqn:Hz; [|discriminate]. destruct (mapM (rd (concat TL)) q) as [tq'|] eqn:E'; [|discriminate]. injection E as <-.
  destruct (IH tq' eq_refl) as (I1 & I2). destruct (TG j z Hz) as (i & i' & T1 & T2 & T3 & T4 & _). pose proof (rd_Some_bound _ _ _ T3). pose proof (rd_Some_bound _ _ _ T4).
  unfold proj in *. cbn [flat_map]. rewrite T1, T2. replace (i =? -1) with false by lia. replace (i' =? -1) with false by lia. cbn [app mapM map]. rewrite T3, T4, I1, I2. auto.
Qed.
Lemma tag_facts z : In z (concat TL) -> In (tx z) (concat G) /\ In (ty z) (concat H) /\ lab (fst z) = lab (fst (tx z)) /\ lab (fst z) = lab (fst (ty z)) /\ sc (fst z) = sc (fst (tx z)) + sc (fst (ty z)).
Proof. intros Hz. apply In_rd in Hz as (j & _ & Hz). destruct (TG j z Hz) as (i & i' & _ & _ & T3 & T4 & T5). split; [exact (rd_In _ _ _ T3)|split; [exact (rd_In _ _ _ T4)|exact T5]]. Qed.
Lemma tag_sums tq : (forall z, In z tq -> In z (concat TL)) -> ilabels tq = ilabels (map tx tq) /\ ilabels tq = ilabels (map ty tq) /\ tscore tq = tscore (map tx tq) + tscore (map ty tq).
Proof.
  induction tq as [|z tq IH]; intros Hz; [auto|]. destruct (IH (fun z Hz' => Hz z (or_intror Hz'))) as (I1 & I2 & I3). destruct (tag_facts z (Hz z (or_introl eq_refl))) as (_ & _ & T1 & T2 & T3). unfold ilabels, tscore in *. cbn [map]. rewrite !zsum_cons. split; [congruence|split; [congruence|lia]].
Qed.
Lemma c_to_joint tq : tpath (concat TL) 0 tq (zlen TL - 1) -> joint G H (map tx tq) (map ty tq).
Proof.
  intros P. pose proof (tpath_in _ _ _ _ P) as IN. destruct (proj1 (tag_pos TL 0 tq (zlen TL - 1)) P) as (q & A & E). destruct IS as (I1 & _ & _). destruct (I1 q) as ((S1 & A1) & (S2 & A2) & _ & _ & _); [split; unfold nstates, c; rewrite zlen_map; auto|].
  destruct (proj_tags q tq E) as (E1 & E2). unfold nstates in *. rewrite zlen_map in A1, A2. destruct (tag_sums tq IN) as (L1 & L2 & _). split; [apply tag_pos; eauto|split; [apply tag_pos; eauto|congruence]].
Qed.
Lemma joint_to_c xs ys : joint G H xs ys -> exists tq, tpath (concat TL) 0 tq (zlen TL - 1) /\ map tx tq = xs /\ map ty tq = ys.
Proof.
  intros (P1 & P2 & L). assert (NG : 0 < zlen G) by (unfold G; rewrite zlen_lev; pose proof (zlen_nonneg ref); lia). assert (NH : 0 < zlen H) by (unfold H; rewrite zlen_lev; pose proof (zlen_nonneg hyp); lia).
  apply tag_pos in P1 as (p1 & A1 & E1). apply tag_pos in P2 as (p2 & A2 & E2). destruct IS as (_ & I2 & _). destruct (I2 p1 p2) as (q & (_ & A) & Q1 & Q2).
  - split; unfold nstates; rewrite zlen_map; auto.
  - split; unfold nstates; rewrite zlen_map; auto.
  - unfold same_labels. rewrite (arcs_at_tag _ _ _ E1), (arcs_at_tag _ _ _ E2). unfold labels. rewrite !map_map. exact L.
  - unfold nstates, c in A. rewrite zlen_map in A. destruct (mapM_total (concat TL) q) as (tq & E). { intros j Hj. pose proof (apath_pos _ _ _ _ A j Hj) as B. rewrite all_arcs_map, zlen_map in B. exact B. }
    exists tq. split; [apply tag_pos; eauto|]. destruct (proj_tags q tq E) as (F1 & F2). rewrite Q1, E1 in F1. rewrite Q2, E2 in F2. split; congruence.
Qed.
(** the epsilon self-loops are taken out *)
Let TL' := map (filter keep) TL.
Lemma TL'_concat : concat TL' = filter keep (concat TL).
Proof. unfold TL'. now rewrite SelectProofs.filter_concat. Qed.
Lemma loops_low z : In z (concat TL) -> keep z = false -> src (fst z) = dst (fst z) /\ sc (fst z) <= 0.
Proof.
  intros Hz K. unfold keep, is_eps_self_loop in K. assert (L : lab (fst z) = 0 /\ src (fst z) = dst (fst z)) by lia. split; [apply L|]. destruct L as (L & _). destruct (tag_facts z Hz) as (T1 & T2 & T3 & T4 & T5).
  assert (X : forall syms b, Forall (fun a => 1 <= a) syms -> In b (concat (lev_nested h d syms)) -> lab (fst b) = 0 -> sc (fst b) <= 0).
  { intros syms b FS Hb L0. apply lev_in in Hb as (s & Hs & [->|[(_ & ->)|(a & Ha & B)]]); [cbn; lia|cbn; lia|]. rewrite Forall_forall in FS. specialize (FS a (rd_In _ _ _ Ha)). destruct B as [->| ->]; cbn in *; lia. }
  pose proof (X ref _ FR T1 ltac:(lia)). pose proof (X hyp _ FY T2 ltac:(lia)). lia.
Qed.
Lemma zlen_TL' : zlen TL' = zlen TL.
Proof. apply zlen_map. Qed.

Variable u : R.
Hypothesis Hu : (0 < u)%R.
Variable w : Z -> option R.
Hypothesis Hw : forall j z, rd (concat TL') j = Some z -> w j = Some (u * IZR (sc (fst z)))%R.
Let c' := map (map fst) TL'.
Lemma pweight_tags p tq : mapM (rd (concat TL')) p = Some tq -> pweight w p = Some (u * IZR (tscore tq))%R.
Proof.
  revert tq. induction p as [|j p IH]; intros tq E; [injection E as <-; cbn; unfold lzero; f_equal; lra|]. cbn [mapM] in E. destruct (rd (concat TL') j) as [z|] eqn:Hz; [|discriminate]. destruct (mapM (rd (concat TL')) p) as [tq'|] eqn:E'; [|discriminate]. injection E as <-.
  cbn [pweight fold_right]. unfold pweight in IH. rewrite (IH tq' eq_refl), (Hw j z Hz). unfold tscore. cbn [map ladd]. rewrite zsum_cons, plus_IZR. f_equal. lra.
Qed.
Lemma succ_tags p : successful c' p -> exists tq, mapM (rd (concat TL')) p = Some tq /\ tpath (concat TL') 0 tq (zlen TL - 1).
Proof.
  intros (_ & A). unfold nstates, c' in A. rewrite zlen_map, zlen_TL' in A. destruct (mapM_total (concat TL') p) as (tq & E). { intros j Hj. pose proof (apath_pos _ _ _ _ A j Hj) as B. rewrite all_arcs_map, zlen_map in B. exact B. }
  exists tq. split; auto. apply tag_pos; eauto.
Qed.
Lemma tags_succ tq : tpath (concat TL') 0 tq (zlen TL - 1) -> exists p, mapM (rd (concat TL')) p = Some tq /\ successful c' p.
Proof. intros P. apply tag_pos in P as (q & A & E). exists q. split; auto. split; unfold nstates, c'; rewrite zlen_map, zlen_TL'; auto. Qed.
Lemma drop_loops tq : tpath (concat TL) 0 tq (zlen TL - 1) -> tpath (concat TL') 0 (filter keep tq) (zlen TL - 1) /\ tscore tq <= tscore (filter keep tq).
Proof.
  intros P. pose proof (tpath_in _ _ _ _ P) as IN. rewrite TL'_concat. split; [apply filter_tpath; auto; intros; now apply loops_low|apply filter_tscore; intros; apply loops_low; auto].
Qed.
Lemma some_path : exists p, successful c' p /\ pweight w p <> None.
Proof.
  destruct (lev_pair h d ref hyp ltac:(lia) ltac:(lia) FR FY) as (_ & xs & ys & J & _). destruct (joint_to_c xs ys J) as (tq & P & _). destruct (drop_loops tq P) as (P' & _). destruct (tags_succ _ P') as (p & E & S1). exists p. split; auto. rewrite (pweight_tags p _ E). discriminate.
Qed.
Lemma best_tags p : best_path c' w p -> exists tq, mapM (rd (concat TL')) p = Some tq /\ best_joint G H (map tx tq) (map ty tq) /\
  forall z, In z tq -> lab (fst z) = lab (fst (tx z)) /\ sc (fst z) = sc (fst (tx z)) + sc (fst (ty z)).
Proof.
  intros (S1 & x & W & B). destruct (succ_tags p S1) as (tq & E & P). exists tq. split; auto. rewrite (pweight_tags p tq E) in W. injection W as <-.
  assert (P0 : tpath (concat TL) 0 tq (zlen TL - 1)). { revert P. apply tpath_incl. intros z. rewrite TL'_concat. intros Hz. apply filter_In in Hz. tauto. }
  pose proof (tpath_in _ _ _ _ P0) as IN. destruct (tag_sums tq IN) as (_ & _ & TS). split.
  - split; [now apply c_to_joint|]. intros xs ys J. destruct (joint_to_c xs ys J) as (tq' & P' & <- & <-). destruct (tag_sums tq' (tpath_in _ _ _ _ P')) as (_ & _ & TS'). destruct (drop_loops tq' P') as (P'' & LE).
    destruct (tags_succ _ P'') as (p' & E' & S'). specialize (B p' _ S' (pweight_tags p' _ E')). apply (Rmult_le_reg_l u _ _ Hu) in B. apply le_IZR in B. lia.
  - intros z Hz. destruct (tag_facts z (IN z Hz)) as (_ & _ & T1 & _ & T3). auto.
Qed.
End Pair.

(** ** The batch *)
Lemma pos3 {A} (ll : list (list (list A))) p x : rd (concat (concat ll)) p = Some x -> exists k f j, rd ll k = Some f /\ rd (concat f) j = Some x /\ p = off1 (map (@concat A) ll) k + j.
Proof.
  rewrite <- concat_map_concat. intros H. destruct (rd_concat_inv _ _ _ H) as (k & f & j & H1 & H2 & H3 & H4). rewrite rd_map in H1. destruct (rd ll k) as [f'|] eqn:E; [|discriminate]. injection H1 as <-. exists k, f', j. auto.
Qed.
Lemma at3 {A} (ll : list (list (list A))) k f j x : rd ll k = Some f -> rd (concat f) j = Some x -> rd (concat (concat ll)) (off1 (map (@concat A) ll) k + j) = Some x.
Proof. intros H1 H2. rewrite <- concat_map_concat. apply (rd_concat_off (map (@concat A) ll) k (concat f)); auto. now rewrite rd_map, H1. Qed.

Lemma lev_arcsorted h d syms : Forall (fun a => 1 <= a) syms -> p_arcsorted (map (map fst) (lev_nested h d syms)).
Proof.
  intros H st Hs. apply in_map_iff in Hs as (row & <- & Hr). apply In_rd in Hr as (s & Bs & Hr). rewrite zlen_lev in Bs. unfold lev_nested in Hr. rewrite rd_tab in Hr by exact Bs. injection Hr as <-.
  unfold lev_state. destruct (s =? zlen syms + 1) eqn:E1; [constructor|]. destruct (s =? zlen syms) eqn:E2; cbn [map fst].
  - constructor; [repeat constructor|]. constructor; [|constructor]. unfold arc_le, label_lt, label_key. cbn [lab]. left. reflexivity.
  - assert (A : 1 <= at_or syms s). { unfold at_or. destruct (rd_in_bound syms s) as (x & E); [lia|]. rewrite E. rewrite Forall_forall in H. apply H. eapply rd_In; eauto. }
    assert (K : (if at_or syms s <? 0 then at_or syms s + 2 ^ 32 else at_or syms s) = at_or syms s) by (destruct (at_or syms s <? 0) eqn:E; [lia|auto]).
    assert (X1 : arc_le (mkArc s s 0 d) (mkArc s (s + 1) 0 (- h))). { right. split; [reflexivity|]. exact (Z.le_succ_diag_r s). }
    assert (X2 : forall a b q e, arc_le (mkArc a b 0 q) (mkArc s (s + 1) (at_or syms s) e)). { intros. left. unfold label_lt, label_key. cbn [lab]. rewrite K. change (0 <? 0) with false. cbv iota. lia. }
    constructor; [|constructor; [exact X1|constructor; [apply X2|constructor]]]. constructor; [|constructor; [apply X2|constructor]]. constructor; constructor.
Qed.
Lemma lev_input h d syms : Forall (fun a => 1 <= a < 2 ^ 31) syms -> input (map (map fst) (lev_nested h d syms)).
Proof.
  intros H. split; [right; apply lev_valid; revert H; apply Forall_impl; intros; lia|]. intros a Ha. rewrite all_arcs_map in Ha. apply in_map_iff in Ha as (b & <- & Hb). apply lev_in in Hb as (s & Hs & [->|[(_ & ->)|(c & Hc & B)]]); [cbn; lia|cbn; lia|].
  rewrite Forall_forall in H. specialize (H c (rd_In _ _ _ Hc)). destruct B as [->| ->]; cbn; lia.
Qed.

(** ** Size of the lattice *)
Lemma NoDup_map_in {A B} (f : A -> B) l : NoDup l -> (forall x y, In x l -> In y l -> f x = f y -> x = y) -> NoDup (map f l).
Proof.
  induction l as [|x l IH]; intros N H; [constructor|]. inversion N; subst. cbn [map]. constructor; [|apply IH; auto; intros; apply H; auto; now right].
  intros I. apply in_map_iff in I as (y & E & Hy). assert (y = x) by (apply H; auto; [now right|now left]). subst. contradiction.
Qed.
Lemma numbered_size a b c n m : lev_like a n -> lev_like b m -> 2 <= zlen c -> numbered a b c -> zlen c <= (n + 2) * (m + 2).
Proof.
  intros (_ & N0 & A1 & _) (_ & M0 & B1 & _) C2 (St & lv & Cr & N1 & _ & _ & _ & _ & N6 & _ & N8 & _).
  set (g := fun p => match rd St (p + 1) with Some s => s | None => (0, 0) end). set (k := zlen c - 2).
  assert (GP : forall p, 0 <= p < k -> rd St (p + 1) = Some (g p) /\ 0 <= fst (g p) < n + 1 /\ 0 <= snd (g p) < m + 1).
  { intros p Hp. destruct (N8 (p + 1) ltac:(lia)) as (w & s & x & y & _ & _ & _ & X1 & X2 & _ & _ & X5 & X6 & X7 & _). unfold g. rewrite X7. split; auto. cbn [fst snd]. destruct (A1 x (rd_In _ _ _ X1)) as (Q1 & Q2 & Q3). destruct (B1 y (rd_In _ _ _ X2)) as (R1 & R2 & R3). lia. }
  assert (ND : NoDup (map g (zrange k))).
  { apply NoDup_map_in; [apply NoDup_zrange|]. intros x y Hx Hy E. apply in_zrange in Hx, Hy. destruct (GP x Hx) as (G1 & _). destruct (GP y Hy) as (G2 & _). rewrite E in G1. pose proof (N6 (x + 1) (y + 1) (g y) ltac:(lia) ltac:(lia) ltac:(lia) ltac:(lia) G1 G2). lia. }
  assert (LE : (length (map g (zrange k)) <= length (list_prod (zrange (n + 1)) (zrange (m + 1))))%nat).
  { apply NoDup_incl_length; auto. intros s Hs. apply in_map_iff in Hs as (p & <- & Hp). apply in_zrange in Hp. destruct (GP p Hp) as (_ & G1 & G2). rewrite (surjective_pairing (g p)). apply in_prod; apply in_zrange; lia. }
  rewrite map_length, prod_length in LE. pose proof (zlen_zrange k ltac:(lia)) as Z1. pose proof (zlen_zrange (n + 1) ltac:(lia)) as Z2. pose proof (zlen_zrange (m + 1) ltac:(lia)) as Z3. unfold zlen in Z1, Z2, Z3. apply inj_le in LE. rewrite Nat2Z.inj_mul, Z1, Z2, Z3 in LE. nia.
Qed.
Lemma zsum_le_rd (a b : list Z) : zlen a = zlen b -> (forall k x y, rd a k = Some x -> rd b k = Some y -> x <= y) -> zsum a <= zsum b.
Proof.
  revert b. induction a as [|x a IH]; intros [|y b] L H; [cbn; lia|rewrite zlen_nil, zlen_cons in L; pose proof (zlen_nonneg b); lia|rewrite zlen_nil, zlen_cons in L; pose proof (zlen_nonneg a); lia|]. rewrite !zsum_cons. rewrite !zlen_cons in L.
  assert (x <= y) by (apply (H 0); reflexivity). assert (zsum a <= zsum b); [|lia]. apply IH; [lia|]. intros k u v Hu Hv. pose proof (rd_Some_bound _ _ _ Hu). apply (H (k + 1)); rewrite rd_cons; replace (k + 1 =? 0) with false by lia; replace (k + 1 - 1) with k by lia; auto.
Qed.

(** ** Removing the loops *)
Lemma remove_tags (sched : list Z) (TLs : list (list (list latarc))) : is_sched (zlen (concat (concat TLs)) + 1) sched ->
  exists ids, remove_eps_loops sched (flat_vec (map (map (map fst)) TLs)) = Some (mkVOut (flat_vec (map (map (map fst)) (map (map (filter keep)) TLs))) ids (kept_from 0 (map keep (concat (concat TLs))))).
Proof.
  intros HS. eexists. rewrite !flat_vec_map. unfold remove_eps_loops. cbn [v_rs1 v_rs2 v_arcs]. rewrite map_map. fold keep. change (fun x => negb (is_eps_self_loop (fst x))) with keep. rewrite new2old_kept by (now rewrite zlen_map).
  rewrite zlen_map, row_ids_of_splits, zlen_splits_of. replace (zlen (concat TLs) + 1 - 1) with (zlen (concat TLs)) by lia. rewrite index_last_filter. cbn [fst snd]. rewrite mapM_rd_map, gather_filter. cbn [option_map].
  assert (EC : concat (map (map (filter keep)) TLs) = map (filter keep) (concat TLs)) by now rewrite concat_map. rewrite EC, <- SelectProofs.filter_concat, splits_map. reflexivity.
Qed.

(** ** The best paths *)
Lemma choose {X} n (P : Z -> X -> Prop) : 0 <= n -> (forall k, 0 <= k < n -> exists x, P k x) -> exists l, zlen l = n /\ forall k x, rd l k = Some x -> P k x.
Proof.
  intros Hn. revert P. pattern n. apply natlike_ind; auto; clear n Hn.
  - intros P _. exists []. split; [reflexivity|]. intros k x Hx. rewrite rd_nil in Hx. discriminate.
  - intros n Hn IH P H. destruct (H 0 ltac:(lia)) as (x0 & H0). destruct (IH (fun k => P (k + 1))) as (l & L1 & L2). { intros k Hk. apply H. lia. }
    exists (x0 :: l). split; [rewrite zlen_cons; lia|]. intros k x Hx. rewrite rd_cons in Hx. destruct (k =? 0) eqn:E; [assert (k = 0) by lia; subst; congruence|]. specialize (L2 _ _ Hx). now replace (k - 1 + 1) with k in L2 by lia.
Qed.
Lemma combine_map2 {A B C} (f : A -> B) (g : A -> C) l : combine (map f l) (map g l) = map (fun z => (f z, g z)) l.
Proof. induction l as [|z l IH]; [reflexivity|]. cbn. now rewrite IH. Qed.
Lemma imap_map2 {A B C} (f : Z -> B -> C) (g : A -> B) l : forall k, imap f k (map g l) = imap (fun i z => f i (g z)) k l.
Proof. induction l as [|z l IH]; intros k; [reflexivity|]. cbn. now rewrite IH. Qed.
Lemma map_imap2 {A B C} (f : Z -> A -> B) (g : B -> C) l : forall k, map g (imap f k l) = imap (fun i z => g (f i z)) k l.
Proof. induction l as [|z l IH]; intros k; [reflexivity|]. cbn. now rewrite IH. Qed.
Lemma imap_ext2 {A B} (f g : Z -> A -> B) l : (forall i z, In z l -> f i z = g i z) -> forall k, imap f k l = imap g k l.
Proof. induction l as [|z l IH]; intros H k; [reflexivity|]. cbn. rewrite (H k z (or_introl eq_refl)). f_equal. apply IH. intros; apply H; now right. Qed.

Definition colz (z : latarc) : col := colof (tx z, ty z).
Definition offz (z : latarc) : Z := snd (snd (tx z)) + snd (snd (ty z)).
Definition lin_tags (tq : list latarc) : list (list (arc * latarc)) := imap (fun i z => [(mkArc i (i + 1) (lab (fst z)) (sc (fst z)), z)]) 0 tq ++ [[]].
Definition upd (x : arc * latarc) : arc := mkArc (src (fst x)) (dst (fst x)) (lab (fst x)) (sc (fst x) - offz (snd x)).
Lemma lin_tags_fst tq : tq <> [] -> map (map fst) (lin_tags tq) = linear_of (map fst tq).
Proof.
  intros H. unfold lin_tags, linear_of. destruct tq as [|z tq]; [congruence|]. cbn [map]. rewrite map_app, map_imap2. change (fst z :: map fst tq) with (map fst (z :: tq)). rewrite imap_map2. reflexivity.
Qed.
Lemma lin_tags_snd tq : map snd (concat (lin_tags tq)) = tq.
Proof.
  unfold lin_tags. rewrite concat_app. cbn [concat app]. rewrite app_nil_r. generalize 0. induction tq as [|z tq IH]; intros k; [reflexivity|]. cbn. now rewrite IH.
Qed.
Lemma lin_tags_upd tq : (forall z, In z tq -> lab (fst z) = lab (fst (tx z)) /\ sc (fst z) = sc (fst (tx z)) + sc (fst (ty z))) -> map (map upd) (lin_tags tq) = alignment_fsa (map colz tq).
Proof.
  intros H. unfold lin_tags, alignment_fsa. rewrite map_app, map_imap2, imap_map2. f_equal. apply imap_ext2. intros i z Hz. destruct (H z Hz) as (E1 & E2). cbn [map]. unfold upd, colz, colof, offz. cbn [fst snd src dst lab sc c_lab c_sc]. now rewrite E1, E2.
Qed.
Lemma rd_lin_tags tq r st j x : rd (lin_tags tq) r = Some st -> rd st j = Some x -> rd tq r = Some (snd x) /\ dst (fst x) = r + 1.
Proof.
  intros H1 H2. unfold lin_tags in H1. pose proof (rd_Some_bound _ _ _ H1) as B. destruct (Z_lt_le_dec r (zlen tq)) as [L|L].
  - rewrite rd_app_l in H1 by (rewrite zlen_imap; lia). rewrite rd_imap in H1. destruct (rd tq r) as [z|] eqn:E; [|discriminate]. injection H1 as <-. rewrite rd_cons in H2. destruct (j =? 0); [|rewrite rd_nil in H2; discriminate]. injection H2 as <-. auto.
  - rewrite rd_app_r in H1 by (rewrite zlen_imap; lia). rewrite rd_cons in H1. destruct (_ =? 0); [injection H1 as <-; rewrite rd_nil in H2; discriminate|rewrite rd_nil in H1; discriminate].
Qed.
Lemma zlen_lin_tags tq : zlen (lin_tags tq) = zlen tq + 1.
Proof. unfold lin_tags. rewrite zlen_app, zlen_imap. reflexivity. Qed.
Lemma aligns_ref unit ref hyp cs : Forall (fun a => 1 <= a) ref -> aligns_best unit ref hyp cs -> forall r c, rd cs r = Some c -> (c_ref c = -1 <-> r = zlen cs - 1).
Proof.
  intros F (body & -> & S1 & _) r c Hc. rewrite zlen_app. change (zlen [mkCol (-1) (-1) (-1) 0]) with 1. pose proof (rd_Some_bound _ _ _ Hc) as B. rewrite zlen_app in B. change (zlen [mkCol (-1) (-1) (-1) 0]) with 1 in B. destruct (Z_lt_le_dec r (zlen body)) as [L|L].
  - rewrite rd_app_l in Hc by lia. split; [|lia]. intros E. exfalso. assert (I : In (-1) ref). { rewrite <- S1. unfold strip. apply filter_In. split; [rewrite <- E; apply in_map; exact (rd_In _ _ _ Hc)|reflexivity]. } rewrite Forall_forall in F. specialize (F _ I). lia.
  - rewrite rd_app_r in Hc by lia. rewrite rd_cons in Hc. destruct (r - zlen body =? 0) eqn:E; [|rewrite rd_nil in Hc; discriminate]. injection Hc as <-. cbn. lia.
Qed.
Lemma fix_lin (tqs : list (list latarc)) : (forall tq, In tq tqs -> forall r z, rd tq r = Some z -> (c_ref (colz z) = -1 <-> r = zlen tq - 1)) ->
  fix_final_vec (flat_vec (map (map (map fst)) (map lin_tags tqs))) (map (fun z => c_ref (colz z)) (concat tqs)) = Some (map (fun z => c_ref (colz z)) (concat tqs)).
Proof.
  intros HC. set (LTs := map lin_tags tqs). set (F := concat (concat LTs)).
  assert (EF : concat tqs = map snd F). { unfold F. rewrite <- concat_map_concat, concat_map, map_map. unfold LTs. rewrite map_map. f_equal. rewrite <- (map_id tqs) at 1. apply map_ext. intros tq. now rewrite lin_tags_snd. }
  rewrite EF, map_map. rewrite flat_vec_map. unfold fix_final_vec. cbn [v_rs1 v_rs2 v_arcs]. fold F. rewrite zlen_splits_of, zlen_map. replace (zlen (concat LTs) + 1 - 1) with (zlen (concat LTs)) by lia. unfold F at 1. rewrite !row_ids_of_splits.
  apply mapM_by_rd; [now rewrite zlen_map, zlen_zrange by apply zlen_nonneg|]. intros i i' Hi. pose proof (rd_Some_bound _ _ _ Hi) as Bi. rewrite zlen_zrange in Bi by apply zlen_nonneg. rewrite rd_zrange in Hi by auto. injection Hi as <-.
  destruct (rd_in_bound F i Bi) as (x & Hx). rewrite !rd_map, Hx. cbn [option_map]. destruct (rd_concat3 LTs i x Hx) as (k & f & r & stt & j & H1 & H2 & H3 & H4 & H5 & _). rewrite H4, H5. pose proof (rd_Some_bound _ _ _ H1).
  rewrite !rd_splits_off by lia. rewrite (off1_next LTs k f H1). unfold LTs in H1. rewrite rd_map in H1. destruct (rd tqs k) as [tq|] eqn:Ht; [|discriminate]. injection H1 as <-. destruct (rd_lin_tags tq r stt j x H2 H3) as (R1 & R2). rewrite R2, zlen_lin_tags. pose proof (HC tq (rd_In _ _ _ Ht) r _ R1) as C.
  fold LTs. destruct (r + 1 + off1 LTs k + 1 =? off1 LTs k + (zlen tq + 1)) eqn:E; destruct (c_ref (colz (snd x)) =? -1) eqn:E2; try reflexivity; [f_equal; lia|lia|lia].
Qed.

Section Batch.
Variables h d : Z.
Hypothesis Hh : 0 < h.
Hypothesis Hd : d < 0.
Variables refs hyps : list (list Z).
Hypothesis FR : Forall (Forall (fun a => 1 <= a < 2 ^ 31)) refs.
Hypothesis FY : Forall (Forall (fun a => 1 <= a < 2 ^ 31)) hyps.
Hypothesis NEH : hyps <> [].
Variable m : list Z.
Hypothesis Zm : zlen m = zlen hyps.
Hypothesis Bm : forall i, In i m -> 0 <= i < zlen refs.
Variable ord : Z -> list Z.
Hypothesis FO : fair ord.
Variable fuel : nat.
Hypothesis HF : table_size refs hyps m + 2 <= Z.of_nat fuel.
Hypothesis SM : table_size refs hyps m < int_max.
Variable sorted : bool.
Let Gs := map (lev_nested h d) refs.
Let Hs := map (lev_nested h d) hyps.
Let al : list nfsa := map (map (map fst)) Gs.
Let bl : list nfsa := map (map (map fst)) Hs.

Lemma table_ok : pairs_of_states al bl m = table_size refs hyps m.
Proof.
  unfold pairs_of_states, table_size. assert (EB : combine m bl = map (fun x => (fst x, map (map fst) (lev_nested h d (snd x)))) (combine m hyps)).
  { unfold bl, Hs. rewrite map_map. clear. revert hyps. induction m as [|i m' IH]; intros [|y hy]; [reflexivity..|]. cbn [map combine]. now rewrite IH. }
  rewrite EB, map_map. f_equal. apply map_ext_in. intros (i & y) Hi. cbn [fst snd]. rewrite zlen_map, zlen_lev. f_equal. apply in_combine_l in Hi. destruct (rd_in_bound refs i (Bm i Hi)) as (r & Hr). unfold al, Gs. rewrite !rd_map, Hr. cbn [option_map]. now rewrite zlen_map, zlen_lev.
Qed.

Definition hyp_pos (P : list Z -> list Z -> Z -> Z -> Prop) : Prop := forall k i r y, rd m k = Some i -> rd refs i = Some r -> rd hyps k = Some y -> P r y k i.
Lemma pair_at k y : rd hyps k = Some y -> exists i r, rd m k = Some i /\ rd refs i = Some r.
Proof.
  intros H. pose proof (rd_Some_bound _ _ _ H) as B. rewrite <- Zm in B. destruct (rd_in_bound m k B) as (i & Hi). destruct (rd_in_bound refs i (Bm i (rd_In _ _ _ Hi))) as (r & Hr). eauto.
Qed.

(** the lattice, with the tagged arcs of the two graphs *)
Lemma lattice : exists TLs ma mb ta tb, intersect_device fuel ord sorted (flat_vec al) (flat_vec bl) m = Some (flat_vec (map (map (map fst)) TLs), ma, mb) /\
  mapM (rd (concat (concat Gs))) ma = Some ta /\ mapM (rd (concat (concat Hs))) mb = Some tb /\ map snd (concat (concat TLs)) = combine ta tb /\
  zlen ta = zlen (concat (concat TLs)) /\ zlen tb = zlen (concat (concat TLs)) /\
  zlen TLs = zlen hyps /\
  forall k TL, rd TLs k = Some TL -> exists i r y oc oa ob, rd m k = Some i /\ rd refs i = Some r /\ rd hyps k = Some y /\ 0 <= oa /\ 0 <= ob /\ valid (map (map fst) TL) /\
    numbered (map (map fst) (lev_nested h d r)) (map (map fst) (lev_nested h d y)) (map (map fst) TL) /\
    is_intersection false (map (map fst) (lev_nested h d r)) (map (map fst) (lev_nested h d y)) (map (map fst) TL) (proj ma oc oa) (proj mb oc ob) /\
    (forall j z, rd (concat TL) j = Some z -> exists i i', rd ma (oc + j) = Some i /\ rd mb (oc + j) = Some i' /\ rd (concat (lev_nested h d r)) (i - oa) = Some (tx z) /\ rd (concat (lev_nested h d y)) (i' - ob) = Some (ty z) /\
       lab (fst z) = lab (fst (tx z)) /\ lab (fst z) = lab (fst (ty z)) /\ sc (fst z) = sc (fst (tx z)) + sc (fst (ty z))).
Proof.
  destruct (device_full fuel ord sorted al bl m FO) as (cl & ma & mb & ED & Zc & Za & Zb & K).
  - unfold bl, Hs. destruct hyps; [congruence|discriminate].
  - intros a Ha. unfold al, Gs in Ha. rewrite map_map in Ha. apply in_map_iff in Ha as (r & <- & Hr). rewrite Forall_forall in FR. apply lev_input. auto.
  - intros a Ha. unfold bl, Hs in Ha. rewrite map_map in Ha. apply in_map_iff in Ha as (r & <- & Hr). rewrite Forall_forall in FY. apply lev_input. auto.
  - intros _ a Ha. unfold al, Gs in Ha. rewrite map_map in Ha. apply in_map_iff in Ha as (r & <- & Hr). rewrite Forall_forall in FR. apply lev_arcsorted. specialize (FR r Hr). revert FR. apply Forall_impl. intros; lia.
  - unfold bl, Hs. now rewrite !zlen_map.
  - intros i Hi. unfold al, Gs. rewrite !zlen_map. auto.
  - now rewrite table_ok.
  - unfold bl, Hs in Zc. rewrite !zlen_map in Zc.
    assert (PK : forall k c, rd cl k = Some c -> exists i r y, rd m k = Some i /\ rd refs i = Some r /\ rd hyps k = Some y /\ rd al i = Some (map (map fst) (lev_nested h d r)) /\ rd bl k = Some (map (map fst) (lev_nested h d y)) /\ rd Gs i = Some (lev_nested h d r) /\ rd Hs k = Some (lev_nested h d y)).
    { intros k c Hc. pose proof (rd_Some_bound _ _ _ Hc) as B. rewrite Zc in B. destruct (rd_in_bound hyps k B) as (y & Hy). destruct (pair_at k y Hy) as (i & r & Hi & Hr). exists i, r, y. unfold al, bl, Gs, Hs. rewrite !rd_map, Hr, Hy. auto 10. }
    assert (ORG : forall k c j u, rd cl k = Some c -> rd (concat c) j = Some u -> exists i r y x x' g g', rd m k = Some i /\ rd refs i = Some r /\ rd hyps k = Some y /\ rd ma (off1 (map (@concat arc) cl) k + j) = Some g /\ rd mb (off1 (map (@concat arc) cl) k + j) = Some g' /\
       rd (concat (lev_nested h d r)) (g - off1 (map (@concat tl) Gs) i) = Some x /\ rd (concat (lev_nested h d y)) (g' - off1 (map (@concat tl) Hs) k) = Some x' /\ rd (concat (concat Gs)) g = Some x /\ rd (concat (concat Hs)) g' = Some x' /\
       lab u = lab (fst x) /\ lab u = lab (fst x') /\ sc u = sc (fst x) + sc (fst x')).
    { intros k c j u Hc Hu. destruct (PK k c Hc) as (i & r & y & P1 & P2 & P3 & P4 & P5 & P6 & P7). destruct (K k i _ _ c P1 P4 P5 Hc) as (_ & _ & _ & OR & _ & _). destruct (OR j u Hu) as (g & g' & O1 & O2 & [(x0 & y0 & O3 & O4 & O5 & O6 & O7 & _)|[(E & _)|(E & _)]]); [|discriminate|discriminate].
      assert (FA : first_arc al i = off1 (map (@concat tl) Gs) i) by apply off1_map3. assert (FB : first_arc bl k = off1 (map (@concat tl) Hs) k) by apply off1_map3. rewrite FA in O3. rewrite FB in O4.
      rewrite all_arcs_map, rd_map in O3, O4. destruct (rd (concat (lev_nested h d r)) _) as [x|] eqn:X1 in O3; [|discriminate]. destruct (rd (concat (lev_nested h d y)) _) as [x'|] eqn:X2 in O4; [|discriminate]. injection O3 as <-. injection O4 as <-.
      exists i, r, y, x, x', g, g'. pose proof (at3 Gs i _ _ x P6 X1) as A1. pose proof (at3 Hs k _ _ x' P7 X2) as A2. replace (_ + (_ - _)) with g in A1 by lia. replace (_ + (_ - _)) with g' in A2 by lia. auto 20. }
    assert (POS : forall p, 0 <= p < zlen (concat (concat cl)) -> exists g g' x x', rd ma p = Some g /\ rd mb p = Some g' /\ rd (concat (concat Gs)) g = Some x /\ rd (concat (concat Hs)) g' = Some x').
    { intros p Bp. destruct (rd_in_bound _ _ Bp) as (u & Hu). destruct (pos3 cl p u Hu) as (k & c & j & H1 & H2 & ->). destruct (ORG k c j u H1 H2) as (i & r & y & x & x' & g & g' & _ & _ & _ & O1 & O2 & _ & _ & O3 & O4 & _). exists g, g', x, x'. auto. }
    destruct (mapM_total (concat (concat Gs)) ma) as (ta & Ta). { intros g Hg. apply In_rd in Hg as (p & Bp & Hg). rewrite Za in Bp. destruct (POS p Bp) as (g0 & _ & x & _ & G1 & _ & G2 & _). assert (g0 = g) by congruence. subst g0. exact (rd_Some_bound _ _ _ G2). }
    destruct (mapM_total (concat (concat Hs)) mb) as (tb & Tb). { intros g Hg. apply In_rd in Hg as (p & Bp & Hg). rewrite Zb in Bp. destruct (POS p Bp) as (_ & g0 & _ & x & _ & G1 & _ & G2). assert (g0 = g) by congruence. subst g0. exact (rd_Some_bound _ _ _ G2). }
    pose proof (mapM_zlen _ _ _ Ta) as La. pose proof (mapM_zlen _ _ _ Tb) as Lb. rewrite Za in La. rewrite Zb in Lb.
    assert (LC : zlen (combine ta tb) = zlen (concat (concat cl))) by (unfold zlen in *; rewrite combine_length; lia).
    destruct (combine_split (concat (concat cl)) (combine ta tb) (eq_sym LC)) as (C1 & C2).
    destruct (regroup3 fst cl (combine (concat (concat cl)) (combine ta tb)) C1) as (TLs & ET & CT).
    exists TLs, ma, mb, ta, tb. rewrite ED, <- ET. split; [auto|]. split; [auto|]. split; [auto|]. split; [now rewrite CT|]. assert (ZL : zlen (concat (concat TLs)) = zlen (concat (concat cl))) by (rewrite <- C1, CT, zlen_map; reflexivity). split; [lia|]. split; [lia|]. split; [rewrite <- Zc, ET; now rewrite zlen_map|].
    intros k TL HT. assert (Hc : rd cl k = Some (map (map fst) TL)) by (rewrite ET, rd_map, HT; reflexivity). destruct (PK k _ Hc) as (i & r & y & P1 & P2 & P3 & P4 & P5 & P6 & P7). destruct (K k i _ _ _ P1 P4 P5 Hc) as (K1 & _ & K3 & _ & _ & K6).
    assert (NG : forall s, map (map fst) (lev_nested h d s) <> []). { intros s E. apply (f_equal zlen) in E. rewrite zlen_map, zlen_lev, zlen_nil in E. pose proof (zlen_nonneg s). lia. }
    exists i, r, y, (first_arc cl k), (first_arc al i), (first_arc bl k). split; [auto|]. split; [auto|]. split; [auto|]. split; [apply off1_nonneg|]. split; [apply off1_nonneg|]. split; [apply K1; auto|]. split; [apply K6; auto|]. split; [exact K3|].
    intros j z Hz. assert (Hu : rd (concat (map (map fst) TL)) j = Some (fst z)) by (rewrite <- concat_map, rd_map, Hz; reflexivity). destruct (ORG k _ j _ Hc Hu) as (i0 & r0 & y0 & x & x' & g & g' & Q1 & Q2 & Q3 & O1 & O2 & O3 & O4 & O5 & O6 & O7).
    assert (i0 = i) by congruence. subst i0. assert (r0 = r) by congruence. subst r0. assert (y0 = y) by congruence. subst y0. exists g, g'.
    assert (SZ : snd z = (x, x')).
    { pose proof (at3 TLs k TL j z HT Hz) as Z1. assert (OFF : off1 (map (@concat latarc) TLs) k = off1 (map (@concat arc) cl) k) by (rewrite ET; symmetry; apply off1_map3). rewrite OFF in Z1.
      pose proof (mapM_at _ _ _ _ _ Ta O1) as A1. rewrite O5 in A1. pose proof (mapM_at _ _ _ _ _ Tb O2) as A2. rewrite O6 in A2. pose proof (rd_combine _ _ _ _ _ A1 A2) as A3. rewrite <- C2, <- CT, rd_map, Z1 in A3. cbn [option_map] in A3. congruence. }
    unfold tx, ty. rewrite SZ. cbn [fst snd]. assert (FA : first_arc al i = off1 (map (@concat tl) Gs) i) by apply off1_map3. assert (FB : first_arc bl k = off1 (map (@concat tl) Hs) k) by apply off1_map3. rewrite FA, FB. auto 10.
Qed.

Variable u : R.
Hypothesis Hu : (0 < u)%R.
Variables (lp lp' : nat) (sched sched' : list Z).
Hypothesis SC : is_sched (zlen hyps * 2 ^ Z.of_nat lp) sched.
Hypothesis SC' : is_sched (zlen hyps * 2 ^ Z.of_nat lp') sched'.
Hypothesis PB : forall k i r y, rd m k = Some i -> rd refs i = Some r -> rd hyps k = Some y -> Z.abs (d + h) * (zlen r + zlen y) < 2 * h.
Let rtags := map snd (concat (concat Gs)).
Let htags := map snd (concat (concat Hs)).

Lemma pos_syms syms : Forall (fun a => 1 <= a < 2 ^ 31) syms -> Forall (fun a => 1 <= a) syms.
Proof. apply Forall_impl. intros; lia. Qed.

Lemma align_run : exists colss,
  levenshtein_alignment u fuel ord lp sched lp' sched' (mkGraph (flat_vec al) (Some (map fst rtags)) None (map snd rtags)) (mkGraph (flat_vec bl) (Some (map fst htags)) None (map snd htags)) m sorted =
    Some (mkAl (flat_vec (map alignment_fsa colss)) (map c_ref (concat colss)) (map c_hyp (concat colss)), mkGraph (flat_vec bl) None (Some (map fst htags)) (map snd htags)) /\
  zlen colss = zlen hyps /\ forall k i r y cs, rd m k = Some i -> rd refs i = Some r -> rd hyps k = Some y -> rd colss k = Some cs -> aligns_best (2 * h) r y cs.
Proof.
  destruct lattice as (TLs & ma & mb & ta & tb & ED & Ta & Tb & CT & La & Lb & ZT & K). set (L := concat (concat TLs)) in *.
  assert (ZTa : zlen ta = zlen tb) by lia. destruct (combine_split ta tb ZTa) as (CS1 & CS2).
  assert (EA : ta = map tx L) by (rewrite <- CS1, <- CT, map_map; reflexivity). assert (EB : tb = map ty L) by (rewrite <- CS2, <- CT, map_map; reflexivity).
  set (TLs' := map (map (filter keep)) TLs). set (fs := map (map (map fst)) TLs').
  assert (EL' : concat (concat TLs') = filter keep L). { unfold TLs', L. rewrite SelectProofs.filter_concat, concat_map. reflexivity. }
  (* the cleaned lattice *)
  assert (KP : forall k TL, rd TLs k = Some TL -> exists i r y, rd m k = Some i /\ rd refs i = Some r /\ rd hyps k = Some y /\ valid (map (map fst) TL) /\ zlen TL <= (zlen r + 2) * (zlen y + 2) /\
     (forall z, In z (concat TL) -> keep z = true -> src (fst z) < dst (fst z)) /\
     forall w, (forall j z, rd (concat (map (filter keep) TL)) j = Some z -> w j = Some (u * IZR (sc (fst z)))%R) ->
       (exists p, successful (map (map fst) (map (filter keep) TL)) p /\ pweight w p <> None) /\
       forall p, best_path (map (map fst) (map (filter keep) TL)) w p -> exists tq, mapM (rd (concat (map (filter keep) TL))) p = Some tq /\ aligns_best (2 * h) r y (map colz tq) /\
         forall z, In z tq -> lab (fst z) = lab (fst (tx z)) /\ sc (fst z) = sc (fst (tx z)) + sc (fst (ty z))).
  { intros k TL HT. destruct (K k TL HT) as (i & r & y & oc & oa & ob & K1 & K2 & K3 & K4 & K5 & K6 & K7 & K8 & K9). exists i, r, y. split; [auto|]. split; [auto|]. split; [auto|]. split; [auto|].
    pose proof (proj1 (Forall_forall _ _) FR r (rd_In _ _ _ K2)) as Fr. apply pos_syms in Fr. pose proof (proj1 (Forall_forall _ _) FY y (rd_In _ _ _ K3)) as Fy. apply pos_syms in Fy.
    pose proof (lev_is_like h d r Fr) as LA. pose proof (lev_is_like h d y Fy) as LB. pose proof K6 as (_ & V2 & _). unfold nstates in V2. split; [rewrite <- (zlen_map (map fst) TL); apply (numbered_size _ _ _ _ _ LA LB V2 K7)|]. split.
    - intros z Hz Kz. apply (lev_topsorted _ _ _ _ _ LA LB K6 K7); [rewrite all_arcs_map; now apply in_map|]. intros (E1 & E2). unfold keep, is_eps_self_loop in Kz. lia.
    - intros w Hw. rewrite zlen_map in V2. assert (NE0 : 0 < zlen TL) by lia. split; [exact (some_path h d r y Hh Hd Fr Fy ma mb oc oa ob K4 K5 TL NE0 K8 K9 u w Hw)|].
      intros p Hp. destruct (best_tags h d r y Hh Hd Fr Fy ma mb oc oa ob K4 K5 TL NE0 K8 K9 u Hu w Hw p Hp) as (tq & T1 & T2 & T3). exists tq. split; [auto|]. split; [|auto].
      pose proof (best_cols h d r y _ _ Hh Hd Fr Fy (PB k i r y K1 K2 K3) T2) as BC. rewrite combine_map2, map_map in BC. exact BC. }
  assert (FT : forall f, In f fs -> exists k TL, rd TLs k = Some TL /\ f = map (map fst) (map (filter keep) TL)). { intros f Hf. unfold fs, TLs' in Hf. rewrite map_map in Hf. apply in_map_iff in Hf as (TL & <- & HT). apply In_rd in HT as (k & _ & HT). eauto. }
  assert (WF : Forall well_formed fs).
  { apply Forall_forall. intros f Hf. destruct (FT f Hf) as (k & TL & HT & ->). destruct (KP k TL HT) as (i & r & y & _ & _ & _ & (V1 & _ & V3) & _). split.
    - intros s st a Hst Ha. rewrite !rd_map in Hst. destruct (rd TL s) as [row|] eqn:Er; [|discriminate]. injection Hst as <-. apply in_map_iff in Ha as (z & <- & Hz). apply filter_In in Hz as (Hz & _). apply (V1 s (map fst row)); [now rewrite rd_map, Er|now apply in_map].
    - intros a Ha. rewrite all_arcs_map, <- SelectProofs.filter_concat in Ha. apply in_map_iff in Ha as (z & <- & Hz). apply filter_In in Hz as (Hz & _). destruct (V3 (fst z)) as (V4 & _); [rewrite all_arcs_map; now apply in_map|]. unfold nstates in *. rewrite !zlen_map in *. exact V4. }
  assert (TS : Forall p_topsorted_acyclic fs).
  { apply Forall_forall. intros f Hf. destruct (FT f Hf) as (k & TL & HT & ->). destruct (KP k TL HT) as (i & r & y & _ & _ & _ & _ & _ & T & _). intros a Ha. rewrite all_arcs_map, <- SelectProofs.filter_concat in Ha. apply in_map_iff in Ha as (z & <- & Hz). apply filter_In in Hz as (Hz & Hk). auto. }
  assert (ZS : zlen (concat fs) < int_max).
  { assert (E : zlen (concat fs) = zlen (concat TLs)). { rewrite <- !zsum_zlen_concat. f_equal. unfold fs, TLs'. rewrite !map_map. apply map_ext. intros. now rewrite !zlen_map. } rewrite E, <- zsum_zlen_concat. apply Z.le_lt_trans with (table_size refs hyps m); auto. unfold table_size.
    apply zsum_le_rd; [rewrite !zlen_map; unfold zlen in *; rewrite combine_length; lia|]. intros k x y' Hx Hy. rewrite rd_map in Hx. destruct (rd TLs k) as [TL|] eqn:HT; [|discriminate]. injection Hx as <-. destruct (KP k TL HT) as (i & r & y & K1 & K2 & K3 & _ & SZ & _).
    rewrite rd_map, (rd_combine _ _ _ _ _ K1 K3) in Hy. injection Hy as <-. cbn [fst snd]. rewrite K2. exact SZ. }
  assert (ZF : zlen fs = zlen hyps) by (unfold fs, TLs'; rewrite !zlen_map; exact ZT). set (scores := map (fun a => Some (u * IZR (sc a))%R) (v_arcs (flat_vec fs))).
  destruct (C29_shortest_path fs scores lp sched ord lp' sched' WF TS ZS) as (outs & ps & EP & ZO & ZP & KS); [unfold scores; now rewrite zlen_map|now rewrite ZF|exact FO|now rewrite ZF|].
  (* one column list for each pair *)
  destruct (choose (zlen hyps) (fun k tq => exists p TL i r y, rd ps k = Some p /\ rd TLs k = Some TL /\ mapM (rd (concat (map (filter keep) TL))) p = Some tq /\ rd outs k = Some (linear_of (map fst tq)) /\
     rd m k = Some i /\ rd refs i = Some r /\ rd hyps k = Some y /\ aligns_best (2 * h) r y (map colz tq) /\ forall z, In z tq -> lab (fst z) = lab (fst (tx z)) /\ sc (fst z) = sc (fst (tx z)) + sc (fst (ty z)))) as (tqs & ZQ & QK).
  { apply zlen_nonneg. }
  { intros k Bk. rewrite <- ZT in Bk. destruct (rd_in_bound TLs k Bk) as (TL & HT). destruct (KP k TL HT) as (i & r & y & K1 & K2 & K3 & _ & _ & _ & KW).
    assert (HT' : rd TLs' k = Some (map (filter keep) TL)) by (unfold TLs'; rewrite rd_map, HT; reflexivity). assert (Hf : rd fs k = Some (map (map fst) (map (filter keep) TL))) by (unfold fs; rewrite rd_map, HT'; reflexivity).
    destruct (KW (arc_score fs scores k)) as (W1 & W2).
    { intros j z Hz. unfold arc_score. assert (OF : off1 (map all_arcs fs) k = off1 (map (@concat latarc) TLs') k) by apply off1_map3. rewrite OF. unfold scores. rewrite rd_map. unfold fs. rewrite flat_vec_map. cbn [v_arcs]. rewrite rd_map, (at3 TLs' k _ j z HT' Hz). reflexivity. }
    destruct (KS k _ Hf) as (p & P1 & P2 & P3 & P4). destruct (W2 p (P4 W1)) as (tq & T1 & T2 & T3). exists tq, p, TL, i, r, y. rewrite (arcs_at_tag _ _ _ T1) in P2. auto 10. }
  assert (NQ : forall tq, In tq tqs -> tq <> []). { intros tq Hq. apply In_rd in Hq as (k & _ & Hq). destruct (QK k tq Hq) as (p & TL & i & r & y & _ & _ & _ & _ & _ & _ & _ & (body & A & _) & _). intros ->. destruct body; discriminate. }
  assert (EO : outs = map (map (map fst)) (map lin_tags tqs)).
  { apply list_ext_rd; [rewrite !zlen_map; lia|]. intros k Bk. rewrite ZO, ZF, <- ZQ in Bk. destruct (rd_in_bound tqs k Bk) as (tq & Hq). destruct (QK k tq Hq) as (p & TL & i & r & y & _ & _ & _ & O & _). rewrite !rd_map, Hq, O. cbn [option_map]. rewrite lin_tags_fst by exact (NQ tq (rd_In _ _ _ Hq)). reflexivity. }
  set (amap := concat (imap (fun k p => map (fun j => off1 (map all_arcs fs) k + j) p) 0 ps)) in *.
  assert (GA : mapM (rd (filter keep L)) amap = Some (concat tqs)).
  { unfold amap. apply mapM_concat. apply mapM_by_rd; [rewrite zlen_imap; lia|]. intros k q Hq. rewrite rd_imap, Z.add_0_l in Hq. destruct (rd ps k) as [p|] eqn:Hp; [|discriminate]. injection Hq as <-. pose proof (rd_Some_bound _ _ _ Hp) as Bk. rewrite ZP, ZF, <- ZQ in Bk.
    destruct (rd_in_bound tqs k Bk) as (tq & Hq). destruct (QK k tq Hq) as (p0 & TL & i & r & y & Q1 & Q2 & Q3 & _). assert (p0 = p) by congruence. subst p0. rewrite Hq, <- Q3. rewrite <- EL'. assert (OF : off1 (map all_arcs fs) k = off1 (map (@concat latarc) TLs') k) by apply off1_map3. rewrite OF.
    assert (HT' : rd TLs' k = Some (map (filter keep) TL)) by (unfold TLs'; rewrite rd_map, Q2; reflexivity). clear - HT' Q3. revert tq Q3. induction p as [|j p IH]; intros tq Q3; [reflexivity|]. cbn [map mapM] in *. destruct (rd (concat (map (filter keep) TL)) j) as [z|] eqn:Hz; [|discriminate]. rewrite (at3 TLs' k _ j z HT' Hz).
    destruct (mapM (rd (concat (map (filter keep) TL))) p) as [tq'|] eqn:E; [|discriminate]. now rewrite (IH tq' eq_refl). }
  exists (map (map colz) tqs). split; [|split].
  - unfold levenshtein_alignment. cbn [g_aux g_vec g_hyp g_off]. rewrite ED. cbv beta iota. unfold gather. unfold rtags, htags. rewrite !map_map, !mapM_rd_map, Ta, Tb. cbn [option_map].
    assert (VL : v_arcs (flat_vec (map (map (map fst)) TLs)) = map fst L) by (rewrite flat_vec_map; reflexivity). rewrite VL, zlen_map. destruct (remove_tags (ord (zlen L + 1)) TLs (FO _)) as (ids & ER). rewrite ER. cbn [vo_map vo_vec]. fold L TLs' fs scores.
    rewrite EA, EB, !map_map, combine_map2, map_map. cbn [fst snd]. rewrite !mapM_rd_map, gather_filter. cbn [option_map]. rewrite EP. cbn [fst snd]. rewrite !mapM_rd_map, GA. cbn [option_map].
    rewrite EO. change (map (fun z => fst (snd (tx z))) (concat tqs)) with (map (fun z => c_ref (colz z)) (concat tqs)). rewrite fix_lin.
    2:{ intros tq Hq r0 z Hz. apply In_rd in Hq as (k & _ & Hq). destruct (QK k tq Hq) as (p & TL & i & r & y & _ & _ & _ & _ & _ & Q6 & _ & Q8 & _). pose proof (proj1 (Forall_forall _ _) FR r (rd_In _ _ _ Q6)) as Fr. apply pos_syms in Fr.
        rewrite (aligns_ref _ _ _ _ Fr Q8 r0 (colz z)) by (rewrite rd_map, Hz; reflexivity). now rewrite zlen_map. }
    assert (EC : concat (map (map colz) tqs) = map colz (concat tqs)) by now rewrite concat_map. rewrite EC, (map_map colz c_ref), (map_map colz c_hyp).
    assert (EU : map (fun x => alignment_fsa (map colz x)) tqs = map (map (map upd)) (map lin_tags tqs)). { rewrite !map_map. apply map_ext_in. intros tq Hq. symmetry. apply lin_tags_upd. apply In_rd in Hq as (k & _ & Hq). destruct (QK k tq Hq) as (p & TL & i & r & y & _ & _ & _ & _ & _ & _ & _ & _ & Q9). exact Q9. }
    rewrite EU, !flat_vec_map. cbn [v_rs1 v_rs2 v_arcs]. do 4 f_equal. set (F := concat (concat (map lin_tags tqs))).
    assert (EF : concat tqs = map snd F). { unfold F. rewrite <- concat_map_concat, concat_map, !map_map. f_equal. rewrite <- (map_id tqs) at 1. apply map_ext. intros tq. now rewrite lin_tags_snd. }
    rewrite EF, (map_map snd), combine_map2, map_map. reflexivity.
  - now rewrite zlen_map.
  - intros k i r y cs K1 K2 K3 K4. rewrite rd_map in K4. destruct (rd tqs k) as [tq|] eqn:Hq; [|discriminate]. injection K4 as <-. destruct (QK k tq Hq) as (p & TL & i0 & r0 & y0 & _ & _ & _ & _ & Q5 & Q6 & Q7 & Q8 & _). assert (i0 = i) by congruence. subst i0. assert (r0 = r) by congruence. subst. assert (y0 = y) by congruence. subst. exact Q8.
Qed.
End Batch.
