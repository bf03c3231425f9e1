(** * Property bits and arc_sort (C15, C18). *)
From Coq Require Import ZArith List Lia Bool Permutation Sorting.Sorted.
From Coq Require Import ZifyBool ZifyNat.
From Verif Require Import Base RaggedModel RaggedSpec RaggedProofs FsaSpec FsaLemmas FsaOpsModel
  RaggedOpsModel RaggedOpsProofs RaggedListProofs OpsModel PropsModel PropsSpec PropsProofs RaggedOpsProps.
Import ListNotations.
Open Scope Z_scope.

(** C15: for every vector of FSAs (and every order in which the GPU threads
    store their reachability marks) the call succeeds, and each bit of each
    FSA's properties is set exactly when the documented condition holds.  The
    two "maybe" bits are never set for an FSA that has states but no arcs.
    [tot], which is what Fsa.properties returns, has exactly the bits that all
    FSAs have. *)
Definition bits_mean (f : nfsa) (p : Z) : Prop :=
  (has p 0x01 <-> p_valid f) /\
  (has p 0x02 <-> p_nonempty f) /\
  (has p 0x04 <-> p_topsorted f) /\
  (has p 0x08 <-> p_topsorted_acyclic f) /\
  (int32_labels f -> (has p 0x10 <-> p_arcsorted f)) /\
  (int32_labels f -> (has p 0x20 <-> p_deterministic f)) /\
  (has p 0x40 <-> p_epsfree f) /\
  (has p 0x80 <-> f = [] \/ (p_nonempty f /\ p_accessible f)) /\
  (has p 0x100 <-> f = [] \/ (p_nonempty f /\ p_coaccessible f)).

Lemma bits_mean_ok f p : fsa_bits f p -> bits_mean f p.
Proof.
  intros [R A N AC CO]. unfold bits_mean.
  pose proof (has_pow p 0 ltac:(lia)) as H0. change (2 ^ 0) with 0x01 in H0.
  pose proof (has_pow p 1 ltac:(lia)) as H1. change (2 ^ 1) with 0x02 in H1.
  pose proof (has_pow p 2 ltac:(lia)) as H2. change (2 ^ 2) with 0x04 in H2.
  pose proof (has_pow p 3 ltac:(lia)) as H3. change (2 ^ 3) with 0x08 in H3.
  pose proof (has_pow p 4 ltac:(lia)) as H4. change (2 ^ 4) with 0x10 in H4.
  pose proof (has_pow p 5 ltac:(lia)) as H5. change (2 ^ 5) with 0x20 in H5.
  pose proof (has_pow p 6 ltac:(lia)) as H6. change (2 ^ 6) with 0x40 in H6.
  pose proof (has_pow p 7 ltac:(lia)) as H7. change (2 ^ 7) with 0x80 in H7.
  pose proof (has_pow p 8 ltac:(lia)) as H8. change (2 ^ 8) with 0x100 in H8.
  rewrite H0, H1, H2, H3, H4, H5, H6, H7, H8. clear H0 H1 H2 H3 H4 H5 H6 H7 H8.
  rewrite (A 0), (A 2), (A 3), (A 4), (A 5), (A 6) by lia. rewrite clear_valid, clear_topsorted, clear_acyclic, clear_epsfree.
  pose proof (clear_arcsorted f). pose proof (clear_det f). unfold acc_c, coacc_c in *; tauto.
Qed.

Theorem C15_property_bits : forall sched fs, is_sched (zlen (concat (concat fs))) sched ->
  exists per tot, vec_props sched (flat_vec fs) = Some (per, tot) /\ zlen per = zlen fs /\
    (forall k f, rd fs k = Some f -> exists p, rd per k = Some p /\ 0 <= p <= 0x1FF /\ bits_mean f p) /\
    (0 <= tot <= 0x1FF /\
     forall b, 0 <= b < 9 -> has tot (2 ^ b) <-> forall p, In p per -> has p (2 ^ b)).
Proof.
  intros sched fs Hs. destruct (vec_props_ok sched fs Hs) as (per & tot & E & L & P & R & T).
  exists per, tot. split; [exact E|]. split; [exact L|]. split; [|split; [exact R|]].
  - intros k f Hk. destruct (P k f Hk) as (p & Hp & B). exists p. split; [exact Hp|].
    split; [apply (b_range _ _ B)|now apply bits_mean_ok].
  - intros b Hb. rewrite has_pow by lia. rewrite (T b Hb). split; intros H p Hp; specialize (H p Hp); now apply has_pow; try lia.
Qed.
Print Assumptions C15_property_bits.

(** C15 for a single FSA. *)
Theorem C15_property_bits_single : forall sched f, is_sched (zlen (concat f)) sched ->
  exists p, fsa_props sched (flat f) = Some p /\ 0 <= p <= 0x1FF /\ bits_mean f p.
Proof.
  intros sched f Hs. unfold fsa_props, fsa_to_vec, num_states. cbn [flat row_splits arcs].
  rewrite zlen_splits_of. replace (zlen f + 1 - 1) with (zlen f) by lia.
  destruct (vec_props_ok sched [f]) as (per & tot & E & L & P & R & T).
  { cbn [concat]. now rewrite app_nil_r. }
  unfold flat_vec in E. cbn [concat] in E. rewrite app_nil_r in E.
  change (splits_of [f]) with [0; 0 + zlen f] in E. replace (0 + zlen f) with (zlen f) in E by lia.
  rewrite E. cbn [snd]. destruct (P 0 f eq_refl) as (p & Hp & B).
  destruct per as [|p' [|? per]]; try discriminate.
  - rewrite rd_cons_0 in Hp. injection Hp as ->.
    assert (tot = p).
    { apply Z.bits_inj'. intros n Hn. destruct (Z_lt_ge_dec n 9).
      - apply eq_true_iff_eq. rewrite T by lia. split; [intros H; apply H; now left|].
        intros H q [<-|[]]. auto.
      - pose proof (b_range _ _ B).
        rewrite !Z.bits_above_log2; auto; try lia.
        + destruct (Z.eq_dec p 0) as [->|]; [cbn; lia|]. apply Z.log2_lt_pow2; [lia|].
          pose proof (Z.pow_le_mono_r 2 9 n ltac:(lia) ltac:(lia)) as X; change (2 ^ 9) with 512 in X; lia.
        + destruct (Z.eq_dec tot 0) as [->|]; [cbn; lia|]. apply Z.log2_lt_pow2; [lia|].
          pose proof (Z.pow_le_mono_r 2 9 n ltac:(lia) ltac:(lia)) as X; change (2 ^ 9) with 512 in X; lia. }
    subst tot. exists p. split; auto. split; [apply (b_range _ _ B)|now apply bits_mean_ok].
  - change (zlen [f]) with 1 in L. rewrite !zlen_cons in L. pose proof (zlen_nonneg per). lia.
Qed.
Print Assumptions C15_property_bits_single.

(** fsa.properties raises exactly when some FSA is not well formed. *)
Theorem C15_properties_raises : forall sched fs, is_sched (zlen (concat (concat fs))) sched ->
  (exists p, py_properties sched (flat_vec fs) = Some p) <-> Forall p_valid fs.
Proof.
  intros sched fs Hs. destruct (vec_props_ok sched fs Hs) as (per & tot & E & L & P & R & T).
  unfold py_properties. rewrite E. cbn [snd].
  assert (V : Z.land tot kValid = 1 <-> Z.testbit tot 0 = true).
  { change kValid with (Z.ones 1). rewrite Z.land_ones by lia. change (2 ^ 1) with 2.
    rewrite Z.bit0_odd. rewrite Zmod_odd. destruct (Z.odd tot); split; intros; auto; discriminate. }
  assert (W : Z.testbit tot 0 = true <-> Forall p_valid fs).
  { rewrite T by lia. rewrite Forall_forall. split.
    - intros H f Hf. apply In_rd in Hf as (k & _ & Hk). destruct (P k f Hk) as (p & Hp & B).
      apply clear_valid, (b_arcs _ _ B); try lia. apply H. eapply rd_In; eauto.
    - intros H p Hp. apply In_rd in Hp as (k & Bk & Hp).
      destruct (rd_in_bound fs k) as (f & Hf); [lia|]. destruct (P k f Hf) as (p' & Hp' & B).
      rewrite Hp in Hp'. injection Hp' as <-.
      apply (b_arcs _ _ B); try lia. apply clear_valid, H. eapply rd_In; eauto. }
  rewrite <- W, <- V. destruct (Z.land tot kValid =? 1) eqn:D; split; intros H.
  - lia.
  - eauto.
  - destruct H; discriminate.
  - lia.
Qed.
Print Assumptions C15_properties_raises.

(** An FSA whose final state has a leaving arc, which fsa.h:64-72 rules out,
    nevertheless gets the Valid bit. *)
Definition ex_leave : nfsa := [[mkArc 0 1 (-1) 0]; [mkArc 1 0 5 0]].
Theorem C15_valid_refuted : exists sched f p, is_sched (zlen (concat f)) sched /\
  fsa_props sched (flat f) = Some p /\ has p 0x01 /\ ~ valid f.
Proof.
  exists [1; 0], ex_leave, 499. split; [solve_sched|]. split; [vm_compute; reflexivity|].
  split; [discriminate|]. intros (_ & _ & H).
  destruct (H (mkArc 1 0 5 0)) as (_ & _ & _ & N); [cbn; auto|]. apply N. reflexivity.
Qed.
Print Assumptions C15_valid_refuted.

Definition ex_f1 : nfsa := [[mkArc 0 1 1 2; mkArc 0 1 2 3]; [mkArc 1 2 (-1) 0]; []].
Definition ex_f2 : nfsa := [[mkArc 0 0 0 1; mkArc 0 2 (-1) 3]; []; []].
Example C15_ex : vec_props [3; 1; 4; 0; 2] (flat_vec [ex_f1; ex_f2]) = Some ([511; 55], 55).
Proof. vm_compute. reflexivity. Qed.
Example C15_ex_sched : is_sched (zlen (concat (concat [ex_f1; ex_f2]))) [3; 1; 4; 0; 2].
Proof. solve_sched. Qed.
Example C15_ex_empty : vec_props [] (flat_vec [[]; [[]]]) = Some ([0x1FD; 0x7D], 0x7D).
Proof. vm_compute. reflexivity. Qed.

(** ** arc_sort *)

(** The total order that agrees with operator< on 32-bit labels. *)
Definition arc_lt2 (a b : arc) : bool :=
  (u32 (lab a) <? u32 (lab b)) || ((u32 (lab a) =? u32 (lab b)) && (dst a <? dst b)).
Definition i32 (a : arc) : Prop := - 2 ^ 31 <= lab a < 2 ^ 31.

Lemma arc_lt_eq a b : i32 a -> i32 b -> arc_lt a b = arc_lt2 a b.
Proof.
  intros Ha Hb. unfold arc_lt, arc_lt2. unfold i32 in *. rewrite !u32_key by auto. unfold label_key.
  destruct (lab a <? 0) eqn:?, (lab b <? 0) eqn:?, (lab a =? lab b) eqn:?; cbn [negb]; lia.
Qed.

Lemma ins_ext {B} (P : B -> Prop) (l1 l2 : B -> B -> bool) : (forall a b, P a -> P b -> l1 a b = l2 a b) ->
  forall x l, P x -> Forall P l -> ins l1 x l = ins l2 x l.
Proof.
  intros H x l Hx. induction 1 as [|y l Hy Hl IH]; simpl; auto. rewrite (H y x) by auto. now rewrite IH.
Qed.
Lemma stable_sort_ext {B} (P : B -> Prop) (l1 l2 : B -> B -> bool) : (forall a b, P a -> P b -> l1 a b = l2 a b) ->
  forall l, Forall P l -> stable_sort l1 l = stable_sort l2 l.
Proof.
  intros H l. induction 1 as [|y l Hy Hl IH]; simpl; auto. rewrite IH. apply (ins_ext P); auto.
  apply Forall_forall. intros z Hz. apply (Permutation_in _ (Permutation_sym (stable_sort_perm _ _))) in Hz.
  rewrite Forall_forall in Hl. auto.
Qed.
Lemma mapM_ext {B C} (f g : B -> option C) l : (forall x, In x l -> f x = g x) -> mapM f l = mapM g l.
Proof.
  induction l as [|x l IH]; intros H; simpl; auto. rewrite (H x) by now left. rewrite IH; auto. intros; apply H; now right.
Qed.
Lemma sort_sublists_ext {B} (P : B -> Prop) (l1 l2 : B -> B -> bool) rs values :
  (forall a b, P a -> P b -> l1 a b = l2 a b) -> Forall P values ->
  sort_sublists l1 rs values = sort_sublists l2 rs values.
Proof.
  intros H HP. unfold sort_sublists. rewrite Forall_forall in HP. f_equal.
  rewrite (mapM_ext _ (fun i => cur <- rd rs i;; nxt <- rd rs (i + 1);; check (cur <=? nxt);;
    seg <- slice values cur nxt;;
    Some (stable_sort l2 seg,
          stable_sort (fun p q => match rd values p, rd values q with
                                  | Some a, Some b => l2 a b | _, _ => false end)
                      (map (fun k => cur + k) (zrange (nxt - cur)))))); [reflexivity|].
  intros i _. destruct (rd rs i) as [cur|]; auto. destruct (rd rs (i + 1)) as [nxt|]; auto.
  destruct (cur <=? nxt); auto. destruct (slice values cur nxt) as [seg|] eqn:E; auto.
  f_equal. f_equal.
  - apply (stable_sort_ext P); auto. apply Forall_forall. intros x Hx. apply In_rd in Hx as (j & _ & Hx).
    destruct (mapM_rd _ _ _ _ _ E Hx) as (q & _ & Q). apply HP. eapply rd_In; eauto.
  - apply (stable_sort_ext (fun _ => True)).
    + intros p q _ _. destruct (rd values p) eqn:Ep, (rd values q) eqn:Eq; auto.
      apply H; apply HP; eapply rd_In; eauto.
    + apply Forall_forall. auto.
Qed.

(** regrouping a list along the rows of another *)
Lemma regroup {B C} (x : list (list B)) : forall l : list C, zlen l = zlen (concat x) ->
  exists y, concat y = l /\ map zlen y = map zlen x.
Proof.
  induction x as [|r x IH]; intros l H; simpl in H.
  - apply zlen_0_nil in H. subst. exists []. auto.
  - rewrite zlen_app in H. destruct (IH (skipn (length r) l)) as (y & E1 & E2).
    { unfold zlen in *. rewrite skipn_length. lia. }
    exists (firstn (length r) l :: y). simpl. rewrite E1, firstn_skipn, E2. split; auto. f_equal.
    unfold zlen in *. rewrite firstn_length. lia.
Qed.

Lemma map_zlen_rd {B C} (x : list (list B)) (y : list (list C)) : map zlen y = map zlen x ->
  zlen y = zlen x /\ splits_of y = splits_of x /\ (forall k, off1 y k = off1 x k) /\
  forall k f f', rd x k = Some f -> rd y k = Some f' -> zlen f' = zlen f.
Proof.
  intros H. split; [|split; [|split]].
  - rewrite <- (zlen_map zlen y), H, zlen_map. auto.
  - unfold splits_of. now rewrite H.
  - intros k. unfold off1. rewrite <- !zsum_zlen_concat, <- !firstn_map. now rewrite H.
  - intros k f f' H1 H2. assert (E : rd (map zlen y) k = rd (map zlen x) k) by now rewrite H.
    rewrite !rd_map, H1, H2 in E. now injection E.
Qed.

Lemma ids_of_zlen {B C} (x : list (list B)) (y : list (list C)) : map zlen y = map zlen x -> ids_of y = ids_of x.
Proof. intros H. unfold ids_of. now rewrite <- !ids_sizes_ids_from, H. Qed.

(** What arc_sort must return: [fs'] has the same FSAs and states; each state
    keeps the same arcs, sorted; [m] maps each output arc to an input arc of
    the same state, bijectively. *)
Definition sorted_version (fs fs' : list nfsa) (m : list Z) : Prop :=
  map zlen fs' = map zlen fs /\
  Permutation m (zrange (zlen (concat (concat fs)))) /\
  mapM (rd (concat (concat fs))) m = Some (concat (concat fs')) /\
  mapM (rd (ids_of (concat fs))) m = Some (ids_of (concat fs')) /\
  forall k f f' r st st', rd fs k = Some f -> rd fs' k = Some f' -> rd f r = Some st -> rd f' r = Some st' ->
    Permutation st st' /\ StronglySorted arc_le st'.

Lemma mapM_app {B C} (g : B -> option C) l1 l2 : mapM g (l1 ++ l2) = (a <- mapM g l1;; b <- mapM g l2;; Some (a ++ b)).
Proof.
  induction l1 as [|x l1 IH]; simpl; [now destruct (mapM g l2)|].
  destruct (g x); auto. rewrite IH. destruct (mapM g l1); auto. destruct (mapM g l2); auto.
Qed.
Lemma mapM_concat {B C} (g : B -> option C) ls : forall rs, mapM (mapM g) ls = Some rs -> mapM g (concat ls) = Some (concat rs).
Proof.
  induction ls as [|l ls IH]; intros rs H; simpl in H.
  - injection H as <-. reflexivity.
  - destruct (mapM g l) as [a|] eqn:E1; [|discriminate]. destruct (mapM (mapM g) ls) as [b|] eqn:E2; [|discriminate].
    injection H as <-. simpl. rewrite mapM_app, E1. now rewrite (IH b).
Qed.
Lemma concat_perm {B} : forall (l l' : list (list B)), Forall2 (@Permutation B) l l' -> Permutation (concat l) (concat l').
Proof. induction 1; simpl; auto. now apply Permutation_app. Qed.
Lemma Forall2_rd {B C} (R : B -> C -> Prop) l : forall l', zlen l = zlen l' ->
  (forall i x y, rd l i = Some x -> rd l' i = Some y -> R x y) -> Forall2 R l l'.
Proof.
  induction l as [|x l IH]; intros l' HL H.
  - symmetry in HL. apply zlen_0_nil in HL. subst. constructor.
  - destruct l' as [|y l']; [rewrite zlen_cons in HL; pose proof (zlen_nonneg l); change (zlen (@nil C)) with 0 in HL; lia|].
    constructor; [apply (H 0); reflexivity|]. apply IH; [rewrite !zlen_cons in HL; lia|].
    intros i u w Hu Hw. pose proof (rd_Some_bound _ _ _ Hu). apply (H (i + 1)); rewrite rd_cons_S; auto; lia.
Qed.

Lemma splits_concat_zrange {B} (x : list (list B)) :
  concat (imap (fun i row => map (fun k => off1 x i + k) (zrange (zlen row))) 0 x) = zrange (zlen (concat x)).
Proof.
  apply list_ext_rd.
  - rewrite zlen_zrange by apply zlen_nonneg.
    rewrite <- !zsum_zlen_concat. f_equal. rewrite map_imap.
    rewrite (imap_ext _ (fun _ row => zlen row)); [apply imap_const|].
    intros i y Hy. rewrite zlen_map, zlen_zrange; auto using zlen_nonneg.
  - intros i Hi.
    set (y := imap (fun i row => map (fun k => off1 x i + k) (zrange (zlen row))) 0 x) in *.
    assert (MZ : map zlen y = map zlen x).
    { unfold y. rewrite map_imap. rewrite (imap_ext _ (fun _ row => zlen row)); [apply imap_const|].
      intros j z Hz. rewrite zlen_map, zlen_zrange; auto using zlen_nonneg. }
    destruct (map_zlen_rd x y MZ) as (L & _ & O & Z).
    assert (CL : zlen (concat y) = zlen (concat x)) by now rewrite <- !zsum_zlen_concat, MZ.
    rewrite rd_zrange by lia.
    destruct (rd_in_bound _ _ Hi) as (v & Hv). rewrite Hv.
    destruct (rd_concat_inv y i v Hv) as (r & l & j & H1 & H2 & H3 & _). f_equal.
    pose proof (rd_Some_bound _ _ _ H1) as Br. destruct (rd_in_bound x r) as (row & Hrow); [lia|].
    unfold y in H1. rewrite rd_imap, Hrow in H1. cbn [option_map] in H1. injection H1 as <-.
    pose proof (rd_Some_bound _ _ _ H2) as Bj. rewrite zlen_map, zlen_zrange in Bj by apply zlen_nonneg.
    rewrite rd_map, rd_zrange in H2 by lia. cbn [option_map] in H2. injection H2 as <-. rewrite H3, O. replace (0 + r) with r by lia. lia.
Qed.

Lemma arc_sort_ok fs : Forall int32_labels fs ->
  exists fs' m, arc_sort (flat_vec fs) = Some (flat_vec fs', m) /\ sorted_version fs fs' m.
Proof.
  intros HI. unfold arc_sort. cbn [flat_vec v_rs1 v_rs2 v_arcs].
  assert (HP : Forall i32 (concat (concat fs))).
  { apply Forall_forall. intros a Ha. rewrite <- concat_map_concat in Ha. apply in_concat in Ha as (l & Hl & Ha).
    apply in_map_iff in Hl as (f & <- & Hf). rewrite Forall_forall in HI. now apply (HI f Hf). }
  rewrite (sort_sublists_ext i32 arc_lt arc_lt2) by (auto using arc_lt_eq).
  assert (AS : forall a b, arc_lt2 a b = true -> arc_lt2 b a = false) by (unfold arc_lt2; intros; lia).
  assert (NT : forall a b c, arc_lt2 a c = true -> arc_lt2 a b = true \/ arc_lt2 b c = true) by (unfold arc_lt2; intros; lia).
  destruct (C08_sort_sublists arc arc_lt2 AS NT (concat fs)) as (outs & E & L & P). rewrite E. cbn [fst snd].
  destruct (regroup fs (map fst outs)) as (fs' & G1 & G2); [now rewrite zlen_map|].
  destruct (map_zlen_rd fs fs' G2) as (Lf & Sf & Of & Zf).
  assert (PM : forall i row, rd (concat fs) i = Some row -> exists row', rd (concat fs') i = Some row' /\
     Permutation row row' /\ StronglySorted (fun a b => arc_lt2 b a = false) row').
  { intros i row Hi. destruct (P i row Hi) as (vals & order & Q1 & _ & _ & Q4 & _ & Q6).
    exists vals. split; [rewrite G1, rd_map, Q1; reflexivity|]. auto. }
  assert (ZR : map zlen (concat fs') = map zlen (concat fs)).
  { apply list_ext_rd; [rewrite !zlen_map, G1, zlen_map; auto|]. intros i Hi. rewrite zlen_map, G1, zlen_map, L in Hi.
    destruct (rd_in_bound _ _ Hi) as (row & Hrow). destruct (PM i row Hrow) as (row' & R1 & R2 & _).
    rewrite !rd_map, Hrow, R1. cbn [option_map]. f_equal. unfold zlen. now rewrite (Permutation_length R2). }
  destruct (map_zlen_rd (concat fs) (concat fs') ZR) as (Lc & Scc & Oc & Zc).
  exists fs', (concat (map snd outs)). split.
  { unfold flat_vec. rewrite Sf, Scc, G1. reflexivity. }
  unfold sorted_version. split; [exact G2|].
  assert (MO : mapM (mapM (rd (concat (concat fs)))) (map snd outs) = Some (map fst outs)).
  { rewrite mapM_map. erewrite mapM_Some_map; [reflexivity|].
    intros [v o] Ho. cbn [fst snd]. apply In_rd in Ho as (i & Bi & Ho).
    destruct (rd_in_bound (concat fs) i) as (row & Hrow); [lia|].
    destruct (P i row Hrow) as (vals & order & Q1 & _ & Q3 & _). rewrite Ho in Q1. injection Q1 as -> ->. exact Q3. }
  split; [|split; [|split]].
  - rewrite <- splits_concat_zrange. apply concat_perm. apply Forall2_rd.
    + now rewrite zlen_map, zlen_imap, L.
    + intros i x y Hx Hy. rewrite rd_map in Hx. rewrite rd_imap in Hy.
      destruct (rd (concat fs) i) as [row|] eqn:Hrow; [|discriminate].
      destruct (P i row Hrow) as (vals & order & Q1 & Q2 & _). rewrite Q1 in Hx. cbn [option_map snd] in *.
      injection Hx as <-. injection Hy as <-. replace (0 + i) with i by lia. exact Q2.
  - rewrite (mapM_concat _ _ _ MO). now rewrite G1.
  - assert (ZO : map zlen (map snd outs) = map zlen (concat fs)).
    { apply list_ext_rd; [rewrite !zlen_map; auto|]. intros i Hi. rewrite !zlen_map, L in Hi.
      destruct (rd_in_bound _ _ Hi) as (row & Hrow). destruct (P i row Hrow) as (vals & order & Q1 & Q2 & _).
      rewrite !rd_map, Hrow, Q1. cbn [option_map snd]. f_equal. unfold zlen at 1. rewrite (Permutation_length Q2), map_length, zrange_length.
      unfold zlen; lia. }
    rewrite (ids_of_zlen _ _ ZR), <- (ids_of_zlen _ _ ZO). apply mapM_by_rd.
    + unfold ids_of. now rewrite zlen_ids_from.
    + intros t i Ht. destruct (rd_concat_inv _ _ _ Ht) as (r & order & j & H1 & H2 & H3 & H4). rewrite H4.
      pose proof (rd_Some_bound _ _ _ H1) as Br. rewrite zlen_map, L in Br.
      destruct (rd_in_bound _ _ Br) as (row & Hrow). destruct (P r row Hrow) as (vals & order' & Q1 & Q2 & _).
      rewrite rd_map, Q1 in H1. cbn [option_map snd] in H1. injection H1 as ->.
      apply rd_In in H2. apply (Permutation_in _ Q2) in H2. apply in_map_iff in H2 as (q & <- & Hq).
      apply in_zrange in Hq. destruct (rd_in_bound row q Hq) as (x & Hx).
      rewrite (ids_of_zlen _ _ ZO). apply (rd_concat_off (concat fs) r row q x Hrow Hx).
  - intros k f f' r st st' Hk Hk' Hr Hr'.
    destruct (rd_concat_off fs k f r st Hk Hr) as (V1 & _). destruct (rd_concat_off fs' k f' r st' Hk' Hr') as (V2 & _).
    rewrite Of in V2. destruct (PM _ _ V1) as (row' & R1 & R2 & R3). rewrite V2 in R1. injection R1 as <-.
    split; [exact R2|]. 
    assert (HS : Forall i32 st').
    { apply Forall_forall. intros a Ha. apply (Permutation_in _ (Permutation_sym R2)) in Ha.
      rewrite Forall_forall in HP. apply HP. apply in_concat. exists st. split; auto. eapply rd_In; eauto. }
    clear - R3 HS. induction R3 as [|a l H1 IH H2]; [constructor|]. inversion HS as [|? ? Ha Hl]; subst.
    constructor; [auto|]. rewrite Forall_forall in *. intros b Hb. specialize (H2 b Hb). specialize (Hl b Hb).
    unfold arc_lt2 in H2. rewrite !u32_key in H2 by auto. unfold arc_le, label_lt. unfold i32 in *.
    unfold label_key in *. destruct (lab a <? 0) eqn:?, (lab b <? 0) eqn:?; lia.
Qed.

(** C18: arc_sort (C++) on every vector of FSAs with 32-bit labels. *)
Theorem C18_arc_sort : forall fs, Forall int32_labels fs ->
  exists fs' m, arc_sort (flat_vec fs) = Some (flat_vec fs', m) /\ sorted_version fs fs' m.
Proof. exact arc_sort_ok. Qed.
Print Assumptions C18_arc_sort.

Lemma mapM_rd_zrange {B} (l : list B) : mapM (rd l) (zrange (zlen l)) = Some l.
Proof.
  apply mapM_by_rd; [now rewrite zlen_zrange by apply zlen_nonneg|].
  intros i x Hi. pose proof (rd_Some_bound _ _ _ Hi) as Bd. rewrite zlen_zrange in Bd by apply zlen_nonneg.
  rewrite rd_zrange in Hi by auto. now injection Hi as <-.
Qed.

(** C18: k2.arc_sort (Python), which returns its argument when the ARC_SORTED
    bit is set. *)
Theorem C18_arc_sort_python : forall sched fs, is_sched (zlen (concat (concat fs))) sched ->
  Forall int32_labels fs -> Forall p_valid fs ->
  exists fs' m, arc_sort_py sched (flat_vec fs) = Some (flat_vec fs', m) /\ sorted_version fs fs' m.
Proof.
  intros sched fs Hs HI HV. unfold arc_sort_py.
  destruct (proj2 (C15_properties_raises sched fs Hs) HV) as (tot & E). rewrite E.
  destruct (negb (Z.land tot kArcSorted =? 0)) eqn:D; [|now apply arc_sort_ok].
  exists fs, (zrange (zlen (concat (concat fs)))). split; [reflexivity|].
  unfold sorted_version. split; [reflexivity|]. split; [apply Permutation_refl|].
  split; [apply mapM_rd_zrange|]. split.
  { replace (zlen (concat (concat fs))) with (zlen (ids_of (concat fs))) by (unfold ids_of; now rewrite zlen_ids_from).
    apply mapM_rd_zrange. }
  intros k f f' r st st' Hk Hk' Hr Hr'. rewrite Hk in Hk'. injection Hk' as <-. rewrite Hr in Hr'. injection Hr' as <-.
  split; [apply Permutation_refl|].
  unfold py_properties in E. destruct (vec_props sched (flat_vec fs)) as [[per tot']|] eqn:V; [|discriminate].
  cbn [snd] in E. destruct (Z.land tot' kValid =? 1); [|discriminate]. injection E as ->.
  destruct (C15_property_bits sched fs Hs) as (per' & tot' & E' & _ & P & _ & T).
  rewrite V in E'. injection E' as <- <-.
  destruct (P k f Hk) as (p & Hp & _ & B). destruct B as (_ & _ & _ & _ & B & _).
  rewrite Forall_forall in HI. specialize (B (HI f (rd_In _ _ _ Hk))).
  assert (H : p_arcsorted f).
  { apply B. apply (T 4); [lia| |eapply rd_In; eauto]. unfold has. change (2 ^ 4) with kArcSorted. lia. }
  apply H. eapply rd_In; eauto.
Qed.
Print Assumptions C18_arc_sort_python.

(** Consequences of being a sorted version: same weighted language, the
    ARC_SORTED property holds. *)
Lemma path_same A B s p t : (forall a, In a A <-> In a B) -> path A s p t <-> path B s p t.
Proof. intros H. split; apply path_incl; intros; now apply H. Qed.

Theorem C18_language : forall fs fs' m, sorted_version fs fs' m ->
  forall k f f', rd fs k = Some f -> rd fs' k = Some f' ->
    nstates f' = nstates f /\
    (forall s p t, path (all_arcs f) s p t <-> path (all_arcs f') s p t) /\
    (forall w s, accepts f w s <-> accepts f' w s) /\
    (forall w s, accepts_str f w s <-> accepts_str f' w s) /\
    p_arcsorted f'.
Proof.
  intros fs fs' m (H1 & _ & _ & _ & H5) k f f' Hk Hk'.
  destruct (map_zlen_rd fs fs' H1) as (_ & _ & _ & Z). specialize (Z k f f' Hk Hk').
  assert (I : forall a, In a (all_arcs f) <-> In a (all_arcs f')).
  { intros a. unfold all_arcs. rewrite !in_concat. split; intros (st & Hst & Ha); apply In_rd in Hst as (r & Br & Hr).
    - destruct (rd_in_bound f' r) as (st' & Hr'); [lia|]. destruct (H5 k f f' r st st' Hk Hk' Hr Hr') as (P & _).
      exists st'. split; [eapply rd_In; eauto|]. now apply (Permutation_in _ P).
    - destruct (rd_in_bound f r) as (st' & Hr'); [lia|]. destruct (H5 k f f' r st' st Hk Hk' Hr' Hr) as (P & _).
      exists st'. split; [eapply rd_In; eauto|]. apply Permutation_sym in P. now apply (Permutation_in _ P). }
  assert (PS : forall s p t, path (all_arcs f) s p t <-> path (all_arcs f') s p t) by (intros; now apply path_same).
  split; [exact Z|]. split; [exact PS|]. unfold accepts, accepts_str, final. rewrite Z.
  split; [|split].
  - intros w s. split; intros (p & P1 & P2); exists p; (split; [now apply PS|auto]).
  - intros w s. split; intros (p & P1 & P2); exists p; (split; [now apply PS|auto]).
  - intros st' Hst'. apply In_rd in Hst' as (r & Br & Hr). destruct (rd_in_bound f r) as (st & Hr'); [lia|].
    apply (H5 k f f' r st st'); auto.
Qed.
Print Assumptions C18_language.

Definition ex_uns : nfsa := [[mkArc 0 2 (-1) 4; mkArc 0 1 7 3; mkArc 0 0 7 1; mkArc 0 1 0 2]; [mkArc 1 2 (-1) 0]; []].
Example C18_ex_hyp : Forall int32_labels [ex_uns; ex_f1] /\ Forall p_valid [ex_uns; ex_f1].
Proof.
  assert (V : forall f, validb f = true -> p_valid f).
  { intros f H. apply validb_ok in H as (H1 & _ & H2). split; auto. intros a Ha. destruct (H2 a Ha) as (? & ? & ? & _). auto. }
  split.
  - constructor; [|constructor; [|constructor]]; unfold int32_labels, all_arcs; cbn; intros a Ha; intuition (subst; cbn [lab]; lia).
  - constructor; [|constructor; [|constructor]]; apply V; reflexivity.
Qed.
Example C18_ex : arc_sort_py (zrange 8) (flat_vec [ex_uns; ex_f1]) =
  Some (flat_vec [[[mkArc 0 1 0 2; mkArc 0 0 7 1; mkArc 0 1 7 3; mkArc 0 2 (-1) 4]; [mkArc 1 2 (-1) 0]; []]; ex_f1],
        [3; 2; 1; 0; 4; 5; 6; 7]).
Proof. vm_compute. reflexivity. Qed.
