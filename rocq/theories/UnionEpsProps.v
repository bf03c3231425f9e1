(** * Properties C22 (Union) and C24 (epsilon self-loops). *)
From Coq Require Import ZArith List Lia Bool Permutation.
From Coq Require Import ZifyBool ZifyNat.
From Verif Require Import Base RaggedModel RaggedSpec RaggedProofs FsaSpec FsaLemmas FsaOpsModel FsaOpsProofs
  FsaOpsProps SelectProofs UnionProofs EpsLoopProofs.
Import ListNotations.
Open Scope Z_scope.

(** C22: for every list of valid FSAs, each with at least one arc, and every
    execution order, Union succeeds, the result is a well-formed FSA, and it
    accepts exactly the union of the weighted languages. *)
Theorem C22_union_language : forall fs sched,
  Forall (fun f => valid f /\ all_arcs f <> []) fs ->
  is_sched (zlen (concat (concat fs))) sched ->
  exists g m, union sched (flat_vec fs) = Some (mkOut (flat g) (ids_of g) m) /\
    shape_ok (mkOut (flat g) (ids_of g) m) /\ src_ok g /\
    nstates g = zlen (concat fs) + 2 - zlen fs /\
    (forall w s, accepts_str g w s <-> exists f, In f fs /\ accepts_str f w s) /\
    (forall w s, accepts g w s <-> exists f w', In f fs /\ accepts f w' s /\ w = 0 :: w').
Proof.
  intros fs sched H Hs.
  assert (V : Forall valid fs) by (eapply Forall_impl; [|exact H]; cbv beta; tauto).
  assert (OK : union_ok fs).
  { eapply Forall_impl; [|exact H]. intros f [(H1 & H2 & H3) H4].
    split; auto. split; auto. split; auto. intros a Ha. now apply H3. }
  exists (union_nested fs), (union_map fs).
  split; [now apply union_eq|]. split; [apply row_ids_of_splits|].
  split; [now apply union_src_ok|]. split; [now apply zlen_union_nested|].
  split; intros; [now apply union_language_str|now apply union_language].
Qed.
Print Assumptions C22_union_language.

(** C22: the arc map names every input arc exactly once, keeps label and score,
    and is -1 on the new arcs leaving the start state. *)
Theorem C22_union_arc_map : forall fs sched,
  Forall (fun f => valid f /\ all_arcs f <> []) fs ->
  is_sched (zlen (concat (concat fs))) sched ->
  exists g m, union sched (flat_vec fs) = Some (mkOut (flat g) (ids_of g) m) /\
    zlen m = zlen (all_arcs g) /\
    Permutation (filter (fun k => negb (k =? -1)) m) (zrange (zlen (concat (concat fs)))) /\
    forall i k a, rd m i = Some k -> rd (all_arcs g) i = Some a ->
      (k = -1 /\ src a = 0 /\ lab a = 0 /\ sc a = 0) \/
      exists b, rd (concat (concat fs)) k = Some b /\ lab a = lab b /\ sc a = sc b.
Proof.
  intros fs sched H Hs.
  assert (OK : union_ok fs).
  { eapply Forall_impl; [|exact H]. intros f [(H1 & H2 & H3) H4].
    split; auto. split; auto. split; auto. intros a Ha. now apply H3. }
  exists (union_nested fs), (union_map fs). split; [now apply union_eq|].
  rewrite arcs_union by auto.
  assert (L : zlen (concat (imap (fun k l => map (uarc fs k) l) 0 (map (@concat arc) fs))) = zlen (concat (concat fs))).
  { rewrite concat_imap_map_len. now rewrite concat_map_concat. }
  pose proof (zlen_nonneg (concat (concat fs))) as Z0.
  split; [|split].
  - unfold union_map. rewrite !zlen_app, zlen_map, zlen_imap, zlen_zrange by auto. lia.
  - unfold union_map. rewrite filter_app.
    replace (filter _ (map (fun _ => -1) fs)) with (@nil Z) by (clear; induction fs; simpl; auto).
    simpl. replace (filter _ (zrange _)) with (zrange (zlen (concat (concat fs)))); [reflexivity|].
    symmetry.
    assert (G : forall l, (forall x, In x l -> 0 <= x) -> filter (fun k => negb (k =? -1)) l = l).
    { clear. induction l as [|x l IH]; intros G; simpl; auto. pose proof (G x (or_introl eq_refl)).
      replace (x =? -1) with false by lia. simpl. f_equal. apply IH. intros y Hy; apply G; now right. }
    apply G. intros x Hx. apply in_zrange in Hx. lia.
  - intros i k a Hk Ha. unfold union_map in Hk. rewrite rd_app, zlen_map in Hk. rewrite rd_app, zlen_imap in Ha.
    destruct (i <? zlen fs) eqn:E.
    + left. rewrite rd_map in Hk. rewrite rd_imap in Ha. destruct (rd fs i); [|discriminate].
      injection Hk as <-. injection Ha as <-. simpl. auto.
    + right. pose proof (rd_Some_bound _ _ _ Ha). rewrite L in *. rewrite rd_zrange in Hk by lia. injection Hk as <-.
      destruct (rd_in_bound (concat (map (@concat arc) fs)) (i - zlen fs)) as (b & Hb); [rewrite concat_map_concat; lia|].
      destruct (rd_concat_inv _ _ _ Hb) as (r & l & j & K1 & K2 & K3 & K4).
      exists b. rewrite <- concat_map_concat. split; auto.
      rewrite K3 in Ha. rewrite (rd_concat_imap_map _ _ _ _ _ _ K1 K2) in Ha. injection Ha as <-. simpl. auto.
Qed.
Print Assumptions C22_union_arc_map.

Definition ex_d : nfsa := [[mkArc 0 1 4 1]; [mkArc 1 2 (-1) 0]; []].

Example C22_example : Forall (fun f => valid f /\ all_arcs f <> []) [ex_abc; ex_d] /\
  is_sched (zlen (concat (concat [ex_abc; ex_d]))) [5; 0; 4; 1; 3; 2] /\
  exists o, union [5; 0; 4; 1; 3; 2] (flat_vec [ex_abc; ex_d]) = Some o /\ o_map o = [-1; -1; 0; 1; 2; 3; 4; 5].
Proof.
  split; [|split; [solve_sched|]].
  - constructor; [split; [solve_valid|discriminate]|].
    constructor; [split; [solve_valid|discriminate]|constructor].
  - eexists; split; reflexivity.
Qed.

(** The hypothesis that every FSA has an arc cannot be dropped: a legal FSA
    with two states and no arcs leaves the result partly uninitialised. *)
Theorem C22_union_no_arcs_refuted :
  exists fs, Forall valid fs /\
    forall sched, is_sched (zlen (concat (concat fs))) sched -> union sched (flat_vec fs) = None.
Proof.
  exists [[[]; []]]. split; [constructor; [solve_valid|constructor]|].
  intros sched H. apply Permutation_sym, Permutation_nil in H. subst. reflexivity.
Qed.
Print Assumptions C22_union_no_arcs_refuted.

(** C24: adding epsilon self-loops.  [with_loops f g] says that [g] has the
    states of [f], and that each non-final state has exactly one more arc, an
    epsilon self-loop of score zero, before its own arcs. *)
Definition with_loops (f g : nfsa) : Prop :=
  nstates g = nstates f /\
  forall i st, rd f i = Some st ->
    rd g i = Some (if i =? final f then st else mkArc i i 0 0 :: st).

Lemma with_loops_add f : with_loops f (add_loops f).
Proof.
  split; [apply zlen_add_loops|]. intros i st H. rewrite (rd_add_loops f i st H).
  pose proof (rd_Some_bound _ _ _ H). unfold final.
  destruct (i =? zlen f - 1) eqn:E.
  - now replace (i + 1 <? zlen f) with false by lia.
  - now replace (i + 1 <? zlen f) with true by lia.
Qed.

Theorem C24_add_loops_vec : forall fs sched1 sched2,
  Forall (fun f => src_ok f /\ forall a, In a (all_arcs f) -> src a <> final f) fs ->
  is_sched (zlen (concat (concat fs)) + zlen (concat fs)) sched1 ->
  is_sched (zlen (concat fs)) sched2 ->
  concat fs <> [] ->
  exists gs m, add_eps_loops_vec sched1 sched2 (flat_vec fs) =
      Some (mkVOut (flat_vec gs) (ids_of (concat gs)) m) /\
    Forall2 with_loops fs gs /\
    Forall2 (fun f g => forall w s, accepts_str g w s <-> accepts_str f w s) fs gs /\
    (forall i k a, rd m i = Some k -> rd (concat (concat gs)) i = Some a ->
       (k = -1 /\ exists q, 0 <= q /\ a = mkArc q q 0 0) \/ rd (concat (concat fs)) k = Some a).
Proof.
  intros fs sched1 sched2 OK H1 H2 Hne.
  destruct (add_eps_vec_eq fs OK sched1 sched2 H1 H2) as (rids & m & E & K).
  destruct (K Hne) as [-> ->]. exists (fs' fs), (map snd (concat (concat (LT fs)))).
  split; [exact E|]. unfold fs' at 1 2. split; [|split].
  - clear. induction fs; simpl; constructor; auto. apply with_loops_add.
  - clear. induction fs; simpl; constructor; auto. intros. apply add_loops_language.
  - intros i k a Hk Ha. rewrite rd_map in Hk. rewrite <- concat2_LT_arcs, rd_map in Ha.
    destruct (rd (concat (concat (LT fs))) i) as [t|] eqn:Et; [|discriminate].
    injection Hk as <-. injection Ha as <-. exact (add_eps_vec_map fs i t Et).
Qed.
Print Assumptions C24_add_loops_vec.

(** The 2-axis (single FSA) branch of the code computes the same. *)
Lemma k2_fill_ext {A} n m sched (b1 b2 : Z -> option (list (Z * A))) : is_sched m sched ->
  (forall i, 0 <= i < m -> b1 i = b2 i) -> k2_fill n sched b1 = k2_fill n sched b2.
Proof.
  intros Hs H. unfold k2_fill.
  assert (G : forall l arr, (forall i, In i l -> 0 <= i < m) -> k2_eval l b1 arr = k2_eval l b2 arr).
  { induction l as [|i l IH]; intros arr Hl; simpl; auto.
    rewrite H by (apply Hl; now left). destruct (b2 i); auto. destruct (wrs arr l0); auto.
    apply IH. intros; apply Hl; now right. }
  rewrite G; auto. intros i Hi. now apply (in_sched _ _ _ Hs).
Qed.

Lemma add_eps_single f sched1 sched2 : 2 <= nstates f ->
  is_sched (zlen (concat f) + zlen f) sched1 -> is_sched (zlen f) sched2 ->
  add_eps_loops sched1 sched2 (flat f) =
  (o <- add_eps_loops_vec sched1 sched2 (flat_vec [f]);;
   Some (mkOut (mkFsa (v_rs2 (vo_vec o)) (v_arcs (vo_vec o))) (vo_row_ids2 o) (vo_map o))).
Proof.
  intros Hn H1 H2. unfold nstates in Hn. unfold add_eps_loops, add_eps_loops_vec. rewrite num_states_flat.
  assert (E1 : concat [f] = f) by (simpl; apply app_nil_r).
  assert (RS1 : v_rs1 (flat_vec [f]) = [0; zlen f]).
  { unfold flat_vec, splits_of, exsum. simpl. do 2 f_equal. }
  assert (RS2 : v_rs2 (flat_vec [f]) = splits_of f) by (unfold flat_vec; simpl v_rs2; now rewrite app_nil_r).
  assert (AR : v_arcs (flat_vec [f]) = concat f) by (unfold flat_vec; simpl v_arcs; now rewrite app_nil_r).
  change (arcs (flat f)) with (concat f). change (FsaSpec.row_splits (flat f)) with (splits_of f).
  rewrite RS1, RS2, AR, !zlen_splits_of.
  replace (zlen f + 1 - 1) with (zlen f) by lia. unfold nstates.
  replace (zlen f <? 2) with false by lia. replace (zlen f =? 0) with false by lia.
  assert (NE : fsa_nonempty [0; zlen f] = [1]).
  { unfold fsa_nonempty. change (zlen [0; zlen f] - 1) with 1. change (zrange 1) with [0].
    simpl. change (rd [0; zlen f] 0) with (Some 0). change (rd [0; zlen f] (0 + 1)) with (Some (zlen f)).
    now replace (0 <? zlen f) with true by lia. }
  rewrite NE. change (exsum [1]) with [0; 1]. change (rd [0; 1] (zlen [0; 1] - 1)) with (Some 1).
  assert (R1 : row_splits_to_row_ids [0; zlen f] (zlen f) = Some (ids_of [f])).
  { pose proof (row_ids_of_splits [f]) as R. rewrite E1 in R. change (splits_of [f]) with (v_rs1 (flat_vec [f])) in R.
    now rewrite RS1 in R. }
  rewrite R1, row_ids_of_splits.
  assert (RI : forall s, 0 <= s < zlen f -> rd (ids_of [f]) s = Some 0).
  { intros s Hs. unfold ids_of. simpl. rewrite app_nil_r. apply rd_repeat. exact Hs. }
  assert (RIB : forall i s, rd (ids_of f) i = Some s -> 0 <= s < zlen f).
  { intros i s Hi. pose proof (rd_Some_bound _ _ _ Hi) as B. unfold ids_of in B. rewrite zlen_ids_from in B.
    destruct (rd_in_bound _ _ B) as (a & Ha). destruct (rd_concat_inv _ _ _ Ha) as (r & l & j & K1 & K2 & K3 & K4).
    rewrite Hi in K4. injection K4 as <-. exact (rd_Some_bound _ _ _ K1). }
  replace (zlen (concat f) + (zlen f - 1)) with (zlen (concat f) + zlen f - 1) by lia.
  rewrite (k2_fill_ext _ (zlen (concat f) + zlen f) sched1
    (seq_body (zlen (concat f)) (eps_copy_body (flat f) (ids_of f)) (eps_loop_body (flat f)))
    (seq_body (zlen (concat f)) (epsv_copy_body (flat_vec [f]) (ids_of [f]) (ids_of f) [0; 1])
                       (epsv_loop_body (flat_vec [f]) (ids_of [f]) [0; 1]))); auto.
  2: { intros i Hi. unfold seq_body. destruct (i <? zlen (concat f)) eqn:E.
    - unfold eps_copy_body, epsv_copy_body. rewrite AR. change (arcs (flat f)) with (concat f).
      destruct (rd (ids_of f) i) as [s|] eqn:Es; auto. rewrite (RI s) by (eapply RIB; eauto).
      change (rd [0; 1] 0) with (Some 0). cbv iota beta. now replace (i + 1 + s - 0) with (i + 1 + s) by lia.
    - unfold eps_loop_body, epsv_loop_body. rewrite RS1, RS2, num_states_flat.
      change (FsaSpec.row_splits (flat f)) with (splits_of f).
      rewrite RI by lia. change (rd [0; 1] 0) with (Some 0). change (rd [0; zlen f] 0) with (Some 0).
      change (rd [0; zlen f] (0 + 1)) with (Some (zlen f)).
      destruct (rd (splits_of f) (i - zlen (concat f))); auto. unfold nstates.
      replace (i - zlen (concat f) - 0) with (i - zlen (concat f)) by lia.
      cbv iota beta. now replace (z + (i - zlen (concat f)) - 0) with (z + (i - zlen (concat f))) by lia. }
  destruct (k2_fill _ sched1 _); auto.
  rewrite (k2_fill_ext _ (zlen f) sched2 (eps_rs_body (flat f)) (epsv_rs_body (flat_vec [f]) (ids_of [f]) [0; 1])); auto.
  2: { intros s Hs. unfold eps_rs_body, epsv_rs_body. rewrite RS1, RS2, num_states_flat, zlen_splits_of.
    change (FsaSpec.row_splits (flat f)) with (splits_of f).
    rewrite RI by lia. change (rd [0; 1] 0) with (Some 0).
    change (rd [0; zlen f] (0 + 1)) with (Some (zlen f)).
    destruct (rd (splits_of f) s); auto. unfold nstates. replace (z + s - 0) with (z + s) by lia.
    destruct (s + 1 <? zlen f) eqn:E; auto. replace (zlen f + 1 - 1) with (zlen f) by lia.
    now replace (s + 1 =? zlen f) with true by lia. }
  destruct (k2_fill _ sched2 _); reflexivity.
Qed.

Theorem C24_add_loops_fsa : forall f sched1 sched2,
  valid f -> is_sched (zlen (all_arcs f) + nstates f) sched1 -> is_sched (nstates f) sched2 ->
  exists g m, add_eps_loops sched1 sched2 (flat f) = Some (mkOut (flat g) (ids_of g) m) /\
    with_loops f g /\ valid g /\ (forall w s, accepts_str g w s <-> accepts_str f w s).
Proof.
  intros f sched1 sched2 Hv H1 H2. exists (add_loops f).
  destruct Hv as (Hs & Hn & Ha).
  assert (E1 : concat [f] = f) by (simpl; apply app_nil_r).
  assert (E2 : concat [add_loops f] = add_loops f) by (simpl; apply app_nil_r).
  destruct (add_eps_vec_eq [f]) with (sched1 := sched1) (sched2 := sched2) as (rids & m & E & K).
  - constructor; [|constructor]. split; auto. intros a Hin. now apply Ha.
  - now rewrite E1.
  - now rewrite E1.
  - destruct K as [K1 K2]; [rewrite E1; intros ->; cbv in Hn; lia|]. exists m.
    rewrite add_eps_single by auto. rewrite E. split; [|split; [apply with_loops_add|split]].
    + unfold fs'. cbn [vo_vec vo_row_ids2 vo_map map]. rewrite K1. unfold fs'. cbn [map].
      unfold flat_vec. rewrite !E2. reflexivity.
    + apply add_loops_valid. split; auto.
    + intros. apply add_loops_language.
Qed.
Print Assumptions C24_add_loops_fsa.

(** C24: removing epsilon self-loops, for every execution order: each state
    keeps, in order, exactly its arcs that are not epsilon self-loops. *)
Definition eps_self_loop (a : arc) : Prop := lab a = 0 /\ src a = dst a.

Theorem C24_remove_loops : forall fs sched,
  is_sched (zlen (concat (concat fs)) + 1) sched ->
  exists gs m, remove_eps_loops sched (flat_vec fs) = Some (mkVOut (flat_vec gs) (ids_of (concat gs)) m) /\
    Forall2 (Forall2 (fun st st' => exists keep,
      (forall a, keep a = true <-> ~ eps_self_loop a) /\ st' = filter keep st)) fs gs /\
    mapM (rd (concat (concat fs))) m = Some (concat (concat gs)).
Proof.
  intros fs sched Hs. set (P := fun a => negb (is_eps_self_loop a)).
  exists (map (map (filter P)) fs), (kept_from 0 (map P (concat (concat fs)))).
  assert (EC : concat (map (map (filter P)) fs) = map (filter P) (concat fs)) by now rewrite concat_map.
  unfold remove_eps_loops, flat_vec. cbn [v_rs1 v_rs2 v_arcs]. fold P.
  rewrite new2old_kept by now rewrite zlen_map.
  rewrite row_ids_of_splits, zlen_splits_of.
  replace (zlen (concat fs) + 1 - 1) with (zlen (concat fs)) by lia.
  rewrite index_last_filter, gather_filter. cbn [fst snd]. split; [|split].
  - rewrite EC, filter_concat. do 3 f_equal.
    unfold splits_of. f_equal. rewrite map_map. apply map_ext. intros; now rewrite zlen_map.
  - clear. induction fs as [|f fs IH]; simpl; constructor; auto. clear.
    induction f as [|st f IH]; simpl; constructor; auto. exists P. split; auto.
    intros a. unfold P, eps_self_loop, is_eps_self_loop. lia.
  - now rewrite EC, filter_concat.
Qed.
Print Assumptions C24_remove_loops.

(** C24: removing undoes adding on loop-free inputs. *)
Theorem C24_remove_undoes_add : forall fs sched1 sched2 sched3,
  Forall (fun f => src_ok f /\ forall a, In a (all_arcs f) -> src a <> final f /\ ~ eps_self_loop a) fs ->
  concat fs <> [] ->
  is_sched (zlen (concat (concat fs)) + zlen (concat fs)) sched1 ->
  is_sched (zlen (concat fs)) sched2 ->
  exists o, add_eps_loops_vec sched1 sched2 (flat_vec fs) = Some o /\
    (is_sched (zlen (v_arcs (vo_vec o)) + 1) sched3 ->
     exists o', remove_eps_loops sched3 (vo_vec o) = Some o' /\ vo_vec o' = flat_vec fs).
Proof.
  intros fs sched1 sched2 sched3 OK Hne H1 H2.
  assert (OK' : vec_ok fs).
  { eapply Forall_impl; [|exact OK]. intros f [Hs Ha]. split; auto. intros a Hin. now apply Ha. }
  destruct (add_eps_vec_eq fs OK' sched1 sched2 H1 H2) as (rids & m & E & K).
  eexists; split; [exact E|]. cbn [vo_vec]. intros H3.
  set (P := fun a => negb (is_eps_self_loop a)).
  change (v_arcs (flat_vec (fs' fs))) with (concat (concat (fs' fs))) in H3.
  unfold remove_eps_loops. cbn [v_rs1 v_rs2 v_arcs flat_vec]. fold P.
  rewrite new2old_kept by now rewrite zlen_map.
  rewrite row_ids_of_splits, zlen_splits_of.
  replace (zlen (concat (fs' fs)) + 1 - 1) with (zlen (concat (fs' fs))) by lia.
  rewrite index_last_filter, gather_filter. eexists; split; [reflexivity|].
  cbn [vo_vec fst snd].
  assert (EF : map (filter P) (concat (fs' fs)) = concat fs).
  { unfold fs'. clear - OK. induction OK as [|f fs [Hs Ha] OK IH]; simpl; auto.
    rewrite map_app, IH. f_equal. clear - Hs Ha. apply list_ext_rd; [now rewrite zlen_map, zlen_add_loops|].
    intros i Hi. rewrite zlen_map, zlen_add_loops in Hi. destruct (rd_in_bound _ _ Hi) as (st & Hst).
    rewrite rd_map, (rd_add_loops f i st Hst), Hst. simpl. f_equal.
    assert (F : filter P st = st).
    { assert (G : forall a, In a st -> P a = true).
      { intros a Hin. destruct (Ha a) as [_ N]; [apply in_concat; exists st; split; auto; eapply rd_In; eauto|].
        unfold P, is_eps_self_loop. unfold eps_self_loop in N. lia. }
      clear - G. induction st as [|a st IH]; simpl; auto. rewrite (G a) by now left. f_equal.
      apply IH. intros; apply G; now right. }
    destruct (i + 1 <? zlen f); auto. cbn [filter]. unfold P at 1, is_eps_self_loop. simpl lab. simpl src. simpl dst.
    replace (negb ((0 =? 0) && (i =? i))) with false by lia. auto. }
  unfold flat_vec. rewrite EF. rewrite filter_concat, EF. f_equal.
  unfold fs', splits_of. rewrite map_map. f_equal. apply map_ext. intros; now rewrite zlen_add_loops.
Qed.
Print Assumptions C24_remove_undoes_add.

Example C24_example : valid ex_abc /\ valid ex_d /\
  exists o o', add_eps_loops_vec (zrange 13) (zrange 7) (flat_vec [ex_abc; ex_d]) = Some o /\
    vo_map o = [-1; 0; 1; -1; 2; -1; 3; -1; 4; -1; 5] /\
    remove_eps_loops (zrange 12) (vo_vec o) = Some o' /\ vo_vec o' = flat_vec [ex_abc; ex_d].
Proof.
  split; [solve_valid|]. split; [solve_valid|].
  eexists _, _. split; [reflexivity|]. split; [reflexivity|]. split; reflexivity.
Qed.

(** The hypothesis that no arc leaves the final state cannot be dropped: the
    kFsaPropertiesValid test (fsa.cu:54-217) does not check it, and on such an
    FSA the copy kernel writes past the end of the output. *)
Theorem C24_arc_leaving_final_refuted :
  exists f, (src_ok f /\ 2 <= nstates f /\
     forall a, In a (all_arcs f) -> 0 <= dst a < nstates f /\ (lab a = -1 <-> dst a = final f)) /\
    add_eps_loops (zrange 4) (zrange 2) (flat f) = None.
Proof.
  exists [[mkArc 0 1 (-1) 0]; [mkArc 1 0 1 0]]. split; [|reflexivity].
  split; [apply src_okb_ok; reflexivity|]. split; [vm_compute; congruence|].
  intros a Ha. vm_compute in Ha. change (nstates [[mkArc 0 1 (-1) 0]; [mkArc 1 0 1 0]]) with 2.
  change (final [[mkArc 0 1 (-1) 0]; [mkArc 1 0 1 0]]) with 1. destruct Ha as [<-|[<-|[]]]; simpl; lia.
Qed.
Print Assumptions C24_arc_leaving_final_refuted.
