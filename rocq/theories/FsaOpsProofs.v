From Coq Require Import ZArith List Lia Bool Permutation.
From Coq Require Import ZifyBool ZifyNat.
From Verif Require Import Base RaggedModel RaggedSpec RaggedProofs FsaSpec FsaLemmas FsaOpsModel.
Import ListNotations.
Open Scope Z_scope.

(** ** LinearFsa *)
Fixpoint linear_arcs (i : Z) (syms : list Z) : list arc :=
  match syms with
  | [] => [mkArc i (i + 1) (-1) 0]
  | s :: t => mkArc i (i + 1) s 0 :: linear_arcs (i + 1) t
  end.

Definition linear_nested (syms : list Z) : nfsa :=
  map (fun a => [a]) (linear_arcs 0 syms) ++ [[]].

Lemma zlen_linear_arcs syms : forall i, zlen (linear_arcs i syms) = zlen syms + 1.
Proof. induction syms; intros; simpl; auto. rewrite !zlen_cons, IHsyms. lia. Qed.

Lemma rd_linear_arcs syms : forall k i, 0 <= i <= zlen syms ->
  rd (linear_arcs k syms) i =
  Some (mkArc (k + i) (k + i + 1) (match rd syms i with Some s => s | None => -1 end) 0).
Proof.
  induction syms as [|s t IH]; intros k i Hi; simpl.
  - change (zlen (@nil Z)) with 0 in Hi. assert (i = 0) by lia; subst.
    rewrite rd_cons_0, rd_nil. do 2 f_equal; lia.
  - rewrite zlen_cons in Hi. rewrite !rd_cons. destruct (i =? 0) eqn:E.
    + do 2 f_equal; lia.
    + rewrite IH by lia. do 2 f_equal; lia.
Qed.

Lemma map_zlen_singletons {A} (l : list A) : map zlen (map (fun a => [a]) l) = repeat 1 (length l).
Proof. induction l; simpl; auto. rewrite IHl. reflexivity. Qed.

Lemma concat_singletons {A} (l : list A) : concat (map (fun a => [a]) l) = l.
Proof. induction l; simpl; auto. now rewrite IHl. Qed.

Lemma zsum_repeat x k : zsum (repeat x k) = x * Z.of_nat k.
Proof. induction k; simpl; lia. Qed.

Lemma splits_linear syms : wr (zrange (zlen syms + 3)) (zlen syms + 2) (zlen syms + 1) =
  Some (splits_of (linear_nested syms)).
Proof.
  pose proof (zlen_nonneg syms).
  destruct (wr_Some (zrange (zlen syms + 3)) (zlen syms + 2) (zlen syms + 1)) as (l & E & HL & Hrd).
  { rewrite zlen_zrange; lia. }
  rewrite E. f_equal. rewrite zlen_zrange in HL by lia.
  assert (LN : zlen (linear_nested syms) = zlen syms + 2).
  { unfold linear_nested. rewrite zlen_app, zlen_map, zlen_linear_arcs. cbv [zlen length]. lia. }
  apply list_ext_rd.
  { rewrite zlen_splits_of, HL, LN. lia. }
  intros i Hi. rewrite Hrd. rewrite rd_splits_of by (rewrite LN; lia).
  destruct (i =? zlen syms + 2) eqn:Ei.
  - f_equal. rewrite firstn_all2 by (unfold zlen in *; lia).
    unfold linear_nested. rewrite concat_app, concat_singletons, zlen_app, zlen_linear_arcs.
    cbv [concat app zlen length]; lia.
  - rewrite rd_zrange by lia. f_equal. unfold linear_nested.
    rewrite firstn_app. rewrite map_length.
    pose proof (zlen_linear_arcs syms 0). unfold zlen in *.
    replace (Z.to_nat i - length (linear_arcs 0 syms))%nat with 0%nat by lia.
    simpl firstn. rewrite app_nil_r, firstn_map, concat_singletons, firstn_length. lia.
Qed.

Lemma linear_fsa_eq sched syms : ~ In (-1) syms -> is_sched (zlen syms + 1) sched ->
  linear_fsa sched syms =
  Some (mkOut (flat (linear_nested syms)) (ids_of (linear_nested syms)) []).
Proof.
  intros Hn Hs. pose proof (zlen_nonneg syms). unfold linear_fsa.
  rewrite <- (zlen_linear_arcs syms 0) in Hs.
  rewrite <- (zlen_linear_arcs syms 0) at 1.
  rewrite (k2_fill_list_fun (linear_arcs 0 syms) (zlen (linear_arcs 0 syms)) _ sched
     (fun i => [(i, mkArc i (i + 1) (match rd syms i with Some s => s | None => -1 end) 0)])); auto.
  - replace (zlen syms + 2 + 1) with (zlen syms + 3) by lia. rewrite splits_linear.
    do 2 f_equal.
    + unfold flat. f_equal. unfold linear_nested. rewrite concat_app, concat_singletons.
      simpl. now rewrite app_nil_r.
    + apply list_ext_rd.
      { unfold ids_of. rewrite zlen_ids_from, zlen_zrange by lia.
        unfold linear_nested. rewrite concat_app, concat_singletons, zlen_app, zlen_linear_arcs.
        cbv [concat app zlen length]; lia. }
      intros i Hi. rewrite zlen_zrange in Hi by lia. rewrite rd_zrange by lia.
      destruct (rd_concat (linear_nested syms) i (mkArc i (i + 1) (match rd syms i with Some s => s | None => -1 end) 0))
        as (r & l & j & H1 & H2 & H3 & H4).
      { unfold linear_nested. rewrite concat_app, concat_singletons.
        rewrite rd_app_l by (rewrite zlen_linear_arcs; lia). rewrite rd_linear_arcs by lia. auto. }
      rewrite H4. f_equal. unfold linear_nested in H1.
      rewrite rd_app in H1. destruct (r <? _) eqn:E.
      * rewrite rd_map in H1. rewrite zlen_map, zlen_linear_arcs in E.
        destruct (rd (linear_arcs 0 syms) r) eqn:Er; [|discriminate].
        injection H1 as <-. pose proof (rd_Some_bound _ _ _ Er).
        pose proof (rd_Some_bound _ _ _ H2) as B. rewrite zlen_cons in B. change (zlen (@nil arc)) with 0 in B.
        assert (j = 0) by lia; subst j. rewrite rd_cons_0 in H2. injection H2 as ->.
        rewrite rd_linear_arcs in Er by lia. injection Er as E1 E2 E3. lia.
      * pose proof (rd_Some_bound _ _ _ H1) as B. rewrite rd_cons in H1.
        destruct (_ =? 0); [|now rewrite rd_nil in H1]. injection H1 as <-. now rewrite rd_nil in H2.
  - intros i Hi. rewrite zlen_linear_arcs in Hi. unfold linear_fsa_body.
    destruct (i <? zlen syms) eqn:E.
    + destruct (rd_in_bound syms i) as (s & Es); [lia|]. rewrite Es.
      destruct (s =? -1) eqn:E1; [|reflexivity].
      exfalso. apply Hn. replace (-1) with s by lia. eapply rd_In; eauto.
    + replace (rd syms i) with (@None Z); auto. symmetry. apply rd_None. lia.
  - intros i w Hi [<-|[]]. simpl. rewrite zlen_linear_arcs in Hi.
    rewrite rd_linear_arcs by lia. do 2 f_equal; lia.
  - intros j Hj. exists j. split; auto. simpl; auto.
Qed.

Lemma all_arcs_linear syms : all_arcs (linear_nested syms) = linear_arcs 0 syms.
Proof.
  unfold all_arcs, linear_nested. rewrite concat_app, concat_singletons. simpl. apply app_nil_r.
Qed.

Lemma final_linear syms : final (linear_nested syms) = zlen syms + 1.
Proof.
  unfold final, linear_nested. rewrite zlen_app, zlen_map, zlen_linear_arcs. cbv [zlen length]; lia.
Qed.

Lemma linear_arcs_in syms k a : In a (linear_arcs k syms) -> k <= src a /\ dst a = src a + 1.
Proof.
  revert k; induction syms as [|s t IH]; intros k H; simpl in H.
  - destruct H as [<-|[]]; simpl; lia.
  - destruct H as [<-|H]; simpl; [lia|]. apply IH in H; lia.
Qed.

Lemma linear_path_step k syms A p fin : (forall a, In a A -> src a < k) ->
  fin = k + zlen syms + 1 ->
  path (A ++ linear_arcs k syms) k p fin <-> p = linear_arcs k syms.
Proof.
  revert k A p; induction syms as [|s t IH]; intros k A p HA Hf.
  - change (zlen (@nil Z)) with 0 in Hf. simpl. split.
    + intros H. apply path_inv in H as [(-> & E)|(a & p' & -> & Ha & E & Hp)]; [lia|].
      apply in_app_or in Ha as [Ha|[<-|[]]]; [apply HA in Ha; lia|].
      f_equal. simpl in Hp. apply path_inv in Hp as [(-> & E')|(a' & p'' & -> & Ha' & E' & Hp')]; auto.
      apply in_app_or in Ha' as [Ha'|[<-|[]]]; [apply HA in Ha'; lia|]. simpl in *. lia.
    + intros ->. apply path_step; auto; [apply in_or_app; simpl; auto|]. simpl.
      replace fin with (k + 1) by lia. constructor.
  - rewrite zlen_cons in Hf. simpl.
    specialize (IH (k + 1) (A ++ [mkArc k (k + 1) s 0])).
    assert (EQ : A ++ mkArc k (k + 1) s 0 :: linear_arcs (k + 1) t =
                 (A ++ [mkArc k (k + 1) s 0]) ++ linear_arcs (k + 1) t) by now rewrite <- app_assoc.
    assert (HA' : forall a, In a (A ++ [mkArc k (k + 1) s 0]) -> src a < k + 1).
    { intros a Ha. apply in_app_or in Ha as [Ha|[<-|[]]]; [apply HA in Ha|simpl]; lia. }
    rewrite EQ. split.
    + intros H. apply path_inv in H as [(-> & E)|(a & p' & -> & Ha & E & Hp)].
      { pose proof (zlen_nonneg t). lia. }
      rewrite <- app_assoc in Ha. apply in_app_or in Ha as [Ha|[<-|Ha]].
      * apply HA in Ha; lia.
      * f_equal. apply IH; auto. lia.
      * apply linear_arcs_in in Ha. lia.
    + intros ->. apply path_step; auto; [apply in_or_app; left; apply in_or_app; simpl; auto|].
      simpl. apply IH; auto. lia.
Qed.

Lemma labels_linear syms k : labels (linear_arcs k syms) = syms ++ [-1].
Proof. revert k; induction syms; intros; simpl; auto. unfold labels in *. simpl. now rewrite IHsyms. Qed.
Lemma score_linear syms k : score (linear_arcs k syms) = 0.
Proof. revert k; induction syms; intros; simpl; auto. unfold score in *. simpl. now rewrite IHsyms. Qed.

Lemma linear_language syms w s : accepts (linear_nested syms) w s <-> w = syms /\ s = 0.
Proof.
  unfold accepts. rewrite all_arcs_linear, final_linear. split.
  - intros (p & Hp & Hl & Hs).
    apply (linear_path_step 0 syms []) in Hp; [|simpl; tauto|lia]. subst p.
    rewrite labels_linear in Hl. rewrite score_linear in Hs.
    apply app_inj_tail in Hl as [-> _]; auto.
  - intros [-> ->]. exists (linear_arcs 0 syms). rewrite labels_linear, score_linear.
    split; auto. apply (linear_path_step 0 syms []); simpl; auto; try tauto; try lia.
Qed.

(** ** Closure *)
Definition closure_arc (fin : Z) (a : arc) : arc :=
  if dst a =? fin then mkArc (src a) 0 0 (sc a) else a.
Definition new_final_arc (fin : Z) : arc := mkArc 0 fin (-1) 0.

Definition closure_nested (f : nfsa) : nfsa :=
  match f with
  | [] => []
  | st0 :: rest => (map (closure_arc (final f)) st0 ++ [new_final_arc (final f)])
                     :: map (map (closure_arc (final f))) rest
  end.

Definition closure_map (f : nfsa) : list Z :=
  match f with
  | [] => []
  | st0 :: rest => zrange (zlen st0) ++ [-1] ++
                   map (fun i => zlen st0 + i) (zrange (zlen (concat rest)))
  end.

Lemma num_states_flat f : num_states (flat f) = zlen f.
Proof. unfold num_states, flat; simpl. rewrite zlen_splits_of; lia. Qed.

Lemma map_zlen_map {A B} (g : A -> B) ll : map zlen (map (map g) ll) = map zlen ll.
Proof. rewrite map_map. apply map_ext. intros; apply zlen_map. Qed.

Lemma exsum_from_shift l : forall a b, map (fun x => x + b) (exsum_from a l) = exsum_from (a + b) l.
Proof.
  induction l as [|x l IH]; intros a b; simpl; auto.
  rewrite IH. do 2 f_equal. lia.
Qed.

Lemma src_closure_arc fin a : src (closure_arc fin a) = src a.
Proof. unfold closure_arc. now destruct (dst a =? fin). Qed.

Lemma closure_eq f sched1 sched2 : src_ok f -> 2 <= zlen f -> concat f <> [] ->
  is_sched (zlen (concat f)) sched1 -> is_sched (zlen f + 1) sched2 ->
  closure sched1 sched2 (flat f) =
  Some (mkOut (flat (closure_nested f)) (ids_of (closure_nested f)) (closure_map f)).
Proof.
  intros Hsrc Hn Hne Hs1 Hs2. unfold closure. rewrite num_states_flat.
  replace (zlen f <? 2) with false by lia. simpl arcs. simpl row_splits.
  rewrite row_ids_of_splits.
  destruct f as [|st0 rest]; [now cbv in Hne|].
  set (f := st0 :: rest) in *.
  set (fin := final f) in *.
  set (T := fun (i : Z) (a : arc) => (closure_arc fin a, src a, i)).
  set (out := imap T 0 st0 ++ [(new_final_arc fin, 0, -1)] ++ imap T (zlen st0) (concat rest)).
  pose proof (zlen_nonneg st0). pose proof (zlen_nonneg (concat rest)).
  assert (Lout : zlen out = zlen (concat f) + 1).
  { unfold out, f. simpl concat. rewrite !zlen_app, !zlen_imap. cbv [zlen length]; lia. }
  assert (Lf : zlen (concat f) = zlen st0 + zlen (concat rest)).
  { unfold f; simpl; apply zlen_app. }
  assert (RS1 : rd (splits_of f) 1 = Some (zlen st0)).
  { rewrite rd_splits_of by lia. unfold f. change (Z.to_nat 1) with 1%nat. simpl.
    now rewrite app_nil_r. }
  (* facts about reading an arc *)
  assert (R : forall i, 0 <= i < zlen (concat f) -> exists a r l,
     rd (concat f) i = Some a /\ rd (ids_of f) i = Some r /\ src a = r /\
     rd f r = Some l /\ 0 <= i - zlen (concat (firstn (Z.to_nat r) f)) < zlen l /\
     rd (splits_of f) r = Some (zlen (concat (firstn (Z.to_nat r) f))) /\
     rd (splits_of f) (r + 1) = Some (zlen (concat (firstn (Z.to_nat r) f)) + zlen l) /\
     (r = 0 <-> i < zlen st0)).
  { intros i Hi. destruct (rd_in_bound (concat f) i Hi) as (a & Ha).
    destruct (rd_concat f i a Ha) as (r & l & j & H1 & H2 & H3 & H4).
    pose proof (rd_Some_bound _ _ _ H1). pose proof (rd_Some_bound _ _ _ H2).
    exists a, r, l. repeat split; auto.
    - eapply Hsrc; eauto. eapply rd_In; eauto.
    - lia.
    - lia.
    - apply rd_splits_of; lia.
    - now apply splits_of_next.
    - intros ->. unfold f in H1. rewrite rd_cons_0 in H1. injection H1 as <-.
      change (Z.to_nat 0) with 0%nat in H3. cbn [firstn concat] in H3. change (zlen (@nil arc)) with 0 in H3. lia.
    - intros Hlt. destruct (Z.eq_dec r 0); auto. exfalso.
      unfold f in H3. replace (Z.to_nat r) with (S (Z.to_nat (r - 1))) in H3 by lia. simpl in H3.
      rewrite zlen_app in H3. pose proof (zlen_nonneg (concat (firstn (Z.to_nat (r - 1)) rest))). lia. }
  assert (HB : forall i, 0 <= i < zlen (concat f) -> exists a, rd (concat f) i = Some a /\
     closure_body (flat f) (ids_of f) i = Some (
       (if (i <? zlen st0) && (i =? zlen st0 - 1) then [(zlen st0, (new_final_arc fin, 0, -1))] else [])
       ++ (if zlen st0 =? 0 then [(0, (new_final_arc fin, 0, -1))] else [])
       ++ [(if i <? zlen st0 then i else i + 1, T i a)])).
  { intros i Hi. destruct (R i Hi) as (a & r & l & H1 & H2 & H3 & H4 & H5 & H6 & H7 & H8).
    pose proof (rd_Some_bound _ _ _ H4). exists a; split; auto.
    unfold closure_body. rewrite num_states_flat. change (row_splits (flat f)) with (splits_of f). change (arcs (flat f)) with (concat f).
    rewrite H2, H6, H7, H1, RS1. fold fin. unfold T. rewrite H3.
    replace (r >? 0) with (negb (i <? zlen st0)) by (destruct (i <? zlen st0) eqn:E; lia).
    change (zlen f - 1) with fin.
    assert (Esrc : src (if dst a =? fin then mkArc r 0 0 (sc a) else a) = r)
      by (destruct (dst a =? fin); auto).
    rewrite Esrc. unfold closure_arc. rewrite H3.
    destruct (i <? zlen st0) eqn:E; simpl negb; cbn [andb].
    - assert (R0 : r = 0) by (apply H8; lia). clear H8. rewrite R0 in H4 |- *. unfold f in H4. rewrite rd_cons_0 in H4. injection H4 as <-.
      change (Z.to_nat 0) with 0%nat. cbn [firstn concat]. change (zlen (@nil arc)) with 0.
      replace (i - 0 =? 0 + zlen st0 - 0 - 1) with (i =? zlen st0 - 1) by lia.
      destruct (i =? zlen st0 - 1) eqn:E2; auto.
      replace (i + 1) with (zlen st0) by lia. auto.
    - destruct (zlen st0 =? 0); auto. }
  assert (F1 : k2_fill (zlen (concat f) + 1) sched1 (closure_body (flat f) (ids_of f)) = Some out).
  { rewrite <- Lout. apply (k2_fill_list out (zlen (concat f))); auto.
    - intros i Hi. destruct (HB i Hi) as (a & Ha & E). eexists; split; [exact E|].
      apply Forall_app; split; [|apply Forall_app; split].
      + destruct ((i <? zlen st0) && (i =? zlen st0 - 1)) eqn:E1; repeat constructor. simpl.
        unfold out. rewrite rd_app_r by (rewrite zlen_imap; lia). rewrite zlen_imap.
        replace (zlen st0 - zlen st0) with 0 by lia. reflexivity.
      + destruct (zlen st0 =? 0) eqn:E1; repeat constructor. simpl.
        unfold out. rewrite rd_app_r by (rewrite zlen_imap; lia). rewrite zlen_imap.
        replace (0 - zlen st0) with 0 by lia. reflexivity.
      + repeat constructor. simpl. unfold out.
        rewrite Lf in Hi. unfold f in Ha. simpl concat in Ha. rewrite rd_app in Ha.
        destruct (i <? zlen st0) eqn:E1.
        * rewrite rd_app_l by (rewrite zlen_imap; lia). rewrite rd_imap, Ha.
          reflexivity.
        * rewrite rd_app_r by (rewrite zlen_imap; lia). rewrite zlen_imap.
          rewrite rd_app_r by (change (zlen [(new_final_arc fin, 0, -1)]) with 1; lia). rewrite rd_imap.
          change (zlen [(new_final_arc fin, 0, -1)]) with 1.
          replace (i + 1 - zlen st0 - 1) with (i - zlen st0) by lia.
          rewrite Ha. simpl. unfold T. do 2 f_equal. lia.
    - intros j Hj. rewrite Lout in Hj.
      destruct (Z.eq_dec j (zlen st0)) as [Ej|Ej].
      + (* the new arc *)
        assert (0 < zlen (concat f)).
        { destruct (concat f); [congruence|]. rewrite zlen_cons. pose proof (zlen_nonneg l). lia. }
        destruct (Z.eq_dec (zlen st0) 0) as [E0|E0].
        * destruct (HB 0) as (a & Ha & E); [lia|]. exists 0. eexists. split; [lia|]. split; [exact E|].
          replace (zlen st0 =? 0) with true by lia. rewrite !map_app, !in_app_iff. right; left. simpl. lia.
        * destruct (HB (zlen st0 - 1)) as (a & Ha & E); [lia|]. exists (zlen st0 - 1). eexists.
          split; [lia|]. split; [exact E|].
          replace ((zlen st0 - 1 <? zlen st0) && (zlen st0 - 1 =? zlen st0 - 1)) with true by lia.
          rewrite !map_app, !in_app_iff. left. simpl. lia.
      + set (i := if j <? zlen st0 then j else j - 1).
        assert (Hi : 0 <= i < zlen (concat f)) by (unfold i; destruct (j <? zlen st0) eqn:E; lia).
        destruct (HB i Hi) as (a & Ha & E). exists i. eexists. split; [lia|]. split; [exact E|].
        rewrite !map_app, !in_app_iff. right; right. simpl. left. unfold i.
        destruct (j <? zlen st0) eqn:E1; [rewrite E1; lia|].
        destruct (j - 1 <? zlen st0) eqn:E2; lia. }
  rewrite F1.
  assert (F2 : k2_fill (zlen f + 1) sched2 (closure_rs_body (flat f)) = Some (splits_of (closure_nested f))).
  { assert (LN : zlen (splits_of (closure_nested f)) = zlen f + 1).
    { rewrite zlen_splits_of. unfold f, closure_nested. rewrite !zlen_cons, zlen_map. lia. }
    rewrite <- LN. apply (k2_fill_list _ (zlen f + 1)); auto.
    - intros i Hi. unfold closure_rs_body. destruct (i =? 0) eqn:E.
      + eexists; split; [reflexivity|]. repeat constructor. simpl.
        assert (i = 0) by lia; subst i.
        destruct (splits_of_ok (closure_nested f)) as (_ & HH0 & _). auto.
      + change (row_splits (flat f)) with (splits_of f). destruct (rd_in_bound (splits_of f) i) as (x & Hx).
        { rewrite zlen_splits_of; lia. }
        rewrite Hx. eexists; split; [reflexivity|]. repeat constructor. simpl.
        unfold splits_of, exsum, closure_nested, f in *. simpl map in *. cbn [exsum_from] in *.
        rewrite map_zlen_map.
        rewrite rd_cons in Hx. rewrite E in Hx. rewrite rd_cons, E.
        rewrite zlen_app, zlen_map. cbv [new_final_arc]. change (zlen [_]) with 1.
        replace (0 + (zlen st0 + 1)) with (0 + zlen st0 + 1) by lia.
        rewrite <- exsum_from_shift, rd_map, Hx. reflexivity.
    - intros j Hj. rewrite LN in Hj. exists j. unfold closure_rs_body. destruct (j =? 0) eqn:E.
      + eexists; split; [lia|split; [reflexivity|]]. simpl; auto.
      + change (row_splits (flat f)) with (splits_of f). destruct (rd_in_bound (splits_of f) j) as (x & Hx).
        { rewrite zlen_splits_of; lia. }
        rewrite Hx. eexists; split; [lia|split; [reflexivity|]]. simpl; auto. }
  rewrite F2. do 2 f_equal.
  - unfold flat. f_equal. unfold out, closure_nested, f. simpl.
    rewrite !map_app. simpl. rewrite !map_imap. simpl. rewrite !imap_const.
    fold f. change (final f) with fin. rewrite <- concat_map, <- app_assoc. reflexivity.
  - rewrite ids_of_src.
    + unfold out, closure_nested, f. simpl.
      rewrite !map_app. simpl. rewrite !map_imap. simpl. rewrite !imap_const.
      rewrite concat_map, !map_map, <- app_assoc. fold f. change (final f) with fin. f_equal.
      * apply map_ext. intros; now rewrite src_closure_arc.
      * cbn [app]. f_equal. rewrite <- !concat_map, map_map.
        apply map_ext. intros. now rewrite src_closure_arc.
    + intros i st a Hi Ha. unfold closure_nested, f in Hi. rewrite rd_cons in Hi.
      fold f in Hi. change (final f) with fin in Hi.
      destruct (i =? 0) eqn:E.
      * injection Hi as <-. apply in_app_or in Ha as [Ha|[<-|[]]]; [|simpl; lia].
        apply in_map_iff in Ha as (b & <- & Hb). rewrite src_closure_arc.
        rewrite (Hsrc 0 st0 b); auto. lia.
      * rewrite rd_map in Hi. destruct (rd rest (i - 1)) as [st'|] eqn:E'; [|discriminate].
        injection Hi as <-. apply in_map_iff in Ha as (b & <- & Hb). rewrite src_closure_arc.
        rewrite (Hsrc i st' b); auto. unfold f. rewrite rd_cons, E. auto.
  - unfold out, closure_map, f. rewrite !map_app, !map_imap. simpl. rewrite !imap_index.
    f_equal. rewrite <- (map_id (zrange (zlen st0))) at 2. apply map_ext. intros; lia.
Qed.

Lemma closure_in f a : In a (all_arcs (closure_nested f)) <->
  f <> [] /\ (a = new_final_arc (final f) \/ exists b, In b (all_arcs f) /\ a = closure_arc (final f) b).
Proof.
  unfold all_arcs. destruct f as [|st0 rest]; [simpl; tauto|].
  cbn [closure_nested concat]. rewrite !in_app_iff, <- concat_map, !in_map_iff. split.
  - intros [[(b & <- & Hb)|[<-|[]]]|(b & <- & Hb)]; (split; [discriminate|]); auto; right; exists b;
      rewrite in_app_iff; auto.
  - intros (_ & [->|(b & Hb & ->)]); [left; right; simpl; auto|].
    apply in_app_or in Hb as [Hb|Hb]; eauto.
Qed.

Lemma final_closure f : final (closure_nested f) = final f.
Proof. destruct f; auto. unfold final, closure_nested. rewrite !zlen_cons, zlen_map. auto. Qed.

Definition no_arc_into_start (f : nfsa) : Prop := forall a, In a (all_arcs f) -> dst a <> 0.

Lemma closure_path_down f : valid f -> no_arc_into_start f -> forall p q,
  path (all_arcs (closure_nested f)) q p (final f) -> q <> final f ->
  exists u su ws, strip (labels p) = u ++ concat (map fst ws) ++ [-1] /\
    score p = su + zsum (map snd ws) /\
    Forall (fun x => accepts_str f (fst x) (snd x)) ws /\
    ((q = 0 /\ u = [] /\ su = 0) \/
     exists p0, path (all_arcs f) q p0 (final f) /\ strip (labels p0) = u ++ [-1] /\ score p0 = su).
Proof.
  intros (Hsrc & Hn & Hv) Hns. induction p as [|a p IH]; intros q Hp Hq.
  - apply path_inv in Hp as [(_ & E)|(a & p' & E & _)]; [congruence|discriminate].
  - apply path_inv in Hp as [(E & _)|(a' & p' & E & Ha & Es & Hp)]; [discriminate|].
    injection E as <- <-. apply closure_in in Ha as (_ & [->|(b & Hb & ->)]).
    + (* the new arc: the path must stop *)
      simpl in Es, Hp. subst q.
      apply path_inv in Hp as [(-> & _)|(a' & p' & -> & Ha' & Es' & _)].
      * exists [], 0, []. simpl. repeat split; auto.
      * exfalso. apply closure_in in Ha' as (_ & [->|(b & Hb & ->)]); [simpl in Es'; congruence|].
        rewrite src_closure_arc in Es'. apply Hv in Hb. tauto.
    + rewrite src_closure_arc in Es. destruct (Hv b Hb) as (Hd & Hl & Hf & _).
      destruct (Z.eq_dec (dst b) (final f)) as [Ef|Ef].
      * (* an arc that entered the final state: back to 0 *)
        unfold closure_arc in Hp |- *. replace (dst b =? final f) with true in * by lia. simpl in Hp.
        destruct (IH 0 Hp) as (u & su & ws & H1 & H2 & H3 & H4).
        { unfold final. unfold nstates in Hn. lia. }
        assert (PB : exists p0, path (all_arcs f) q p0 (final f) /\ strip (labels p0) = [] ++ [-1] /\ score p0 = sc b).
        { exists [b]. split; [|split].
          - rewrite <- Es, <- Ef. now apply path_one.
          - simpl. replace (lab b) with (-1) by (symmetry; tauto). reflexivity.
          - unfold score; simpl; lia. }
        rewrite labels_cons, score_cons. simpl lab. simpl sc.
        destruct H4 as [(E0 & -> & ->)|HP]; cbn [strip filter]; change (negb (0 =? 0)) with false; cbn iota;
          fold (strip (labels p)); rewrite H1, H2.
        -- exists [], (sc b), ws. simpl. split; [auto|]. split; [lia|]. split; auto.
        -- exists [], (sc b), ((u, su) :: ws). simpl.
           split; [now rewrite <- app_assoc|]. split; [lia|]. split; auto.
      * unfold closure_arc in *. replace (dst b =? final f) with false in * by lia.
        destruct (IH (dst b) Hp Ef) as (u & su & ws & H1 & H2 & H3 & [(E0 & _)|(p0 & P1 & P2 & P3)]).
        { exfalso. now apply (Hns b Hb). }
        exists (strip [lab b] ++ u), (sc b + su), ws. rewrite score_cons, H2.
        replace (strip (labels (b :: p))) with (strip [lab b] ++ strip (labels p))
          by (now rewrite <- strip_app).
        rewrite H1, <- app_assoc. repeat split; auto; [lia|].
        right. exists (b :: p0). split; [|split].
        -- apply path_step; auto.
        -- rewrite labels_cons. change (lab b :: labels p0) with ([lab b] ++ labels p0).
           now rewrite strip_app, P2, app_assoc.
        -- rewrite score_cons; lia.
Qed.

Lemma closure_path_up f : valid f -> forall p q, path (all_arcs f) q p (final f) -> q <> final f ->
  exists p', path (all_arcs (closure_nested f)) q p' 0 /\ score p' = score p /\
    strip (labels p) = strip (labels p') ++ [-1].
Proof.
  intros (Hsrc & Hn & Hv). assert (Hne : f <> []) by (intros ->; cbv in Hn; lia).
  induction p as [|a p IH]; intros q Hp Hq.
  - apply path_inv in Hp as [(_ & E)|(a & p' & E & _)]; [congruence|discriminate].
  - apply path_inv in Hp as [(E & _)|(a' & p' & E & Ha & Es & Hp)]; [discriminate|].
    injection E as <- <-. destruct (Hv a Ha) as (Hd & Hl & Hf & Hs).
    assert (Hin : In (closure_arc (final f) a) (all_arcs (closure_nested f))).
    { apply closure_in; split; auto. right; eauto. }
    destruct (Z.eq_dec (dst a) (final f)) as [Ef|Ef].
    + assert (p = []).
      { rewrite Ef in Hp. apply path_inv in Hp as [(-> & _)|(a' & p' & -> & Ha' & Es' & _)]; auto.
        apply Hv in Ha'. tauto. }
      subst p. exists [closure_arc (final f) a].
      assert (Hl1 : lab a = -1) by tauto.
      repeat split.
      * apply path_step; auto; [now rewrite src_closure_arc|].
        unfold closure_arc. replace (dst a =? final f) with true by lia. simpl. constructor.
      * unfold closure_arc. replace (dst a =? final f) with true by lia. reflexivity.
      * unfold closure_arc. replace (dst a =? final f) with true by lia. simpl.
        rewrite Hl1. reflexivity.
    + destruct (IH (dst a) Hp Ef) as (p' & P1 & P2 & P3).
      exists (a :: p'). assert (Ec : closure_arc (final f) a = a).
      { unfold closure_arc. now replace (dst a =? final f) with false by lia. }
      rewrite Ec in Hin. repeat split.
      * apply path_step; auto.
      * now rewrite !score_cons, P2.
      * change (labels (a :: p)) with ([lab a] ++ labels p).
        change (labels (a :: p')) with ([lab a] ++ labels p').
        now rewrite !strip_app, P3, app_assoc.
Qed.

Lemma app_tail_inv {A} (u v : list A) x : u ++ [x] = v ++ [x] -> u = v.
Proof. intros H. now apply app_inj_tail in H. Qed.

Lemma closure_language f w s : valid f -> no_arc_into_start f ->
  accepts_str (closure_nested f) w s <-> star (accepts_str f) w s.
Proof.
  intros Hv Hns. assert (Hfin : 0 <> final f).
  { destruct Hv as (_ & Hn & _). unfold final, nstates in *; lia. }
  split.
  - intros (p & Hp & Hl & Hs). rewrite final_closure in Hp.
    destruct (closure_path_down f Hv Hns p 0 Hp Hfin) as (u & su & ws & H1 & H2 & H3 & H4).
    rewrite H1, app_assoc in Hl. apply app_tail_inv in Hl.
    destruct H4 as [(_ & -> & ->)|(p0 & P1 & P2 & P3)].
    + exists ws. repeat split; auto. lia.
    + exists ((u, su) :: ws). repeat split; auto; simpl; [|lia].
      constructor; auto. exists p0; auto.
  - intros (ws & HF & -> & ->).
    assert (G : exists p, path (all_arcs (closure_nested f)) 0 p 0 /\
        strip (labels p) = concat (map fst ws) /\ score p = zsum (map snd ws)).
    { induction HF as [|[u su] ws (p & P1 & P2 & P3) HF (q & Q1 & Q2 & Q3)].
      - exists []. repeat split; constructor.
      - destruct (closure_path_up f Hv p 0 P1 Hfin) as (p' & R1 & R2 & R3).
        exists (p' ++ q). simpl in *. repeat split.
        + eapply path_app; eauto.
        + rewrite labels_app, strip_app, Q2. f_equal.
          rewrite R3 in P2. now apply app_tail_inv in P2.
        + rewrite score_app, R2. lia. }
    destruct G as (p & G1 & G2 & G3).
    exists (p ++ [new_final_arc (final f)]). rewrite final_closure. repeat split.
    + eapply path_app; eauto. apply path_step; [|reflexivity|constructor].
      apply closure_in. split; auto. intros ->. destruct Hv as (_ & Hn & _). cbv in Hn; lia.
    + rewrite labels_app, strip_app, G2. reflexivity.
    + rewrite score_app, G3. unfold score; simpl. lia.
Qed.
