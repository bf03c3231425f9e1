From Coq Require Import ZArith List Lia Bool Permutation.
From Coq Require Import ZifyBool ZifyNat.
From Verif Require Import Base RaggedModel RaggedSpec RaggedProofs FsaSpec FsaLemmas FsaOpsModel FsaOpsProofs.
Import ListNotations.
Open Scope Z_scope.

Section U.
  Variable fs : list nfsa.

  (** Every FSA has at least two states, at least one arc, arcs stored with
      their source state and no arc leaving the final state. *)
  Definition union_ok : Prop :=
    Forall (fun f => src_ok f /\ 2 <= nstates f /\ all_arcs f <> [] /\
                     forall a, In a (all_arcs f) -> src a <> final f) fs.

  Definition uoff (k : Z) : Z := off1 fs k + 1 - k.
  Definition ufin : Z := zlen (concat fs) + 1 - zlen fs.
  Definition ufin_of (k : Z) : Z := match rd fs k with Some f => final f | None => 0 end.
  Definition uarc (k : Z) (a : arc) : arc :=
    mkArc (src a + uoff k) (if dst a =? ufin_of k then ufin else dst a + uoff k) (lab a) (sc a).
  Definition ueps (k : Z) : arc := mkArc 0 (uoff k) 0 0.

  Definition union_nested : nfsa :=
    [imap (fun k _ => ueps k) 0 fs] ++
    concat (imap (fun k f => map (map (uarc k)) (removelast f)) 0 fs) ++ [[]].

  Hypothesis OK : union_ok.

  Lemma union_ok_rd k f : rd fs k = Some f -> src_ok f /\ 2 <= nstates f /\ all_arcs f <> [] /\
                     forall a, In a (all_arcs f) -> src a <> final f.
  Proof. intros H. apply rd_In in H. unfold union_ok in OK. rewrite Forall_forall in OK. auto. Qed.

  Lemma concat_removelast f : src_ok f -> (forall a, In a (all_arcs f) -> src a <> final f) ->
    2 <= nstates f -> concat (removelast f) = concat f.
  Proof.
    intros Hs Hf Hn. assert (Hne : f <> []) by (intros ->; cbv in Hn; lia).
    rewrite (app_removelast_last [] Hne) at 2. rewrite concat_app. simpl.
    assert (E : last f [] = []); [|rewrite E; now rewrite !app_nil_r].
    destruct (last f []) as [|a t] eqn:E; auto. exfalso.
    assert (R : rd f (final f) = Some (a :: t)).
    { rewrite (app_removelast_last [] Hne) at 1. rewrite E.
      pose proof (f_equal zlen (app_removelast_last [] Hne)) as L. rewrite zlen_app in L.
      change (zlen [last f []]) with 1 in L.
      unfold final. rewrite rd_app_r by lia.
      replace (zlen f - 1 - zlen (removelast f)) with 0 by lia. reflexivity. }
    apply (Hf a).
    - apply in_concat. exists (a :: t). split; [eapply rd_In; eauto|now left].
    - eapply Hs; eauto. now left.
  Qed.

  Lemma zlen_removelast {A} (l : list A) : l <> [] -> zlen (removelast l) = zlen l - 1.
  Proof.
    intros H. destruct l as [|d l]; [congruence|].
    pose proof (f_equal zlen (app_removelast_last d H)) as L. rewrite zlen_app in L.
    change (zlen [last (d :: l) d]) with 1 in L. lia.
  Qed.

  (** state counting *)
  Lemma uoff_next k f : rd fs k = Some f -> uoff (k + 1) = uoff k + nstates f - 1.
  Proof. intros H. unfold uoff, nstates. rewrite (off1_next fs k f H). lia. Qed.

  Lemma uoff_mono k k' : 0 <= k <= k' -> k' <= zlen fs -> uoff k <= uoff k'.
  Proof.
    intros H. replace k' with (k + Z.of_nat (Z.to_nat (k' - k))) by lia.
    generalize (Z.to_nat (k' - k)) as d. induction d as [|d IH]; intros Hb.
    - replace (k + Z.of_nat 0) with k by lia. lia.
    - destruct (rd_in_bound fs (k + Z.of_nat d)) as (f & Hf); [lia|].
      replace (k + Z.of_nat (S d)) with (k + Z.of_nat d + 1) by lia.
      rewrite (uoff_next _ f Hf). destruct (union_ok_rd _ _ Hf) as (_ & Hn & _). lia.
  Qed.

  Lemma uoff_0 : uoff 0 = 1.
  Proof. unfold uoff, off1. change (Z.to_nat 0) with 0%nat. reflexivity. Qed.

  Lemma uoff_end : uoff (zlen fs) = ufin.
  Proof.
    unfold uoff, ufin, off1. rewrite firstn_all2; auto. unfold zlen; lia.
  Qed.

  Lemma removelast_len_sum : forall l k, Forall (fun f : nfsa => 2 <= nstates f) l ->
    zlen (concat (imap (fun k f => map (map (uarc k)) (removelast f)) k l)) = zlen (concat l) - zlen l.
  Proof.
    induction l as [|f l IH]; intros k H; simpl; auto.
    inversion H; subst. rewrite !zlen_app, IH, zlen_map, zlen_cons by auto.
    rewrite zlen_removelast; [lia|]. intros ->. cbv in *. lia.
  Qed.

  Lemma union_ok_2 : Forall (fun f : nfsa => 2 <= nstates f) fs.
  Proof. eapply Forall_impl; [|exact OK]. cbv beta. tauto. Qed.

  Lemma zlen_union_nested : zlen union_nested = zlen (concat fs) + 2 - zlen fs.
  Proof.
    unfold union_nested. rewrite !zlen_app, removelast_len_sum by apply union_ok_2.
    change (zlen [imap (fun k _ => ueps k) 0 fs]) with 1. change (zlen [@nil arc]) with 1. lia.
  Qed.

  Lemma arcs_union_aux : forall l k, (forall f, In f l -> src_ok f /\ 2 <= nstates f /\
      forall a, In a (all_arcs f) -> src a <> final f) ->
    concat (concat (imap (fun k f => map (map (uarc k)) (removelast f)) k l)) =
    concat (imap (fun k l => map (uarc k) l) k (map (@concat arc) l)).
  Proof.
    induction l as [|f l IH]; intros k H; simpl; auto.
    rewrite concat_app, IH by (intros; apply H; now right). f_equal.
    destruct (H f) as (H1 & H2 & H3); [now left|].
    rewrite <- concat_map, concat_removelast; auto.
  Qed.

  Lemma arcs_union : all_arcs union_nested =
    imap (fun k _ => ueps k) 0 fs ++ concat (imap (fun k l => map (uarc k) l) 0 (map (@concat arc) fs)).
  Proof.
    unfold all_arcs, union_nested. rewrite !concat_app. simpl. rewrite !app_nil_r. f_equal.
    apply arcs_union_aux. intros f Hf. unfold union_ok in OK. rewrite Forall_forall in OK.
    destruct (OK f Hf) as (? & ? & _ & ?). auto.
  Qed.

  Lemma union_src_ok_aux : forall l k0 base, (forall i f, rd l i = Some f -> src_ok f /\ 2 <= nstates f) ->
    (forall i f, rd l i = Some f -> uoff (k0 + i + 1) = uoff (k0 + i) + nstates f - 1) ->
    base = uoff k0 ->
    forall i st a, rd (concat (imap (fun k f => map (map (uarc k)) (removelast f)) k0 l)) i = Some st ->
      In a st -> src a = base + i.
  Proof.
    induction l as [|f l IH]; intros k0 base H HO Hb i st a Hi Ha; simpl in Hi; [now rewrite rd_nil in Hi|].
    destruct (H 0 f eq_refl) as [Hs Hn].
    assert (Hne : f <> []) by (intros ->; cbv in Hn; lia).
    rewrite rd_app, zlen_map, zlen_removelast in Hi by auto.
    destruct (i <? zlen f - 1) eqn:E.
    - rewrite rd_map in Hi. destruct (rd (removelast f) i) as [st'|] eqn:E'; [|discriminate].
      injection Hi as <-. apply in_map_iff in Ha as (b & <- & Hb'). simpl.
      assert (R : rd f i = Some st').
      { rewrite (app_removelast_last [] Hne). rewrite rd_app_l; auto. eapply rd_Some_bound; eauto. }
      rewrite (Hs i st' b R Hb'). lia.
    - rewrite (IH (k0 + 1) (uoff (k0 + 1))) with (3 := eq_refl) (4 := Hi) (5 := Ha).
      + specialize (HO 0 f eq_refl). replace (k0 + 0) with k0 in HO by lia. unfold nstates in *. lia.
      + intros i' f' Hi'. pose proof (rd_Some_bound _ _ _ Hi'). apply (H (i' + 1)). now rewrite rd_cons_S by lia.
      + intros i' f' Hi'. pose proof (rd_Some_bound _ _ _ Hi').
        replace (k0 + 1 + i') with (k0 + (i' + 1)) by lia. apply HO. now rewrite rd_cons_S by lia.
  Qed.

  Lemma union_src_ok : src_ok union_nested.
  Proof.
    intros i st a Hi Ha. unfold union_nested in Hi. rewrite rd_app in Hi.
    change (zlen [_]) with 1 in Hi.
    destruct (i <? 1) eqn:E.
    - pose proof (rd_Some_bound _ _ _ Hi). assert (i = 0) by lia. subst i.
      rewrite rd_cons_0 in Hi. injection Hi as <-.
      apply In_rd in Ha as (k & _ & Hk). rewrite rd_imap in Hk.
      destruct (rd fs k); [|discriminate]. injection Hk as <-. reflexivity.
    - rewrite rd_app in Hi. destruct (i - 1 <? _) eqn:E2.
      + rewrite (union_src_ok_aux fs 0 1) with (4 := Hi) (5 := Ha); [lia| | |].
        * intros i' f Hf. destruct (union_ok_rd _ _ Hf) as (? & ? & _). auto.
        * intros i' f Hf. replace (0 + i' + 1) with (i' + 1) by lia. replace (0 + i') with i' by lia.
          now apply uoff_next.
        * symmetry; apply uoff_0.
      + rewrite rd_cons in Hi. destruct (_ =? 0); [injection Hi as <-; destruct Ha|now rewrite rd_nil in Hi].
  Qed.

  Definition union_map : list Z := map (fun _ => -1) fs ++ zrange (zlen (concat (concat fs))).

  Lemma union_eq sched : is_sched (zlen (concat (concat fs))) sched ->
    union sched (flat_vec fs) =
    Some (mkOut (flat union_nested) (ids_of union_nested) union_map).
  Proof.
    intros Hs. unfold union.
    change (v_rs1 (flat_vec fs)) with (splits_of fs).
    change (v_rs2 (flat_vec fs)) with (splits_of (concat fs)).
    change (v_arcs (flat_vec fs)) with (concat (concat fs)).
    rewrite !zlen_splits_of.
    replace (zlen (concat fs) + 1 - 1) with (zlen (concat fs)) by lia.
    replace (zlen fs + 1 - 1) with (zlen fs) by lia.
    rewrite !row_ids_of_splits.
    set (arcs := imap (fun k _ => ueps k) 0 fs ++ concat (imap (fun k l => map (uarc k) l) 0 (map (@concat arc) fs))).
    set (out := imap (fun i a => (a, src a, i - zlen fs)) 0 arcs).
    set (out' := imap (fun i a => (a, src a, Z.max (i - zlen fs) (-1))) 0 arcs).
    pose proof (zlen_nonneg fs). pose proof (zlen_nonneg (concat (concat fs))).
    assert (LA : zlen arcs = zlen (concat (concat fs)) + zlen fs).
    { unfold arcs. rewrite zlen_app, zlen_imap, concat_imap_map_len, concat_map_concat. lia. }
    set (tri := fun j a => (a, src a, if j <? zlen fs then -1 else j - zlen fs)).
    set (outl := imap tri 0 arcs).
    assert (LO : zlen outl = zlen (concat (concat fs)) + zlen fs) by (unfold outl; rewrite zlen_imap; auto).
    assert (HB : forall i a, rd (concat (concat fs)) i = Some a -> exists k f r st j,
       rd fs k = Some f /\ rd f r = Some st /\ rd st j = Some a /\
       i = off1 (map (@concat arc) fs) k + off1 f r + j /\
       union_body (flat_vec fs) (ids_of fs) (ids_of (concat fs)) i =
       Some ([(i + zlen fs, (uarc k a, src (uarc k a), i))] ++
             (if off1 (map (@concat arc) fs) k =? i then [(k, (ueps k, 0, -1))] else []))).
    { intros i a Ha. destruct (rd_concat3 fs i a Ha) as (k & f & r & st & j & H1 & H2 & H3 & H4 & H5 & H6).
      exists k, f, r, st, j. repeat split; auto.
      pose proof (rd_Some_bound _ _ _ H1) as B1. pose proof (rd_Some_bound _ _ _ H2) as B2.
      unfold union_body.
      change (v_rs1 (flat_vec fs)) with (splits_of fs).
      change (v_rs2 (flat_vec fs)) with (splits_of (concat fs)).
      change (v_arcs (flat_vec fs)) with (concat (concat fs)).
      rewrite !zlen_splits_of. rewrite H4, H5.
      rewrite rd_splits_off by lia. rewrite rd_splits_off by lia.
      rewrite rd_splits_off by (pose proof (off1_nonneg fs k); pose proof (off1_bound fs k); lia).
      rewrite Ha. rewrite (off1_next fs k f H1).
      assert (Esrc : src a = r).
      { destruct (union_ok_rd k f H1) as (Hsrc & _). apply (Hsrc r st a); auto. eapply rd_In; eauto. }
      assert (EF : ufin_of k = off1 fs k + zlen f - 1 - off1 fs k).
      { unfold ufin_of. rewrite H1. unfold final. lia. }
      unfold uarc. rewrite EF. cbn [src]. unfold uoff, ueps, ufin. rewrite Esrc.
      assert (E0 : off1 (concat fs) (off1 fs k) = off1 (map (@concat arc) fs) k).
      { replace (off1 fs k) with (off1 fs k + 0) by lia. rewrite (off1_concat fs k f 0) by (auto; lia).
        rewrite off1_map_concat. unfold off1. change (Z.to_nat 0) with 0%nat. cbn [firstn concat].
        change (zlen (@nil arc)) with 0. lia. }
      rewrite E0.
      replace (off1 fs k + r + (1 - k)) with (r + (off1 fs k + 1 - k)) by lia.
      replace (zlen (concat fs) + 1 - 1 + 2 - (zlen fs + 1 - 1) - 1) with (zlen (concat fs) + 1 - zlen fs) by lia.
      replace (dst a - r + (r + (off1 fs k + 1 - k))) with (dst a + (off1 fs k + 1 - k)) by lia.
      replace (off1 fs k + (1 - k)) with (off1 fs k + 1 - k) by lia.
      replace (i + (zlen fs + 1 - 1)) with (i + zlen fs) by lia. reflexivity. }
    assert (F : k2_fill (zlen (concat (concat fs)) + zlen fs) sched
        (union_body (flat_vec fs) (ids_of fs) (ids_of (concat fs))) = Some outl).
    { rewrite <- LO. apply (k2_fill_list outl (zlen (concat (concat fs)))); auto.
      - intros i Hi. destruct (rd_in_bound (concat (concat fs)) i Hi) as (a & Ha).
        destruct (HB i a Ha) as (k & f & r & st & j & H1 & H2 & H3 & H4 & E).
        pose proof (rd_Some_bound _ _ _ H1).
        eexists; split; [exact E|]. apply Forall_app; split.
        + repeat constructor. cbn [fst snd]. unfold outl. rewrite rd_imap.
          unfold arcs. rewrite rd_app_r by (rewrite zlen_imap; lia). rewrite zlen_imap.
          replace (i + zlen fs - zlen fs) with (off1 (map (@concat arc) fs) k + (off1 f r + j)) by lia.
          rewrite (rd_concat_imap_map uarc (map (@concat arc) fs) k (concat f) _ a).
          * simpl. unfold tri. replace (0 + (i + zlen fs) <? zlen fs) with false by lia.
            do 2 f_equal. lia.
          * rewrite rd_map, H1. reflexivity.
          * destruct (rd_concat_off f r st j a H2 H3). auto.
        + destruct (_ =? i) eqn:Ei; repeat constructor. cbn [fst snd]. unfold outl. rewrite rd_imap.
          unfold arcs. rewrite rd_app_l by (rewrite zlen_imap; lia). rewrite rd_imap, H1.
          simpl. unfold tri. replace (0 + k <? zlen fs) with true by lia.
          replace (0 + k) with k by lia. reflexivity.
      - intros j Hj. rewrite LO in Hj. destruct (Z_lt_ge_dec j (zlen fs)) as [L|L].
        + destruct (rd_in_bound fs j) as (f & Hf); [lia|].
          destruct (union_ok_rd j f Hf) as (Hsrc & Hn & Hne & _).
          assert (Hlen : 0 < zlen (concat f)).
          { unfold all_arcs in Hne. destruct (concat f); [congruence|]. rewrite zlen_cons.
            pose proof (zlen_nonneg l). lia. }
          destruct (rd_in_bound (concat f) 0) as (a & Ha); [lia|].
          destruct (rd_concat_off (map (@concat arc) fs) j (concat f) 0 a) as [Ha' _]; auto.
          { rewrite rd_map, Hf. reflexivity. }
          rewrite concat_map_concat in Ha'. replace (off1 (map (@concat arc) fs) j + 0) with
            (off1 (map (@concat arc) fs) j) in Ha' by lia.
          destruct (HB _ a Ha') as (k & f' & r & st & j' & H1 & H2 & H3 & H4 & E).
          exists (off1 (map (@concat arc) fs) j). eexists.
          split; [eapply rd_Some_bound; eauto|]. split; [exact E|].
          assert (k = j).
          { pose proof (rd_Some_bound _ _ _ H1). pose proof (rd_Some_bound _ _ _ H3).
            pose proof (off1_nonneg f' r).
            assert (C1 : rd (map (@concat arc) fs) k = Some (concat f')) by (rewrite rd_map, H1; auto).
            assert (C2 : rd (map (@concat arc) fs) j = Some (concat f)) by (rewrite rd_map, Hf; auto).
            pose proof (off1_next _ _ _ C1) as N1. pose proof (off1_next _ _ _ C2) as N2.
            destruct (Z.lt_trichotomy k j) as [L'|[L'|L']]; auto.
            - pose proof (off1_mono (map (@concat arc) fs) (k + 1) j).
              pose proof (off1_next _ _ _ H2). pose proof (off1_bound f' (r + 1)). lia.
            - pose proof (off1_mono (map (@concat arc) fs) (j + 1) k). lia. }
          subst k. replace (_ =? _) with true by lia. simpl; auto.
        + destruct (rd_in_bound (concat (concat fs)) (j - zlen fs)) as (a & Ha); [lia|].
          destruct (HB _ a Ha) as (k & f' & r & st & j' & H1 & H2 & H3 & H4 & E).
          exists (j - zlen fs). eexists. split; [lia|]. split; [exact E|]. simpl. left. lia. }
    rewrite F.
    assert (R : map (fun t : arc * Z * Z => snd (fst t)) outl = ids_of union_nested).
    { rewrite (ids_of_src _ union_src_ok). fold (all_arcs union_nested). rewrite arcs_union.
      unfold outl. rewrite map_imap. unfold tri. simpl. apply imap_const. }
    rewrite R. replace (zlen (concat fs) + 2 - zlen fs) with (zlen union_nested) by apply zlen_union_nested.
    rewrite splits_of_row_ids. do 2 f_equal.
    - unfold flat. f_equal. fold (all_arcs union_nested). rewrite arcs_union.
      unfold outl. rewrite map_imap. unfold tri. simpl. rewrite imap_const. apply map_id.
    - unfold outl, union_map. rewrite map_imap. unfold tri. simpl.
      unfold arcs. rewrite imap_app, zlen_imap. f_equal.
      + apply list_ext_rd; [now rewrite !zlen_imap, zlen_map|].
        intros i Hi. rewrite !zlen_imap in Hi. rewrite !rd_imap, rd_map.
        destruct (rd_in_bound fs i Hi) as (x & ->). simpl. f_equal.
        replace (0 + i <? zlen fs) with true by lia. auto.
      + apply list_ext_rd.
        { rewrite zlen_imap, concat_imap_map_len, concat_map_concat, zlen_zrange; lia. }
        intros i Hi. rewrite zlen_imap in Hi. rewrite rd_imap.
        destruct (rd_in_bound _ i Hi) as (x & ->).
        rewrite concat_imap_map_len, concat_map_concat in Hi.
        rewrite rd_zrange by lia. simpl. f_equal.
        replace (0 + zlen fs + i <? zlen fs) with false by lia. lia.
  Qed.

  (** ** Language *)
  Lemma union_in a : In a (all_arcs union_nested) <->
    (exists k f, rd fs k = Some f /\ a = ueps k) \/
    (exists k f b, rd fs k = Some f /\ In b (all_arcs f) /\ a = uarc k b).
  Proof.
    rewrite arcs_union, in_app_iff. split.
    - intros [H|H].
      + left. apply In_rd in H as (k & Hk & E). rewrite rd_imap in E.
        destruct (rd fs k) as [f|] eqn:Ef; [|discriminate]. injection E as <-.
        replace (0 + k) with k by lia. eauto.
      + right. apply in_concat in H as (l & Hl & Ha). apply In_rd in Hl as (k & Hk & E).
        rewrite rd_imap, rd_map in E. destruct (rd fs k) as [f|] eqn:Ef; [|discriminate].
        injection E as <-. apply in_map_iff in Ha as (b & <- & Hb).
        replace (0 + k) with k by lia. exists k, f, b. auto.
    - intros [(k & f & H & ->)|(k & f & b & H & Hb & ->)].
      + left. apply (rd_In _ k). rewrite rd_imap, H. simpl. now replace (0 + k) with k by lia.
      + right. apply in_concat. exists (map (uarc k) (concat f)). split.
        * apply (rd_In _ k). rewrite rd_imap, rd_map, H. simpl. now replace (0 + k) with k by lia.
        * now apply in_map.
  Qed.

  Lemma uoff_pos k : 0 <= k <= zlen fs -> 1 <= uoff k.
  Proof. intros H. rewrite <- uoff_0. apply uoff_mono; lia. Qed.

  Lemma uoff_lt_fin k f q : rd fs k = Some f -> q < final f -> uoff k + q < ufin.
  Proof.
    intros H Hq. pose proof (rd_Some_bound _ _ _ H). rewrite <- uoff_end.
    pose proof (uoff_mono (k + 1) (zlen fs)). rewrite (uoff_next k f H) in H1.
    unfold final, nstates in *. lia.
  Qed.

  Lemma uoff_disjoint k f q k' f' q' : rd fs k = Some f -> rd fs k' = Some f' ->
    0 <= q < final f -> 0 <= q' < final f' -> uoff k + q = uoff k' + q' -> k = k' /\ q = q'.
  Proof.
    intros H H' Hq Hq' E. pose proof (rd_Some_bound _ _ _ H). pose proof (rd_Some_bound _ _ _ H').
    pose proof (uoff_next k f H). pose proof (uoff_next k' f' H'). unfold final, nstates in *.
    destruct (Z.lt_trichotomy k k') as [L|[L|L]].
    - pose proof (uoff_mono (k + 1) k'). lia.
    - subst; lia.
    - pose proof (uoff_mono (k' + 1) k). lia.
  Qed.

  Hypothesis V : Forall valid fs.

  Lemma valid_rd k f : rd fs k = Some f -> valid f.
  Proof. intros H. apply rd_In in H. rewrite Forall_forall in V. auto. Qed.

  Lemma src_not_fin f a : valid f -> In a (all_arcs f) -> 0 <= src a < final f.
  Proof.
    intros (Hs & Hn & Hv) Ha. pose proof (src_ok_range f a Hs Ha). destruct (Hv a Ha) as (_ & _ & _ & H').
    unfold final, nstates in *. lia.
  Qed.

  Lemma union_path_down p : forall k f q, rd fs k = Some f -> 0 <= q < final f ->
    path (all_arcs union_nested) (uoff k + q) p ufin ->
    exists p0, path (all_arcs f) q p0 (final f) /\ p = map (uarc k) p0.
  Proof.
    induction p as [|a p IH]; intros k f q Hk Hq Hp.
    - apply path_inv in Hp as [(_ & E)|(a & p' & E & _)]; [|discriminate].
      pose proof (uoff_lt_fin k f q Hk). lia.
    - pose proof (rd_Some_bound _ _ _ Hk) as Bk.
      apply path_inv in Hp as [(E & _)|(a' & p' & E & Ha & Es & Hp)]; [discriminate|].
      injection E as <- <-. apply union_in in Ha as [(k' & f' & Hk' & ->)|(k' & f' & b & Hk' & Hb & ->)].
      + simpl in Es. pose proof (uoff_pos k). lia.
      + simpl in Es, Hp. pose proof (src_not_fin f' b (valid_rd _ _ Hk') Hb).
        destruct (uoff_disjoint k f q k' f' (src b)) as [<- ->]; auto; try lia.
        rewrite Hk in Hk'. injection Hk' as <-.
        unfold ufin_of in Hp. rewrite Hk in Hp. destruct (dst b =? final f) eqn:Ed.
        * apply path_inv in Hp as [(-> & _)|(a' & p' & -> & Ha' & Es' & _)].
          -- exists [b]. split; auto. apply path_step; auto. replace (dst b) with (final f) by lia. constructor.
          -- exfalso. apply union_in in Ha' as [(k' & f' & Hk' & ->)|(k' & f' & b' & Hk' & Hb' & ->)]; simpl in Es'.
             ++ pose proof (uoff_lt_fin k f (src b) Hk). pose proof (uoff_pos k). lia.
             ++ pose proof (src_not_fin f' b' (valid_rd _ _ Hk') Hb').
                pose proof (uoff_lt_fin k' f' (src b') Hk'). lia.
        * destruct (valid_rd _ _ Hk) as (_ & _ & Hv). destruct (Hv b Hb) as (Hd & _).
          destruct (IH k f (dst b)) as (p0 & P1 & P2); auto.
          { unfold final, nstates in *. lia. }
          { now replace (uoff k + dst b) with (dst b + uoff k) by lia. }
          exists (b :: p0). split; [apply path_step; auto|]. simpl. now rewrite P2.
  Qed.

  Lemma union_path_up k f : rd fs k = Some f -> forall p q, q <> final f ->
    path (all_arcs f) q p (final f) ->
    path (all_arcs union_nested) (uoff k + q) (map (uarc k) p) ufin.
  Proof.
    intros Hk. induction p as [|a p IH]; intros q Hq Hp.
    - apply path_inv in Hp as [(_ & E)|(a & p' & E & _)]; [congruence|discriminate].
    - apply path_inv in Hp as [(E & _)|(a' & p' & E & Ha & Es & Hp)]; [discriminate|].
      injection E as <- <-. simpl. apply path_step.
      + apply union_in. right. exists k, f, a. auto.
      + simpl. lia.
      + simpl. unfold ufin_of. rewrite Hk. destruct (dst a =? final f) eqn:Ed.
        * assert (p = []).
          { replace (dst a) with (final f) in Hp by lia.
            apply path_inv in Hp as [(-> & _)|(a' & p' & -> & Ha' & Es' & _)]; auto.
            pose proof (src_not_fin f a' (valid_rd _ _ Hk) Ha'). lia. }
          subst p. constructor.
        * replace (dst a + uoff k) with (uoff k + dst a) by lia. apply IH; auto. lia.
  Qed.

  Lemma labels_uarc k p : labels (map (uarc k) p) = labels p.
  Proof. unfold labels. rewrite map_map. reflexivity. Qed.
  Lemma score_uarc k p : score (map (uarc k) p) = score p.
  Proof. unfold score. rewrite map_map. reflexivity. Qed.

  Lemma final_union : final union_nested = ufin.
  Proof. unfold final, ufin. rewrite zlen_union_nested. lia. Qed.

  Lemma union_language w s : accepts union_nested w s <->
    exists f w', In f fs /\ accepts f w' s /\ w = 0 :: w'.
  Proof.
    assert (F0 : forall k f, rd fs k = Some f -> 0 <= 0 < final f).
    { intros k f H. destruct (valid_rd _ _ H) as (_ & Hn & _). unfold final, nstates in *. lia. }
    split.
    - intros (p & Hp & Hl & Hs). rewrite final_union in Hp.
      apply path_inv in Hp as [(-> & E)|(a & p' & -> & Ha & Es & Hp)].
      { destruct w; discriminate. }
      apply union_in in Ha as [(k & f & Hk & ->)|(k & f & b & Hk & Hb & ->)].
      + simpl in Hp. replace (uoff k) with (uoff k + 0) in Hp by lia.
        destruct (union_path_down p' k f 0 Hk (F0 k f Hk) Hp) as (p0 & P1 & ->).
        rewrite labels_cons, labels_uarc in Hl. rewrite score_cons, score_uarc in Hs. simpl in Hl, Hs.
        destruct w as [|x w]; simpl in Hl.
        * injection Hl as E; discriminate.
        * injection Hl as <- Hl. exists f, w. split; [eapply rd_In; eauto|]. split; auto.
          exists p0. repeat split; auto.
      + exfalso. simpl in Es. pose proof (src_not_fin f b (valid_rd _ _ Hk) Hb).
        pose proof (rd_Some_bound _ _ _ Hk). pose proof (uoff_pos k). lia.
    - intros (f & w' & Hf & (p & P1 & P2 & P3) & ->). apply In_rd in Hf as (k & Hkb & Hk).
      exists (ueps k :: map (uarc k) p). rewrite final_union. repeat split.
      + apply path_step; [apply union_in; left; eauto|reflexivity|]. simpl.
        replace (uoff k) with (uoff k + 0) by lia. apply (union_path_up k f); auto.
        pose proof (F0 k f Hk). lia.
      + rewrite labels_cons, labels_uarc. simpl. now rewrite P2.
      + rewrite score_cons, score_uarc. simpl. lia.
  Qed.

  Lemma union_language_str w s : accepts_str union_nested w s <->
    exists f, In f fs /\ accepts_str f w s.
  Proof.
    assert (F0 : forall k f, rd fs k = Some f -> 0 <= 0 < final f).
    { intros k f H. destruct (valid_rd _ _ H) as (_ & Hn & _). unfold final, nstates in *. lia. }
    split.
    - intros (p & Hp & Hl & Hs). rewrite final_union in Hp.
      apply path_inv in Hp as [(-> & E)|(a & p' & -> & Ha & Es & Hp)].
      { destruct w; discriminate. }
      apply union_in in Ha as [(k & f & Hk & ->)|(k & f & b & Hk & Hb & ->)].
      + simpl in Hp. replace (uoff k) with (uoff k + 0) in Hp by lia.
        destruct (union_path_down p' k f 0 Hk (F0 k f Hk) Hp) as (p0 & P1 & ->).
        rewrite labels_cons, labels_uarc in Hl. rewrite score_cons, score_uarc in Hs. simpl in Hl, Hs.
        change (strip (0 :: labels p0)) with (strip (labels p0)) in Hl.
        exists f. split; [eapply rd_In; eauto|]. exists p0; repeat split; auto.
      + exfalso. simpl in Es. pose proof (src_not_fin f b (valid_rd _ _ Hk) Hb).
        pose proof (rd_Some_bound _ _ _ Hk). pose proof (uoff_pos k). lia.
    - intros (f & Hf & (p & P1 & P2 & P3)). apply In_rd in Hf as (k & Hkb & Hk).
      exists (ueps k :: map (uarc k) p). rewrite final_union. repeat split.
      + apply path_step; [apply union_in; left; eauto|reflexivity|]. simpl.
        replace (uoff k) with (uoff k + 0) by lia. apply (union_path_up k f); auto.
        pose proof (F0 k f Hk). lia.
      + rewrite labels_cons, labels_uarc. simpl. exact P2.
      + rewrite score_cons, score_uarc. simpl. lia.
  Qed.
End U.
