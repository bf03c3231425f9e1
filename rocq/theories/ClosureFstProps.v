(** * C23: the Kleene closure of a transducer (python closure, aux labels). *)
From Coq Require Import ZArith List Lia Bool Permutation.
From Coq Require Import ZifyBool ZifyNat.
From Verif Require Import Base RaggedModel RaggedSpec RaggedProofs FsaSpec FsaLemmas FsaOpsModel FsaOpsProofs FsaOpsProps
  RaggedOpsModel RaggedOpsProofs OpsModel OpsSpec OpsProofs FstSpec GraphProofs LinearProofs ClosureFstModel.
Import ListNotations.
Open Scope Z_scope.

Definition cl (fin : Z) (b : tarc) : tarc := (closure_arc fin (fst b), if snd b =? -1 then 0 else snd b).
Definition closure_fst (T : nfst) : nfst :=
  match T with
  | [] => []
  | st0 :: rest => (map (cl (zlen T - 1)) st0 ++ [(new_final_arc (zlen T - 1), -1)]) :: map (map (cl (zlen T - 1))) rest
  end.

Lemma closure_fst_fsa T : fsa_of (closure_fst T) = closure_nested (fsa_of T).
Proof.
  destruct T as [|st0 rest]; auto. unfold fsa_of. cbn [closure_fst map closure_nested].
  assert (E : final (map fst st0 :: map (map fst) rest) = zlen (st0 :: rest) - 1).
  { unfold final. rewrite !zlen_cons, zlen_map. lia. }
  rewrite E, map_app, !map_map. cbn [map]. f_equal.
  apply map_ext. intros st. now rewrite !map_map.
Qed.

Lemma fold_wr0 m : forall l : list Z, (forall i, In i m -> 0 <= i < zlen l) ->
  exists r, foldM (fun d i => wr d i 0) m l = Some r /\ zlen r = zlen l /\
    forall j, rd r j = if existsb (Z.eqb j) m then (if 0 <=? j then Some 0 else None) else rd l j.
Proof.
  induction m as [|i m IH]; intros l H.
  - exists l. auto.
  - cbn [foldM existsb]. destruct (wr_Some l i 0) as (l' & E & Hlen & Hrd); [apply H; now left|]. rewrite E.
    pose proof (H i (or_introl eq_refl)) as Hi.
    destruct (IH l') as (r & R1 & R2 & R3).
    { intros k Hk. rewrite Hlen. apply H. now right. }
    exists r. split; [exact R1|]. split; [lia|]. intros j. rewrite R3, Hrd.
    destruct (existsb (Z.eqb j) m); [now rewrite orb_true_r|]. rewrite orb_false_r.
    destruct (j =? i) eqn:E'; [|reflexivity]. now replace (0 <=? j) with true by lia.
Qed.

(** The aux labels of the result: the code is right unless the first arc after
    those of the start state has aux label -1. *)
Lemma fix_aux_ok st0 rest (T := st0 :: rest : nfst) :
  concat T <> [] ->
  rd (aux_of T) (zlen st0) <> Some (-1) ->
  fix_aux_labels (aux_of T) (splits_of (fsa_of T)) (closure_map (fsa_of T)) = Some (aux_of (closure_fst T)).
Proof.
  intros Hne Hk. unfold fix_aux_labels. pose proof (zlen_nonneg st0). pose proof (zlen_nonneg (concat rest)).
  assert (R : rd (splits_of (fsa_of T)) 1 = Some (zlen st0)).
  { unfold splits_of, T, fsa_of. cbn [map exsum exsum_from]. rewrite zlen_map, Z.add_0_l.
    rewrite rd_cons. change (1 =? 0) with false. cbn iota. change (1 - 1) with 0.
    destruct (map zlen (map (map fst) rest)); reflexivity. }
  rewrite R. set (aux := aux_of T) in *. set (k0 := zlen st0) in *.
  assert (LA : zlen aux = k0 + zlen (concat rest)).
  { unfold aux, aux_of, T. cbn [concat]. rewrite zlen_map, zlen_app. reflexivity. }
  assert (NE : aux <> []).
  { unfold aux, aux_of. intros E. apply map_eq_nil in E. contradiction. }
  assert (CM : closure_map (fsa_of T) = zrange k0 ++ [-1] ++ map (fun i => k0 + i) (zrange (zlen (concat rest)))).
  { unfold T, fsa_of. cbn [map closure_map]. rewrite zlen_map, <- concat_map, zlen_map. reflexivity. }
  rewrite CM.
  set (a0 := map snd st0). set (a1 := map snd (concat rest)).
  assert (EA : aux = a0 ++ a1) by (unfold aux, aux_of, T; cbn [concat]; apply map_app).
  assert (L0 : zlen a0 = k0) by apply zlen_map. assert (L1 : zlen a1 = zlen (concat rest)) by apply zlen_map.
  assert (S : index_select1 aux (zrange k0 ++ [-1] ++ map (fun i => k0 + i) (zrange (zlen (concat rest)))) 0 =
    Some (a0 ++ [0] ++ a1)).
  { unfold index_select1. replace (zlen aux =? 0) with false.
    2:{ symmetry. apply Z.eqb_neq. intros E. apply zlen_0_nil in E. contradiction. }
    rewrite orb_false_r. replace (_ =? 0) with false by (rewrite !zlen_app, zlen_map, !zlen_zrange by lia; change (zlen [-1]) with 1; lia).
    unfold index1. apply mapM_by_rd.
    - rewrite !zlen_app, zlen_map, !zlen_zrange by lia. change (zlen [-1]) with 1. change (zlen [0]) with 1. lia.
    - intros i j Hi. rewrite rd_app, zlen_zrange in Hi by lia. rewrite rd_app, L0. destruct (i <? k0) eqn:E1.
      + pose proof (rd_Some_bound _ _ _ Hi) as B. rewrite rd_zrange in Hi by (rewrite zlen_zrange in B; lia). injection Hi as <-.
        rewrite zlen_zrange in B by lia. replace (i <? 0) with false by lia. rewrite EA. apply rd_app_l. lia.
      + cbn [app] in Hi |- *. rewrite rd_cons in Hi |- *. destruct (i - k0 =? 0); [injection Hi as <-; reflexivity|].
        rewrite rd_map in Hi. destruct (rd (zrange _) _) as [r|] eqn:E2; [|discriminate]. injection Hi as <-.
        pose proof (rd_Some_bound _ _ _ E2) as B. rewrite rd_zrange in E2 by (rewrite zlen_zrange in B; lia). injection E2 as <-.
        rewrite zlen_zrange in B by lia. replace (k0 + _ <? 0) with false by lia. rewrite EA, rd_app_r by lia. f_equal. lia. }
  rewrite S. set (P := fun i => match rd aux i with Some x => x =? -1 | None => false end).
  set (m := map _ (filter P (zrange (zlen aux)))).
  assert (HM : forall j, In j m <-> exists i, rd aux i = Some (-1) /\ j = if i >? k0 then i + 1 else i).
  { intros j. unfold m. rewrite in_map_iff. split.
    - intros (i & <- & Hi). apply filter_In in Hi as (_ & Hi). unfold P in Hi. destruct (rd aux i) eqn:E; [|discriminate].
      exists i. split; [rewrite E; f_equal; lia|reflexivity].
    - intros (i & Hi & ->). exists i. split; auto. apply filter_In. pose proof (rd_Some_bound _ _ _ Hi).
      split; [apply in_zrange; lia|]. unfold P. rewrite Hi. reflexivity. }
  destruct (fold_wr0 m (a0 ++ [0] ++ a1)) as (r & F1 & F2 & F3).
  { intros j Hj. apply HM in Hj as (i & Hi & ->). pose proof (rd_Some_bound _ _ _ Hi).
    rewrite !zlen_app. change (zlen [0]) with 1. destruct (i >? k0) eqn:E; lia. }
  rewrite F1. rewrite !zlen_app in F2. change (zlen [0]) with 1 in F2.
  destruct (wr_Some r k0 (-1)) as (r' & W1 & W2 & W3); [lia|]. rewrite W1. f_equal.
  assert (EC : aux_of (closure_fst T) = map (fun x => if x =? -1 then 0 else x) a0 ++ [-1] ++ map (fun x => if x =? -1 then 0 else x) a1).
  { unfold aux_of, T. cbn [closure_fst concat]. rewrite <- concat_map, !map_app, !map_map. unfold a0, a1. rewrite !map_map, <- app_assoc. reflexivity. }
  rewrite EC. apply list_ext_rd.
  { rewrite !zlen_app, !zlen_map. change (zlen [-1]) with 1. lia. }
  intros j Hj. rewrite W3. destruct (j =? k0) eqn:E0.
  { rewrite rd_app_r by (rewrite zlen_map; lia). rewrite zlen_map. replace (j - zlen a0) with 0 by lia. reflexivity. }
  rewrite F3. replace (0 <=? j) with true by lia.
  set (i := if j <? k0 then j else j - 1).
  assert (Hin : existsb (Z.eqb j) m = match rd aux i with Some x => x =? -1 | None => false end).
  { apply eq_true_iff_eq. rewrite existsb_exists. split.
    - intros (j' & Hj' & E). apply Z.eqb_eq in E. subst j'. apply HM in Hj' as (i' & Hi' & E).
      assert (i' = i); [|subst i'; now rewrite Hi'].
      assert (i' <> k0) by (intros ->; apply Hk; exact Hi').
      unfold i. destruct (i' >? k0) eqn:E3; destruct (j <? k0) eqn:E4; lia.
    - destruct (rd aux i) as [x|] eqn:E; [|discriminate]. intros Ex. exists j. split; [|lia]. apply HM. exists i.
      split; [rewrite E; f_equal; lia|]. unfold i. destruct (j <? k0) eqn:E4; [replace (j >? k0) with false by lia; auto|].
      destruct (j - 1 >? k0) eqn:E5; [lia|]. exfalso. apply Hk. assert (i = k0) by (unfold i; lia).
      rewrite <- H1, E. f_equal. lia. }
  rewrite Hin. unfold i. rewrite EA, !rd_app, zlen_map, L0. destruct (j <? k0) eqn:E4.
  - rewrite E4, rd_map. destruct (rd a0 j) eqn:E5; [|apply rd_None in E5; lia]. cbn [option_map]. now destruct (z =? -1).
  - replace (j - 1 <? k0) with false by lia. change (zlen [0]) with 1. change (zlen [-1]) with 1. replace (j - k0 <? 1) with false by lia.
    replace (j - 1 - k0) with (j - k0 - 1) by lia. rewrite rd_map. destruct (rd a1 (j - k0 - 1)) eqn:E5.
    + cbn [option_map]. now destruct (z =? -1).
    + apply rd_None in E5. rewrite W2 in Hj. lia.
Qed.

(** ** The relation of the closure *)
Lemma closure_fst_in T b : In b (concat (closure_fst T)) <->
  T <> [] /\ (b = (new_final_arc (zlen T - 1), -1) \/ exists a, In a (concat T) /\ b = cl (zlen T - 1) a).
Proof.
  destruct T as [|st0 rest]; [simpl; tauto|].
  cbn [closure_fst concat]. rewrite !in_app_iff, <- concat_map, !in_map_iff. split.
  - intros [[(a & <- & Ha)|[<-|[]]]|(a & <- & Ha)]; (split; [discriminate|]); auto; right; exists a;
      rewrite in_app_iff; auto.
  - intros (_ & [->|(a & Ha & ->)]); [left; right; simpl; auto|].
    apply in_app_or in Ha as [Ha|Ha]; eauto.
Qed.
Lemma zlen_closure_fst T : zlen (closure_fst T) = zlen T.
Proof. destruct T; auto. cbn [closure_fst]. rewrite !zlen_cons, zlen_map. auto. Qed.

Section Lang.
  Variable T : nfst.
  Hypothesis HV : valid (fsa_of T).
  Hypothesis HS : no_arc_into_start (fsa_of T).
  Hypothesis HA : forall b, In b (concat T) -> (snd b = -1 <-> lab (fst b) = -1).
  Let fin := zlen T - 1.

  Lemma T_arc b : In b (concat T) -> 0 <= dst (fst b) < zlen T /\ (lab (fst b) = -1 <-> dst (fst b) = fin) /\
    src (fst b) <> fin /\ dst (fst b) <> 0.
  Proof.
    intros Hb. assert (Hin : In (fst b) (all_arcs (fsa_of T))).
    { unfold all_arcs, fsa_of. rewrite <- concat_map. now apply in_map. }
    destruct HV as (_ & _ & H). destruct (H _ Hin) as (H1 & H2 & H3 & H4). unfold nstates, final, nstates, fsa_of in *.
    rewrite zlen_map in *. fold fin in H3, H4. specialize (HS _ Hin). tauto.
  Qed.
  Lemma fin_pos : 0 <> fin /\ T <> [].
  Proof.
    destruct HV as (_ & Hn & _). unfold nstates, fsa_of in Hn. rewrite zlen_map in Hn. unfold fin. split; [lia|].
    intros E. rewrite E in Hn. cbv in Hn. lia.
  Qed.
  Lemma cl_final b : In b (concat T) -> dst (fst b) = fin -> cl fin b = (mkArc (src (fst b)) 0 0 (sc (fst b)), 0).
  Proof.
    intros Hb E. destruct (T_arc b Hb) as (_ & H & _). unfold cl, closure_arc. replace (dst (fst b) =? fin) with true by lia.
    assert (X : snd b = -1) by (apply HA; tauto). rewrite X. reflexivity.
  Qed.
  Lemma cl_other b : In b (concat T) -> dst (fst b) <> fin -> cl fin b = b.
  Proof.
    intros Hb E. destruct (T_arc b Hb) as (_ & H & _). unfold cl, closure_arc. replace (dst (fst b) =? fin) with false by lia.
    assert (X : snd b <> -1) by (rewrite HA by auto; tauto). replace (snd b =? -1) with false by lia. now destruct b.
  Qed.

  Notation stripi p := (strip (ilabels p)).
  Notation stripo p := (strip (olabels p)).
  Lemma ilabels_cons' b (p : list tarc) : stripi (b :: p) = strip [lab (fst b)] ++ stripi p.
  Proof. unfold ilabels. cbn [map]. now rewrite <- strip_app. Qed.
  Lemma olabels_cons' b (p : list tarc) : stripo (b :: p) = strip [snd b] ++ stripo p.
  Proof. unfold olabels. cbn [map]. now rewrite <- strip_app. Qed.
  Lemma tscore_cons' b (p : list tarc) : tscore (b :: p) = sc (fst b) + tscore p.
  Proof. reflexivity. Qed.

  Definition ok_words (ws : list (list Z * list Z * Z)) := Forall (fun w => transduces T (fst (fst w)) (snd (fst w)) (snd w)) ws.

  Lemma fst_path_down p : forall q, tpath (concat (closure_fst T)) q p fin -> q <> fin ->
    exists u v su ws, stripi p = u ++ concat (map (fun w => fst (fst w)) ws) ++ [-1] /\
      stripo p = v ++ concat (map (fun w => snd (fst w)) ws) ++ [-1] /\
      tscore p = su + zsum (map snd ws) /\ ok_words ws /\
      ((q = 0 /\ u = [] /\ v = [] /\ su = 0) \/
       exists p0, tpath (concat T) q p0 fin /\ stripi p0 = u ++ [-1] /\ stripo p0 = v ++ [-1] /\ tscore p0 = su).
  Proof.
    destruct fin_pos as (F0 & _).
    induction p as [|a p IH]; intros q Hp Hq.
    - apply tpath_inv in Hp as [(_ & E)|(a & p' & E & _)]; [congruence|discriminate].
    - apply tpath_inv in Hp as [(E & _)|(a' & p' & E & Ha & Es & Hp)]; [discriminate|].
      injection E as <- <-. apply closure_fst_in in Ha as (_ & [->|(b & Hb & ->)]); fold fin in Es, Hp |- *.
      + cbn [fst new_final_arc src dst] in Es, Hp. subst q.
        apply tpath_inv in Hp as [(-> & _)|(a' & p' & -> & Ha' & Es' & _)].
        * exists [], [], 0, []. repeat split; auto. constructor.
        * exfalso. apply closure_fst_in in Ha' as (_ & [->|(b & Hb & ->)]); fold fin in Es'; [cbn in Es'; congruence|].
          cbn [fst cl] in Es'. rewrite src_closure_arc in Es'. apply T_arc in Hb. tauto.
      + destruct (T_arc b Hb) as (_ & Hl & _ & Hd0).
        destruct (Z.eq_dec (dst (fst b)) fin) as [Ef|Ef].
        * rewrite (cl_final b Hb Ef) in *. cbn [fst src dst] in Es, Hp.
          destruct (IH 0 Hp) as (u & v & su & ws & H1 & H2 & H3 & H4 & H5); [auto|].
          assert (PB : exists p0, tpath (concat T) q p0 fin /\ stripi p0 = [] ++ [-1] /\ stripo p0 = [] ++ [-1] /\ tscore p0 = sc (fst b)).
          { exists [b]. split; [|split; [|split]].
            - apply tpath_step; auto. rewrite Ef. constructor.
            - cbn. replace (lab (fst b)) with (-1) by (symmetry; tauto). reflexivity.
            - cbn. replace (snd b) with (-1) by (symmetry; apply HA; tauto). reflexivity.
            - unfold tscore; cbn; lia. }
          rewrite ilabels_cons', olabels_cons', tscore_cons'. cbn [fst snd lab sc]. change (strip [0]) with (@nil Z). cbn [app].
          rewrite H1, H2, H3. destruct H5 as [(E0 & -> & -> & ->)|HP].
          -- exists [], [], (sc (fst b)), ws. repeat split; auto.
          -- exists [], [], (sc (fst b)), ((u, v, su) :: ws). cbn [map concat fst snd zsum app].
             rewrite <- !app_assoc. repeat split; auto. constructor; auto.
        * rewrite (cl_other b Hb Ef) in *.
          destruct (IH (dst (fst b)) Hp Ef) as (u & v & su & ws & H1 & H2 & H3 & H4 & [(E0 & _)|(p0 & P1 & P2 & P3 & P4)]); [contradiction|].
          exists (strip [lab (fst b)] ++ u), (strip [snd b] ++ v), (sc (fst b) + su), ws.
          rewrite ilabels_cons', olabels_cons', tscore_cons', H1, H2, H3, <- !app_assoc. split; [auto|]. split; [auto|]. split; [lia|].
          split; auto. right. exists (b :: p0). split; [now apply tpath_step|].
          rewrite ilabels_cons', olabels_cons', tscore_cons', P2, P3. repeat split; auto; lia.
  Qed.

  Lemma fst_path_up p : forall q, tpath (concat T) q p fin -> q <> fin ->
    exists p', tpath (concat (closure_fst T)) q p' 0 /\ tscore p' = tscore p /\
      stripi p = stripi p' ++ [-1] /\ stripo p = stripo p' ++ [-1].
  Proof.
    destruct fin_pos as (F0 & NE).
    induction p as [|a p IH]; intros q Hp Hq.
    - apply tpath_inv in Hp as [(_ & E)|(a & p' & E & _)]; [congruence|discriminate].
    - apply tpath_inv in Hp as [(E & _)|(a' & p' & E & Ha & Es & Hp)]; [discriminate|].
      injection E as <- <-. destruct (T_arc a Ha) as (_ & Hl & _ & _).
      assert (Hin : In (cl fin a) (concat (closure_fst T))) by (apply closure_fst_in; split; eauto).
      destruct (Z.eq_dec (dst (fst a)) fin) as [Ef|Ef].
      + assert (p = []).
        { rewrite Ef in Hp. apply tpath_inv in Hp as [(-> & _)|(a' & p' & -> & Ha' & Es' & _)]; auto.
          apply T_arc in Ha'. tauto. }
        subst p. rewrite (cl_final a Ha Ef) in Hin. eexists. split; [apply tpath_step; [exact Hin|exact Es|constructor]|].
        split; [reflexivity|]. cbn. replace (lab (fst a)) with (-1) by (symmetry; tauto).
        replace (snd a) with (-1) by (symmetry; apply HA; tauto). split; reflexivity.
      + rewrite (cl_other a Ha Ef) in Hin. destruct (IH (dst (fst a)) Hp Ef) as (p' & P1 & P2 & P3 & P4).
        exists (a :: p'). split; [now apply tpath_step|]. rewrite !tscore_cons', !ilabels_cons', !olabels_cons', P2, P3, P4, <- !app_assoc. auto.
  Qed.

  Lemma closure_fst_relation x y s : transduces (closure_fst T) x y s <-> tstar (transduces T) x y s.
  Proof.
    destruct fin_pos as (F0 & NE). unfold transduces at 1. rewrite zlen_closure_fst. fold fin. split.
    - intros (p & Hp & Hx & Hy & Hs).
      destruct (fst_path_down p 0 Hp F0) as (u & v & su & ws & H1 & H2 & H3 & H4 & H5).
      rewrite H1, app_assoc in Hx. apply app_tail_inv in Hx. rewrite H2, app_assoc in Hy. apply app_tail_inv in Hy.
      destruct H5 as [(_ & -> & -> & ->)|(p0 & P1 & P2 & P3 & P4)].
      + exists ws. repeat split; auto. lia.
      + exists ((u, v, su) :: ws). cbn [map concat fst snd zsum]. repeat split; auto; [|lia].
        constructor; auto. exists p0; auto.
    - intros (ws & HF & -> & -> & ->).
      assert (G : exists p, tpath (concat (closure_fst T)) 0 p 0 /\
        stripi p = concat (map (fun w => fst (fst w)) ws) /\ stripo p = concat (map (fun w => snd (fst w)) ws) /\
        tscore p = zsum (map snd ws)).
      { induction HF as [|[[u v] su] ws (p & P1 & P2 & P3 & P4) HF (q & Q1 & Q2 & Q3 & Q4)].
        - exists []. repeat split; constructor.
        - destruct (fst_path_up p 0 P1 F0) as (p' & R1 & R2 & R3 & R4).
          exists (p' ++ q). cbn [map concat fst snd zsum] in *. split; [eapply tpath_app; eauto|].
          unfold ilabels, olabels, tscore in *. rewrite !map_app, !strip_app, Q2, Q3, zsum_app, Q4.
          rewrite R3 in P2. rewrite R4 in P3. apply app_tail_inv in P2. apply app_tail_inv in P3. rewrite P2, P3, R2, P4. auto. }
      destruct G as (p & G1 & G2 & G3 & G4).
      exists (p ++ [(new_final_arc fin, -1)]). split; [|split; [|split]].
      + eapply tpath_app; eauto. apply tpath_step; [|reflexivity|constructor]. apply closure_fst_in. auto.
      + unfold ilabels in *. now rewrite map_app, strip_app, G2.
      + unfold olabels in *. now rewrite map_app, strip_app, G3.
      + unfold tscore in *. rewrite map_app, zsum_app, G4. cbn. lia.
  Qed.
End Lang.

(** C23: the closure of a transducer.  Its relation is the Kleene star of the
    relation of the input. *)
Theorem C23_closure_fst : forall T sched1 sched2,
  valid (fsa_of T) -> no_arc_into_start (fsa_of T) -> concat T <> [] ->
  (forall b, In b (concat T) -> (snd b = -1 <-> lab (fst b) = -1)) ->
  (forall st0, rd T 0 = Some st0 -> rd (aux_of T) (zlen st0) <> Some (-1)) ->
  is_sched (zlen (concat T)) sched1 -> is_sched (zlen T + 1) sched2 ->
  exists U m, closure_py sched1 sched2 (flat (fsa_of T)) (aux_of T) =
      Some (mkOut (flat (fsa_of U)) (ids_of (fsa_of U)) m, aux_of U) /\
    forall x y s, transduces U x y s <-> tstar (transduces T) x y s.
Proof.
  intros T s1 s2 HV HS HN HA HK H1 H2. exists (closure_fst T), (closure_map (fsa_of T)). split.
  - unfold closure_py. destruct HV as (V1 & V2 & V3).
    assert (EC : concat (fsa_of T) = map fst (concat T)) by (unfold fsa_of; now rewrite <- concat_map).
    assert (ZT : zlen (fsa_of T) = zlen T) by apply zlen_map.
    rewrite closure_eq; auto.
    + cbn [flat row_splits o_fsa o_map arcs]. destruct T as [|st0 rest]; [now contradiction HN|].
      rewrite fix_aux_ok by (auto; now apply HK). rewrite <- closure_fst_fsa.
      replace (zlen (aux_of _) =? _) with true; [reflexivity|]. symmetry. apply Z.eqb_eq. unfold aux_of, fsa_of.
      rewrite <- concat_map, !zlen_map. reflexivity.
    + rewrite EC. intros E. apply map_eq_nil in E. contradiction.
    + rewrite EC, zlen_map. exact H1.
    + rewrite ZT. exact H2.
  - intros. now apply closure_fst_relation.
Qed.
Print Assumptions C23_closure_fst.

Definition ex_fst : nfst := [[(mkArc 0 1 1 2, 5)]; [(mkArc 1 2 2 1, 0); (mkArc 1 3 (-1) 0, -1)]; [(mkArc 2 3 (-1) 4, -1)]; []].
Example C23_closure_fst_ex : valid (fsa_of ex_fst) /\ no_arc_into_start (fsa_of ex_fst) /\ concat ex_fst <> [] /\
  (forall b, In b (concat ex_fst) -> (snd b = -1 <-> lab (fst b) = -1)) /\
  (forall st0, rd ex_fst 0 = Some st0 -> rd (aux_of ex_fst) (zlen st0) <> Some (-1)) /\
  is_sched (zlen (concat ex_fst)) [3; 1; 0; 2] /\ is_sched (zlen ex_fst + 1) (zrange 5) /\
  exists o, closure_py [3; 1; 0; 2] (zrange 5) (flat (fsa_of ex_fst)) (aux_of ex_fst) = Some (o, [5; -1; 0; 0; 0]).
Proof.
  split; [solve_valid|]. split. { intros a Ha. vm_compute in Ha. intuition (subst; simpl in *; congruence). }
  split; [discriminate|]. split. { intros b Hb. vm_compute in Hb. intuition (subst; simpl in *; try congruence). }
  split. { intros st0 E. injection E as <-. vm_compute. discriminate. }
  split; [solve_sched|]. split; [solve_sched|]. eexists. reflexivity.
Qed.

(** The last hypothesis is needed (finding): when the first arc that does not
    leave the start state is final, its aux label stays -1 although its label
    becomes epsilon; the closure of the transducer 1:2 then has no path for the
    two-fold repetition with output 2 2. *)
Theorem C23_closure_fst_refuted : exists T U sched1 sched2 m,
  valid (fsa_of T) /\ no_arc_into_start (fsa_of T) /\ concat T <> [] /\
  (forall b, In b (concat T) -> (snd b = -1 <-> lab (fst b) = -1)) /\
  is_sched (zlen (concat T)) sched1 /\ is_sched (zlen T + 1) sched2 /\
  closure_py sched1 sched2 (flat (fsa_of T)) (aux_of T) = Some (mkOut (flat (fsa_of U)) (ids_of (fsa_of U)) m, aux_of U) /\
  tstar (transduces T) [1] [2] 0 /\ ~ transduces U [1] [2] 0.
Proof.
  set (T := [[(mkArc 0 1 1 0, 2)]; [(mkArc 1 2 (-1) 0, -1)]; []] : nfst).
  set (U := [[(mkArc 0 1 1 0, 2); (mkArc 0 2 (-1) 0, -1)]; [(mkArc 1 0 0 0, -1)]; []] : nfst).
  exists T, U, (zrange 2), (zrange 4), [0; -1; 1].
  split; [solve_valid|]. split. { intros a Ha. vm_compute in Ha. intuition (subst; simpl in *; congruence). }
  split; [discriminate|]. split. { intros b Hb. vm_compute in Hb. intuition (subst; simpl in *; try congruence). }
  split; [solve_sched|]. split; [solve_sched|]. split; [reflexivity|]. split.
  - exists [([1], [2], 0)]. split; [|repeat split]. constructor; [|constructor]. exists [(mkArc 0 1 1 0, 2); (mkArc 1 2 (-1) 0, -1)].
    split; [|repeat split]. repeat (apply tpath_step; [vm_compute; tauto|reflexivity|]). constructor.
  - (* the number of -1 outputs exceeds one as soon as label 1 is read *)
    intros (p & Hp & Hx & Hy & _). change (zlen U - 1) with 2 in Hp.
    assert (G : forall p q, tpath (concat U) q p 2 ->
      (q = 0 -> In 1 (ilabels p) -> exists r, strip (olabels p) = 2 :: -1 :: r /\ r <> []) /\
      (q = 1 -> exists r, strip (olabels p) = -1 :: r /\ r <> []) /\
      (q = 0 -> strip (olabels p) <> [])).
    { clear. intros p. induction p as [|b p IH]; intros q Hp.
      - apply tpath_inv in Hp as [(_ & E)|(a & p' & E & _)]; [|discriminate]. repeat split; intros; try lia.
      - apply tpath_inv in Hp as [(E & _)|(a' & p' & E & Ha & Es & Hp)]; [discriminate|]. injection E as <- <-.
        destruct (IH _ Hp) as (I1 & I2 & I3). vm_compute in Ha. destruct Ha as [<-|[<-|[<-|[]]]]; cbn [fst src dst] in *; subst q.
        + split; [|split; [lia|discriminate]]. intros _ _. destruct (I2 eq_refl) as (r & E & N). exists r.
          unfold olabels in *. cbn [map snd]. rewrite strip_pos by lia. now rewrite E.
        + split; [|split; [lia|discriminate]]. intros _ Hin.
          apply tpath_inv in Hp as [(-> & _)|(a & p' & -> & Ha & Es & _)].
          * destruct Hin as [Hin|[]]. discriminate.
          * exfalso. vm_compute in Ha. destruct Ha as [<-|[<-|[<-|[]]]]; discriminate.
        + split; [lia|]. split; [|lia]. intros _. exists (strip (olabels p)). split; [reflexivity|auto]. }
    destruct (G p 0 Hp) as (G1 & _). destruct G1 as (r & E & N); [reflexivity| |].
    + assert (In 1 (strip (ilabels p))) by (rewrite Hx; now left). apply filter_In in H. tauto.
    + rewrite E in Hy. injection Hy as Hy. contradiction.
Qed.
Print Assumptions C23_closure_fst_refuted.
