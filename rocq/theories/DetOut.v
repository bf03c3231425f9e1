(** * Determinization: the output FSA *)
From Coq Require Import ZArith List Lia Bool Permutation.
From Verif Require Import Base RaggedModel RaggedSpec RaggedProofs FsaSpec FsaLemmas OpsModel ScoreSpec ScorePaths ShortestSpec IntersectPaths DetModel DetSpec DetProofs DetRun DetInv DetCreate DetLang.
Import ListNotations.
Open Scope Z_scope.

Section Out.
Variable f : nfsa.
Hypothesis HV : valid f.
Variable wp : pushing.
Variables (st : dsts) (K : list (Z * list Z * Z)) (U : list (list Z)).
Hypothesis I : Inv f wp (-1) [] st K U.
Hypothesis HQ : s_queue st = [].
Notation lb p := (labels (arcs_at f p)).
Notation scp p := (score (arcs_at f p)).
Let n := zlen K.

Lemma arc_data a : In a (s_arcs st) -> exists i D, rd (s_arcs st) i = Some a /\ rd (s_derivs st) i = Some D /\ arc_K f K a D.
Proof.
  intros Ha. apply In_rd in Ha as (i & Hi & Ha). destruct (rd_in_bound (s_derivs st) i) as (D & HD); [rewrite (i_dl _ _ _ _ _ _ _ I); exact Hi|]. exists i, D. split; [exact Ha|]. split; [exact HD|]. exact (i_arc _ _ _ _ _ _ _ I _ _ _ Ha HD).
Qed.
Lemma arc_bounds a : In a (s_arcs st) -> 0 <= src a < n /\ 0 <= dst a < n.
Proof. intros Ha. destruct (arc_data a Ha) as (i & D & _ & _ & b & w & N & b' & w' & N' & H1 & H2 & _). apply rd_Some_bound in H1. apply rd_Some_bound in H2. auto. Qed.
(** the label of an arc is the label of an arc of [f] that ends a path *)
Lemma arc_path a D : arc_K f K a D -> exists b w N b' w' N' p s x j, rd K (src a) = Some (b, w, N) /\ rd K (dst a) = Some (b', w', N') /\
  apath f b (D ++ p) s /\ lb p = w' /\ apath f b' p s /\ rd (all_arcs f) j = Some x /\ lab x = lab a /\ dst x = s /\ exists p1, D ++ p = p1 ++ [j].
Proof.
  intros (b & w & N & b' & w' & N' & H1 & H2 & A1 & A2 & _). destruct (i_key _ _ _ _ _ _ _ I _ _ H2) as (_ & _ & p & s & P1 & P2).
  assert (P : apath f b (D ++ p) s) by (apply apath_app; eauto). destruct (lb_snoc f b (D ++ p) s w (lab a) P) as (p1 & j & x & E & X1 & _ & X2 & _ & X3); [rewrite lb_app, P2; exact A2|].
  exists b, w, N, b', w', N', p, s, x, j. repeat (split; [assumption|]). eauto.
Qed.

Lemma fin_arc v : forall i b w N p, rd K i = Some (b, w, N) -> apath f b p (final f) -> lb p = w ++ v -> v <> [] -> exists a, In a (s_arcs st) /\ lab a = -1.
Proof.
  induction v as [|l v IH]; intros i b w N p HK HP HL NV; [congruence|]. change (l :: v) with ([l] ++ v) in HL. rewrite app_assoc in HL.
  destruct (apath_cut f _ _ _ _ _ HP HL) as (p1 & p2 & m & -> & P1 & P2 & L1 & L2).
  destruct (i_all _ _ _ _ _ _ _ I i b w N p1 m l HK) as (a & Ha & Hs & Hl); auto; [rewrite HQ; intros []|apply rd_Some_bound in HK; lia|].
  destruct v as [|l' v'].
  - destruct (lb_nil f _ _ _ P2 L2) as (_ & ->). destruct (lb_snoc f _ _ _ _ _ P1 L1) as (_ & j & x & _ & Hx & _ & Hd & _ & Hlx). exists a. split; [exact Ha|]. rewrite Hl, <- Hlx. destruct HV as (_ & _ & V). apply (V x (rd_In _ _ _ Hx)). exact Hd.
  - destruct (arc_data a Ha) as (k & D & _ & _ & b1 & w1 & N1 & b' & w' & N' & X1 & X2 & _ & _ & _ & X3 & _). rewrite Hs, HK in X1. injection X1 as <- <- <-.
    destruct (X3 p1 m P1) as (p' & Y1 & Y2 & _); [now rewrite Hl|]. apply (IH (dst a) b' w' N' (p' ++ p2) X2); [apply apath_app; eauto|rewrite lb_app; congruence|discriminate].
Qed.

Hypothesis HC : coaccessible f.
Lemma ex_fin : exists a F N, In a (s_arcs st) /\ lab a = -1 /\ dst a = F /\ rd K F = Some (final f, [], N).
Proof.
  destruct (HC 0 (state0 f HV)) as (p & Hp). destruct (fin_arc (lb p) 0 0 [] 0 p (i_zero _ _ _ _ _ _ _ I) Hp eq_refl) as (a & Ha & Hl).
  { intros E. destruct (lb_nil f _ _ _ Hp E) as (_ & X). destruct HV as (_ & V & _). unfold final, nstates in *. lia. }
  destruct (arc_data a Ha) as (i & D & _ & _ & b & w & N & b' & w' & N' & _ & H2 & _ & _ & _ & _ & H3). destruct (H3 Hl) as (-> & ->). exists a, (dst a), N'. auto.
Qed.

Lemma out_ok : exists g der, (let size1 := 1 + fold_left (fun m a => Z.max m (Z.max (src a) (dst a))) (s_arcs st) (-1) in
    r <- create_fsa (s_arcs st) size1;;
    let '(rs', arcs', arc_map) := r in
    derivs <- mapM (rd (s_derivs st)) arc_map;;
    Some (rs', arcs', derivs)) = Some (splits_of g, all_arcs g, der) /\
  valid g /\ deterministic g /\ is_determinized f g der /\
  (wp = NoWeight -> forall k a D, rd (all_arcs g) k = Some a -> rd der k = Some D -> sc a = scp D).
Proof.
  destruct ex_fin as (a0 & F & NF & Ha0 & Hl0 & Hd0 & KF). pose proof (rd_Some_bound _ _ _ KF) as BF. fold n in BF.
  assert (N2 : 2 <= nstates f) by apply HV.
  assert (F0 : F <> 0) by (intros ->; rewrite (i_zero _ _ _ _ _ _ _ I) in KF; injection KF as X _; unfold final, nstates in *; lia).
  assert (KU : forall i b w N N', rd K i = Some (b, w, N) -> forall j, rd K j = Some (b, w, N') -> i = j).
  { intros i b w N N' Hi j Hj. apply (NoDup_rd (map fst K) i j (b, w) (i_nd _ _ _ _ _ _ _ I)); rewrite rd_map; [rewrite Hi|rewrite Hj]; reflexivity. }
  assert (LF : forall a, In a (s_arcs st) -> lab a = -1 -> dst a = F).
  { intros a Ha Hl. destruct (arc_data a Ha) as (i & D & _ & _ & b & w & N & b' & w' & N' & _ & H2 & _ & _ & _ & _ & H3). destruct (H3 Hl) as (-> & ->). exact (KU _ _ _ _ _ H2 _ KF). }
  assert (SF : forall a, In a (s_arcs st) -> src a <> F).
  { intros a Ha E. destruct (arc_data a Ha) as (i & D & _ & _ & X). destruct (arc_path a D X) as (b & w & N & b' & w' & N' & p & s & x & j & K1 & K2 & P1 & P2 & P3 & Hx & Lx & Dx & p1 & E1).
    rewrite E, KF in K1. injection K1 as <- <- <-. destruct (D ++ p) as [|j0 r] eqn:EDp; [destruct p1; discriminate|]. inversion P1 as [|? y ? ? Hy Hr Es]. subst. destruct HV as (_ & _ & V). destruct (V y (rd_In _ _ _ Hy)) as (_ & _ & _ & Z). congruence. }
  pose proof (fun a Ha => arc_bounds a Ha) as AB.
  assert (HA : forall a, In a (s_arcs st) -> 0 <= src a < n /\ 0 <= dst a < n /\ (lab a = -1 -> dst a = F) /\ src a <> F) by (intros a Ha; destruct (AB a Ha); auto).
  assert (HT : exists a, In a (s_arcs st) /\ (src a = n - 1 \/ dst a = n - 1)).
  { destruct (rd_in_bound U (n - 1)) as (u & Hu); [rewrite (i_len _ _ _ _ _ _ _ I); fold n; lia|]. destruct (i_tree _ _ _ _ _ _ _ I _ _ Hu) as (a & _ & T1 & T2 & _); [lia|]. eauto. }
  destruct (create_ok (s_arcs st) n F) as (g & am & C1 & C2 & C3 & C4 & C5 & C6 & C7); auto. { intros E. rewrite E in Ha0. exact Ha0. } { eauto. }
  pose (dv := fun j => match rd (s_derivs st) j with Some d => d | None => [] end). exists g, (map dv am). cbv zeta.
  change (fold_left (fun m a => Z.max m (Z.max (src a) (dst a))) (s_arcs st) (-1)) with (maxst (s_arcs st) (-1)). rewrite (maxst_eq (s_arcs st) n F BF HA HT), C1.
  rewrite (mapM_Some_map _ dv). 2:{ intros j Hj. apply C5 in Hj. rewrite <- (i_dl _ _ _ _ _ _ _ I) in Hj. destruct (rd_in_bound _ _ Hj) as (D & HD). unfold dv. now rewrite HD. }
  split; [reflexivity|].
  (* the arcs of g *)
  assert (GA : forall k a', rd (all_arcs g) k = Some a' -> exists j a D, rd am k = Some j /\ rd (s_arcs st) j = Some a /\ rd (s_derivs st) j = Some D /\ a' = mkArc (ren n F (src a)) (ren n F (dst a)) (lab a) (sc a) /\ arc_K f K a D).
  { intros k a' Hk. destruct (rd_in_bound am k) as (j & Hj); [rewrite C6; apply rd_Some_bound in Hk; exact Hk|]. assert (Bj : 0 <= j < zlen (s_arcs st)) by (apply C5; exact (rd_In _ _ _ Hj)).
    destruct (rd_in_bound _ _ Bj) as (a & Ha). pose proof Bj as Bj'. rewrite <- (i_dl _ _ _ _ _ _ _ I) in Bj'. destruct (rd_in_bound _ _ Bj') as (D & HD). exists j, a, D. rewrite (C7 k j a Hj Ha) in Hk. injection Hk as <-. repeat (split; [auto|]). exact (i_arc _ _ _ _ _ _ _ I _ _ _ Ha HD). }
  assert (GD : forall k D', rd (map dv am) k = Some D' -> forall j D, rd am k = Some j -> rd (s_derivs st) j = Some D -> D' = D).
  { intros k D' Hk j D Hj HD. rewrite rd_map, Hj in Hk. cbn [option_map] in Hk. unfold dv in Hk. rewrite HD in Hk. congruence. }
  assert (VG : valid g).
  { split; [exact C3|]. split; [lia|]. intros a' Ha'. apply In_rd in Ha' as (k & _ & Hk). destruct (GA k a' Hk) as (j & a & D & H1 & H2 & H3 & -> & H4). cbn [src dst lab]. destruct (HA a (rd_In _ _ _ H2)) as (X1 & X2 & X3 & X4).
    destruct (arc_path a D H4) as (b & w & N & b' & w' & N' & p & s & x & i & K1 & K2 & P1 & P2 & P3 & Hx & Lx & Dx & p1 & E1). destruct HV as (_ & _ & V). destruct (V x (rd_In _ _ _ Hx)) as (V1 & V2 & V3 & V4).
    unfold final. change (zlen g) with (nstates g). rewrite C2. split; [apply ren_bound; lia|]. split; [lia|]. split.
    - split; [intros E; rewrite (X3 E); unfold ren; destruct (F <? F) eqn:?; [lia|]; destruct (F =? F) eqn:?; lia|].
      intros E. assert (EF : dst a = F) by (rewrite <- (old_ren n F BF (dst a) X2), E; unfold old; destruct (n - 1 <? F) eqn:?; [lia|]; destruct (n - 1 =? n - 1) eqn:?; lia).
      rewrite EF, KF in K2. injection K2 as <- <- <-. destruct (lb_nil f _ _ _ P3 P2) as (_ & <-). rewrite <- Lx. now apply V3.
    - intros E. apply X4. rewrite <- (old_ren n F BF (src a) X1), E. unfold old; destruct (n - 1 <? F) eqn:?; [lia|]; destruct (n - 1 =? n - 1) eqn:?; lia. }
  assert (NF0 : NF = 0).
  { destruct (i_key _ _ _ _ _ _ _ I _ _ KF) as (_ & X & _). apply (N_fun f wp _ _ _ _ X). unfold N_ok. destruct wp; [reflexivity|]. split; [exists [], (final f); split; [constructor|split; reflexivity]|].
    intros p s P1 P2. destruct (lb_nil f _ _ _ P1 P2) as (-> & _). cbn. lia. }
  split; [exact VG|]. split; [|split].
  - intros k k' a a' Hk Hk' Es El. destruct (GA k a Hk) as (j & b & D & H1 & H2 & H3 & -> & H4), (GA k' a' Hk') as (j' & b' & D' & H1' & H2' & H3' & -> & H4'). cbn [src lab] in Es, El.
    assert (src b = src b') by (rewrite <- (old_ren n F BF (src b)), <- (old_ren n F BF (src b')), Es by (apply AB; eapply rd_In; eassumption); reflexivity).
    assert (j = j'); [|subst j'; exact (NoDup_rd am k k' j C4 H1 H1')]. apply (NoDup_rd _ _ _ (src b, lab b) (i_det _ _ _ _ _ _ _ I)); rewrite rd_map; [rewrite H2; reflexivity|]. rewrite H2'. cbn. congruence.
  - apply (lang_ok f g (map dv am) (fun s => rd K (old n F s)) HV VG).
    + rewrite zlen_map. exact C6.
    + unfold old. destruct (0 <? F) eqn:?; [|lia]. apply I.
    + unfold final. change (zlen g) with (nstates g). rewrite C2. unfold old. destruct (n - 1 <? F) eqn:?; [lia|]. rewrite Z.eqb_refl. rewrite KF, NF0. reflexivity.
    + intros k a D Hk HDk. destruct (GA k a Hk) as (j & b & D1 & H1 & H2 & H3 & -> & H4). rewrite (GD k D HDk j D1 H1 H3). cbn [src dst lab sc]. destruct (AB b (rd_In _ _ _ H2)) as (X1 & X2). rewrite !(old_ren n F BF) by assumption. exact H4.
    + intros i b w N p s l Hi HK Hp HL. rewrite C2 in Hi. pose proof (old_bound n F BF i Hi) as OB. destruct (i_all _ _ _ _ _ _ _ I (old n F i) b w N p s l HK) as (a & Ha & Hs & Hl); auto; [rewrite HQ; intros []|lia|].
      apply In_rd in Ha as (j & Bj & Ha). apply C5 in Bj. apply In_rd in Bj as (k & _ & Hj). exists (mkArc (ren n F (src a)) (ren n F (dst a)) (lab a) (sc a)). split; [exact (rd_In _ _ _ (C7 k j a Hj Ha))|]. cbn [src lab]. rewrite Hs, (ren_old n F) by lia. auto.
  - intros EW k a D Hk HDk. destruct (GA k a Hk) as (j & b & D1 & H1 & H2 & H3 & -> & H4). rewrite (GD k D HDk j D1 H1 H3). cbn [sc]. destruct H4 as (b1 & w1 & N1 & b2 & w2 & N2x & X1 & X2 & _ & _ & X3 & _).
    destruct (i_key _ _ _ _ _ _ _ I _ _ X1) as (_ & Y1 & _), (i_key _ _ _ _ _ _ _ I _ _ X2) as (_ & Y2 & _). unfold N_ok in Y1, Y2. rewrite EW in Y1, Y2. lia.
Qed.
End Out.

(** ** Termination *)
Section Term.
Variable f : nfsa.
Hypothesis HV : valid f.
Hypothesis HC : acyclic f.

Lemma path_nodup s p t : apath f s p t -> NoDup (map src (arcs_at f p)).
Proof.
  induction 1 as [s|j a p t Ha Hp IH]; [constructor|]. rewrite (arcs_at_cons f j p a Ha). cbn [map]. constructor; [|exact IH].
  intros X. apply in_map_iff in X as (b & Eb & Hb). unfold arcs_at in Hb. apply in_flat_map in Hb as (i & Hi & Hb). destruct (rd (all_arcs f) i) as [b'|] eqn:Ei; [|destruct Hb]. destruct Hb as [->|[]].
  apply in_split in Hi as (p1 & p2 & ->). apply apath_app in Hp as (m & P1 & P2). inversion P2 as [|? b' ? ? Hb' _ Em]; subst. rewrite Ei in Hb'. injection Hb' as <-.
  assert (X : j :: p1 = []); [|discriminate]. apply (HC (src a)). rewrite <- Eb at 2. exact (ap_cons f j a p1 (src b) Ha P1).
Qed.
Lemma path_len s p t : apath f s p t -> (length p <= length f)%nat.
Proof.
  intros H. rewrite <- (lb_len f s p t H). unfold labels. rewrite map_length, <- (map_length src). pose proof (NoDup_incl_length (path_nodup s p t H) (l' := zrange (nstates f))) as X.
  assert (L : length (zrange (nstates f)) = length f) by (apply Nat2Z.inj; change (zlen (zrange (nstates f)) = zlen f); rewrite zlen_zrange; [reflexivity|apply zlen_nonneg]). rewrite L in X. apply X.
  intros i Hi. apply in_map_iff in Hi as (a & <- & Ha). apply in_zrange. apply src_ok_range; [apply HV|]. unfold arcs_at in Ha. apply in_flat_map in Ha as (k & _ & Ha). destruct (rd (all_arcs f) k) as [b|] eqn:E; [|destruct Ha]. destruct Ha as [<-|[]]. exact (rd_In _ _ _ E).
Qed.
Fixpoint words (m : nat) : list (list Z) :=
  match m with O => [[]] | S m' => [] :: flat_map (fun l => map (cons l) (words m')) (map lab (all_arcs f)) end.
Lemma words_ok m : forall s p t, apath f s p t -> (length p <= m)%nat -> In (labels (arcs_at f p)) (words m).
Proof.
  induction m as [|m IH]; intros s p t H L; [destruct p; [now left|cbn in L; lia]|]. destruct H as [s|j a p t Ha Hp]; [now left|]. cbn [words]. right. rewrite (arcs_at_cons f j p a Ha). cbn [labels map].
  apply in_flat_map. exists (lab a). split; [apply in_map; exact (rd_In _ _ _ Ha)|]. apply in_map. apply (IH _ _ _ Hp). cbn in L. lia.
Qed.
Lemma bound_ok wp : forall st K U, Inv f wp (-1) [] st K U -> zlen K <= zlen (words (length f)).
Proof.
  intros st K U I. rewrite <- (i_len _ _ _ _ _ _ _ I). unfold zlen. apply inj_le. apply NoDup_incl_length; [apply I|]. intros u Hu. apply In_rd in Hu as (i & _ & Hi). destruct (i_Up _ _ _ _ _ _ _ I _ _ Hi) as (p & s & Hp & <-).
  apply (words_ok _ _ _ _ Hp). exact (path_len _ _ _ Hp).
Qed.
End Term.
