(** * The paths of an intersection *)
From Coq Require Import ZArith List Lia Bool.
From Coq Require Import ZifyBool.
From Verif Require Import Base RaggedModel RaggedSpec FsaSpec FsaLemmas PropsSpec ScoreModel ScoreSpec ShortestSpec IntersectModel IntersectSpec IntersectProofs.
Import ListNotations.
Open Scope Z_scope.

Section S.
Variables (eps : bool) (a b : nfsa) (St : list pair) (C : list (list (arc * (Z * Z)))).
Hypothesis (Va : valid a) (Vb : valid b).
Hypothesis PO : prod_ok eps a b St C.
Let c : nfsa := map (map fst) C.
Let ma : list Z := map (fun y => fst (snd y)) (concat C).
Let mb : list Z := map (fun y => snd (snd y)) (concat C).

Lemma carcs : all_arcs c = map fst (concat C).
Proof. unfold all_arcs, c. symmetry. apply concat_map. Qed.
Lemma cn : nstates c = zlen St.
Proof. unfold nstates, c. rewrite zlen_map. apply PO. Qed.
Lemma c_arc j y : rd (concat C) j = Some y -> exists p x, rd St (src (fst y)) = Some p /\ inr a b p /\ xstep eps a b p x /\ arc_of St (src (fst y)) x y.
Proof.
  intros H. destruct PO as (_ & R & _ & _ & ZC & _ & H1). apply rd_concat_inv in H. destruct H as (r & row & k & A1 & A2 & _).
  destruct (rd_in_bound St r) as (p & Hp); [apply rd_Some_bound in A1; lia|]. destruct (H1 r p Hp) as (row' & B1 & _ & B2 & _). assert (row' = row) by congruence. subst row'.
  destruct (B2 y (rd_In _ _ _ A2)) as (x & X1 & X2). exists p, x. assert (src (fst y) = r) by apply X2. rewrite H. repeat split; auto; try apply X2; apply R; eapply rd_In; eauto.
Qed.
Lemma c_step k p x : rd St k = Some p -> xstep eps a b p x -> exists j y, rd (concat C) j = Some y /\ arc_of St k x y.
Proof.
  intros Hk X. destruct PO as (_ & _ & _ & _ & _ & _ & H1). destruct (H1 k p Hk) as (row & B1 & _ & _ & B2). destruct (B2 x X) as (y & Y1 & Y2).
  apply In_rd in Y1. destruct Y1 as (i & Hi & Y1). exists (off1 C k + i), y. split; auto. eapply rd_concat_off; eauto.
Qed.
Lemma c_inj j j' y y' : eps = false -> rd (concat C) j = Some y -> rd (concat C) j' = Some y' -> src (fst y) = src (fst y') -> snd y = snd y' -> j = j'.
Proof.
  intros E H H' ES EM. destruct PO as (_ & _ & _ & _ & ZC & _ & H1).
  assert (G : forall i z, rd (concat C) i = Some z -> exists row k, rd C (src (fst z)) = Some row /\ NoDup (map snd row) /\ rd row k = Some z /\ i = off1 C (src (fst z)) + k).
  { intros i z Hz. apply rd_concat_inv in Hz. destruct Hz as (r & row & k & A1 & A2 & A3 & _). destruct (rd_in_bound St r) as (p & Hp); [apply rd_Some_bound in A1; lia|].
    destruct (H1 r p Hp) as (row' & B1 & B0 & B2 & _). assert (row' = row) by congruence. subst row'. destruct (B2 z (rd_In _ _ _ A2)) as (x & X1 & X2).
    assert (src (fst z) = r) by apply X2. exists row, k. rewrite H0. auto. }
  destruct (G _ _ H) as (row & k & A1 & A2 & A3 & ->). destruct (G _ _ H') as (row' & k' & B1 & B2 & B3 & ->). rewrite <- ES in *. assert (row' = row) by congruence. subst row'.
  f_equal. pose proof (rd_Some_bound _ _ _ A3) as Q1. pose proof (rd_Some_bound _ _ _ B3) as Q2. unfold rd in A3, B3. destruct (k <? 0) eqn:?; [lia|]. destruct (k' <? 0) eqn:?; [lia|].
  assert (Z.to_nat k = Z.to_nat k'); [|lia]. rewrite NoDup_nth_error in A2. apply A2.
  - rewrite map_length. apply nth_error_Some. congruence.
  - rewrite !nth_error_map, A3, B3. cbn. now rewrite EM.
Qed.

Lemma proj_cons m j q : proj m 0 0 (j :: q) = match rd m j with Some i => if i =? -1 then [] else [i] | None => [] end ++ proj m 0 0 q.
Proof. unfold proj. cbn [flat_map]. rewrite Z.add_0_l. destruct (rd m j) as [i|]; auto. destruct (i =? -1); auto. now rewrite Z.sub_0_r. Qed.
Lemma arcs_at_cons f j p u : rd (all_arcs f) j = Some u -> arcs_at f (j :: p) = u :: arcs_at f p.
Proof. intros H. unfold arcs_at. cbn. now rewrite H. Qed.
Lemma rd_ma j y : rd (concat C) j = Some y -> rd ma j = Some (fst (snd y)).
Proof. intros H. unfold ma. now rewrite rd_map, H. Qed.
Lemma rd_mb j y : rd (concat C) j = Some y -> rd mb j = Some (snd (snd y)).
Proof. intros H. unfold mb. now rewrite rd_map, H. Qed.
Lemma strip0 w : strip (0 :: w) = strip w. Proof. reflexivity. Qed.
Lemma sl_cons l w w' : same_labels eps w w' -> same_labels eps (l :: w) (l :: w').
Proof. unfold same_labels. destruct eps; [|congruence]. unfold strip. cbn. destruct (negb (l =? 0)); congruence. Qed.

(** ** Soundness *)
Lemma sound k q k' : apath c k q k' -> forall p p', rd St k = Some p -> rd St k' = Some p' ->
  apath a (fst p) (proj ma 0 0 q) (fst p') /\ apath b (snd p) (proj mb 0 0 q) (snd p') /\
  same_labels eps (labels (arcs_at c q)) (labels (arcs_at a (proj ma 0 0 q))) /\
  same_labels eps (labels (arcs_at c q)) (labels (arcs_at b (proj mb 0 0 q))) /\
  score (arcs_at c q) = score (arcs_at a (proj ma 0 0 q)) + score (arcs_at b (proj mb 0 0 q)).
Proof.
  induction 1 as [k|j u q k' H A IH]; intros p p' Hp Hp'.
  - assert (p' = p) by congruence. subst p'. cbn. repeat split; try constructor; unfold same_labels; destruct eps; reflexivity.
  - rewrite (arcs_at_cons c j q u H). rewrite carcs, rd_map in H. destruct (rd (concat C) j) as [y|] eqn:Ey; [|discriminate]. injection H as <-.
    destruct (c_arc j y Ey) as (p0 & x & P0 & _ & X & D1 & D2 & D3 & D4 & D5). assert (p0 = p) by congruence. subst p0.
    destruct (IH (x_dest x) p' D5 Hp') as (I1 & I2 & I3 & I4 & I5). clear IH.
    rewrite !proj_cons, (rd_ma j y Ey), (rd_mb j y Ey), D4. cbn [fst snd].
    destruct X as [i u i' v X1 X2 E1 E2 E3 E4|i u Ee X1 E1 E2|i v Ee X1 E1 E2]; cbn [x_a x_b x_dest x_lab x_sc fst snd] in *.
    + pose proof (rd_Some_bound _ _ _ X1). pose proof (rd_Some_bound _ _ _ X2). destruct (i =? -1) eqn:?; [lia|]. destruct (i' =? -1) eqn:?; [lia|]. cbn [app].
      rewrite (arcs_at_cons a i _ u X1), (arcs_at_cons b i' _ v X2). cbn [labels score map]. unfold labels, score in *. cbn [map fold_right zsum] in *.
      split; [rewrite <- E1; now apply ap_cons|]. split; [rewrite <- E2; now apply ap_cons|]. rewrite D2. split; [now apply sl_cons|]. split; [rewrite E3; now apply sl_cons|]. lia.
    + pose proof (rd_Some_bound _ _ _ X1). destruct (i =? -1) eqn:?; [lia|]. change (-1 =? -1) with true. cbn [app].
      rewrite (arcs_at_cons a i _ u X1). cbn [labels score map]. unfold labels, score in *. cbn [map fold_right zsum] in *.
      split; [rewrite <- E1; now apply ap_cons|]. split; [auto|]. rewrite D2. split; [rewrite E2; now apply sl_cons|]. split; [unfold same_labels in *; rewrite Ee in *; now rewrite strip0|]. lia.
    + pose proof (rd_Some_bound _ _ _ X1). destruct (i =? -1) eqn:?; [lia|]. change (-1 =? -1) with true. cbn [app].
      rewrite (arcs_at_cons b i _ v X1). cbn [labels score map]. unfold labels, score in *. cbn [map fold_right zsum] in *.
      split; [auto|]. split; [rewrite <- E1; now apply ap_cons|]. rewrite D2. split; [unfold same_labels in *; rewrite Ee in *; now rewrite strip0|]. split; [rewrite E2; now apply sl_cons|]. lia.
Qed.

(** ** Completeness *)
Lemma extend k p x : rd St k = Some p -> xstep eps a b p x ->
  exists j t, rd St t = Some (x_dest x) /\ rd ma j = Some (x_a x) /\ rd mb j = Some (x_b x) /\ forall q k', apath c t q k' -> apath c k (j :: q) k'.
Proof.
  intros Hk X. destruct (c_step k p x Hk X) as (j & y & Ey & D1 & D2 & D3 & D4 & D5). exists j, (dst (fst y)).
  rewrite (rd_ma j y Ey), (rd_mb j y Ey), D4. repeat split; auto. intros q k' Q. rewrite <- D1. apply ap_cons; auto. rewrite carcs, rd_map, Ey. reflexivity.
Qed.
Lemma St_fin t : rd St t = Some (zlen a - 1, zlen b - 1) -> t = zlen St - 1.
Proof. apply PO. Qed.

Lemma complete : forall n p1 p2 s1 t1 s2 t2 k, (length p1 + length p2 <= n)%nat -> apath a s1 p1 t1 -> apath b s2 p2 t2 ->
  same_labels eps (labels (arcs_at a p1)) (labels (arcs_at b p2)) -> rd St k = Some (s1, s2) ->
  exists q k', apath c k q k' /\ rd St k' = Some (t1, t2) /\ proj ma 0 0 q = p1 /\ proj mb 0 0 q = p2.
Proof.
  induction n as [|n IH]; intros p1 p2 s1 t1 s2 t2 k Ln A1 A2 SL Hk.
  { destruct p1; [|cbn in Ln; lia]. destruct p2; [|cbn in Ln; lia]. inversion A1; inversion A2; subst. exists [], k. repeat split; auto. constructor. }
  assert (GO : forall x q1 q2, xstep eps a b (s1, s2) x -> (length q1 + length q2 <= n)%nat -> apath a (fst (x_dest x)) q1 t1 -> apath b (snd (x_dest x)) q2 t2 ->
     same_labels eps (labels (arcs_at a q1)) (labels (arcs_at b q2)) ->
     exists q k', apath c k q k' /\ rd St k' = Some (t1, t2) /\ proj ma 0 0 q = (if x_a x =? -1 then [] else [x_a x]) ++ q1 /\ proj mb 0 0 q = (if x_b x =? -1 then [] else [x_b x]) ++ q2).
  { intros x q1 q2 X Lq B1 B2 SL'. destruct (extend k _ x Hk X) as (j & t & Ht & J2 & J3 & J1). destruct (IH q1 q2 _ t1 _ t2 t Lq B1 B2 SL') as (q & k' & Q1 & Q2 & Q3 & Q4); [rewrite Ht; f_equal; apply surjective_pairing|].
    exists (j :: q), k'. rewrite !proj_cons, J2, J3, Q3, Q4. auto. }
  inversion A1 as [z Hz|i u q1 ? Hu A1' Z1 Z2 Z3]; subst; inversion A2 as [z' Hz'|i' v q2 ? Hv A2' Z1' Z2' Z3']; subst.
  - exists [], k. repeat split; auto. constructor.
  - rewrite (arcs_at_cons b i' q2 v Hv) in SL. destruct eps eqn:Ee; [|discriminate SL].
    assert (Lv : lab v = 0). { unfold same_labels in SL. cbn in SL. destruct (lab v =? 0) eqn:?; [lia|discriminate SL]. }
    destruct (GO (mkX (t1, dst v) 0 (sc v) (-1) i') [] q2) as (q & k' & Q1 & Q2 & Q3 & Q4); cbn [x_dest x_a x_b fst snd]; auto.
    + now apply (xs_b true a b (t1, src v) i' v).
    + cbn in *. lia.
    + unfold same_labels in *. cbn in SL. rewrite Lv in SL. exact SL.
    + pose proof (rd_Some_bound _ _ _ Hv). exists q, k'. split; [auto|split; [auto|split; [rewrite Q3; reflexivity|]]]. rewrite Q4. cbn [x_b]. destruct (i' =? -1) eqn:?; [lia|reflexivity].
  - rewrite (arcs_at_cons a i q1 u Hu) in SL. destruct eps eqn:Ee; [|discriminate SL].
    assert (Lu : lab u = 0). { unfold same_labels in SL. cbn in SL. destruct (lab u =? 0) eqn:?; [lia|discriminate SL]. }
    destruct (GO (mkX (dst u, t2) 0 (sc u) i (-1)) q1 []) as (q & k' & Q1 & Q2 & Q3 & Q4); cbn [x_dest x_a x_b fst snd]; auto.
    + now apply (xs_a true a b (src u, t2) i u).
    + cbn in *. lia.
    + unfold same_labels in *. cbn in SL. rewrite Lu in SL. exact SL.
    + pose proof (rd_Some_bound _ _ _ Hu). exists q, k'. split; [auto|split; [auto|split; [rewrite Q3|rewrite Q4; reflexivity]]]. cbn [x_a]. destruct (i =? -1) eqn:?; [lia|reflexivity].
  - pose proof SL as SL0. rewrite (arcs_at_cons a i q1 u Hu), (arcs_at_cons b i' q2 v Hv) in SL. pose proof (rd_Some_bound _ _ _ Hu). pose proof (rd_Some_bound _ _ _ Hv).
    destruct (eps && (lab u =? 0)) eqn:E1.
    { apply andb_prop in E1. destruct E1 as (Ee & Lu). assert (Lu' : lab u = 0) by lia.
      destruct (GO (mkX (dst u, src v) 0 (sc u) i (-1)) q1 (i' :: q2)) as (q & k' & Q1 & Q2 & Q3 & Q4); cbn [x_dest x_a x_b fst snd]; auto.
      + now apply (xs_a eps a b (src u, src v) i u).
      + cbn [length] in *. lia.
      + unfold same_labels in *. rewrite Ee in *. rewrite (arcs_at_cons b i' q2 v Hv). cbn [labels map] in *. rewrite Lu', strip0 in SL. exact SL.
      + exists q, k'. split; [auto|split; [auto|split; [rewrite Q3|rewrite Q4; reflexivity]]]. cbn [x_a]. destruct (i =? -1) eqn:?; [lia|reflexivity]. }
    destruct (eps && (lab v =? 0)) eqn:E2.
    { apply andb_prop in E2. destruct E2 as (Ee & Lv). assert (Lv' : lab v = 0) by lia.
      destruct (GO (mkX (src u, dst v) 0 (sc v) (-1) i') (i :: q1) q2) as (q & k' & Q1 & Q2 & Q3 & Q4); cbn [x_dest x_a x_b fst snd]; auto.
      + now apply (xs_b eps a b (src u, src v) i' v).
      + cbn [length] in *. lia.
      + unfold same_labels in *. rewrite Ee in *. rewrite (arcs_at_cons a i q1 u Hu). cbn [labels map] in *. rewrite Lv', strip0 in SL. exact SL.
      + exists q, k'. split; [auto|split; [auto|split; [rewrite Q3; reflexivity|rewrite Q4]]]. cbn [x_b]. destruct (i' =? -1) eqn:?; [lia|reflexivity]. }
    assert (EL : lab u = lab v /\ same_labels eps (labels (arcs_at a q1)) (labels (arcs_at b q2))).
    { unfold same_labels in *. cbn [labels map] in SL. destruct eps.
      - unfold strip in SL. cbn [filter] in SL. destruct (negb (lab u =? 0)) eqn:?; [|lia]. destruct (negb (lab v =? 0)) eqn:?; [|lia]. injection SL as -> SL. auto.
      - injection SL as -> SL. auto. }
    destruct EL as (EL & SL').
    destruct (GO (mkX (dst u, dst v) (lab u) (sc u + sc v) i i') q1 q2) as (q & k' & Q1 & Q2 & Q3 & Q4); cbn [x_dest x_a x_b fst snd]; auto.
    + apply (xs_both eps a b (src u, src v) i u i' v); auto. intros Ee. rewrite Ee in E1. lia.
    + cbn [length] in *. lia.
    + exists q, k'. split; [auto|split; [auto|split; [rewrite Q3|rewrite Q4]]]; cbn [x_a x_b]; [destruct (i =? -1) eqn:?|destruct (i' =? -1) eqn:?]; try lia; reflexivity.
Qed.

(** ** Uniqueness *)
Lemma unique : eps = false -> forall q q' k t t', apath c k q t -> apath c k q' t' -> t = t' -> proj ma 0 0 q = proj ma 0 0 q' -> proj mb 0 0 q = proj mb 0 0 q' -> q = q'.
Proof.
  intros Ee.
  assert (M : forall j u, rd (all_arcs c) j = Some u -> exists y, rd (concat C) j = Some y /\ u = fst y /\ rd ma j = Some (fst (snd y)) /\ rd mb j = Some (snd (snd y)) /\ fst (snd y) <> -1 /\ snd (snd y) <> -1).
  { intros j u H. rewrite carcs, rd_map in H. destruct (rd (concat C) j) as [y|] eqn:Ey; [|discriminate]. injection H as <-. exists y. split; auto. split; auto. split; [now apply rd_ma|]. split; [now apply rd_mb|].
    destruct (c_arc j y Ey) as (p0 & x & P0 & _ & X & D1 & D2 & D3 & D4 & D5). rewrite D4. destruct X as [i u i' v X1 X2|i u E|i u E]; try congruence. cbn. apply rd_Some_bound in X1, X2. lia. }
  pose proof (fun j j' y y' => c_inj j j' y y' Ee) as CI. clear Ee.
  induction q as [|j q IH]; intros q' k t t' A B Et P1 P2; subst t'.
  - destruct q' as [|j' q']; auto. inversion B as [|? u ? ? Hu _]; subst. destruct (M _ _ Hu) as (y & _ & _ & M1 & M2 & M3 & M4). rewrite (proj_cons ma j'), M1 in P1. destruct (_ =? -1) eqn:?; [lia|discriminate P1].
  - inversion A as [|? u ? ? Hu A1]; subst. destruct (M _ _ Hu) as (y & My & -> & M1 & M2 & M3 & M4).
    destruct q' as [|j' q'].
    { rewrite (proj_cons ma j), M1 in P1. destruct (_ =? -1) eqn:?; [lia|discriminate P1]. }
    inversion B as [|? u' ? ? Hu' B1 Es]; subst. destruct (M _ _ Hu') as (y' & My' & -> & M1' & M2' & M3' & M4').
    rewrite !proj_cons, M1, M1' in P1. rewrite !proj_cons, M2, M2' in P2.
    destruct (fst (snd y) =? -1) eqn:?; [lia|]. destruct (fst (snd y') =? -1) eqn:?; [lia|]. destruct (snd (snd y) =? -1) eqn:?; [lia|]. destruct (snd (snd y') =? -1) eqn:?; [lia|].
    injection P1 as P1 P1'. injection P2 as P2 P2'.
    assert (j = j'). { apply (CI j j' y y'); auto. destruct (snd y), (snd y'); cbn in *; congruence. }
    subst j'. assert (y' = y) by congruence. subst y'. f_equal. eapply IH; eauto.
Qed.

Theorem product_ok : valid c /\ is_intersection eps a b c (proj ma 0 0) (proj mb 0 0).
Proof.
  pose proof PO as (ND & R & R0 & R1 & ZC & Z2 & H1). pose proof Va as (_ & Va2 & _). pose proof Vb as (_ & Vb2 & _). unfold nstates in Va2, Vb2. split.
  - split; [|split].
    + intros k st u Hk Hu. unfold c in Hk. rewrite rd_map in Hk. destruct (rd C k) as [row|] eqn:Er; [|discriminate]. injection Hk as <-. apply in_map_iff in Hu. destruct Hu as (y & <- & Hy).
      destruct (rd_in_bound St k) as (p & Hp); [apply rd_Some_bound in Er; lia|]. destruct (H1 k p Hp) as (row' & B1 & _ & B2 & _). assert (row' = row) by congruence. subst row'. destruct (B2 y Hy) as (x & _ & X2). apply X2.
    + rewrite cn. lia.
    + intros u Hu. rewrite carcs in Hu. apply in_map_iff in Hu. destruct Hu as (y & <- & Hy). apply In_rd in Hy. destruct Hy as (j & _ & Ey).
      destruct (c_arc j y Ey) as (p & x & P0 & Ip & X & D1 & D2 & D3 & D4 & D5). unfold final. fold (nstates c). rewrite cn. pose proof (rd_Some_bound _ _ _ D5).
      split; [lia|]. assert (ND2 : dst (fst y) = zlen St - 1 <-> x_dest x = (zlen a - 1, zlen b - 1)).
      { split; intros E; [rewrite E, R1 in D5; congruence|rewrite E in D5; now apply St_fin]. }
      assert (NS : src (fst y) <> zlen St - 1). { intros E. rewrite E, R1 in P0. injection P0 as <-. apply (xstep_fin eps a b Va Vb) in X; auto. cbn in X. lia. }
      destruct Va as (_ & _ & Va3). destruct Vb as (_ & _ & Vb3). rewrite D2. rewrite ND2. destruct X as [i u i' v X1 X2 E1 E2 E3 E4|i u Ee X1 E1 E2|i v Ee X1 E1 E2]; cbn [x_lab x_dest] in *.
      * apply rd_In in X1, X2. specialize (Va3 _ X1). specialize (Vb3 _ X2). unfold final, nstates in *. split; [lia|]. split; auto. split; [intros; f_equal; lia|intros E; injection E; lia].
      * apply rd_In in X1. specialize (Va3 _ X1). unfold final, nstates in *. split; [lia|]. split; auto. split; [lia|intros E; injection E; lia].
      * apply rd_In in X1. specialize (Vb3 _ X1). unfold final, nstates in *. split; [lia|]. split; auto. split; [lia|intros E; injection E; lia].
  - split; [|split].
    + intros q (_ & Q). rewrite cn in Q. destruct (sound _ _ _ Q _ _ R0 R1) as (I1 & I2 & I3 & I4 & I5). repeat split; auto; unfold nstates; lia.
    + intros p1 p2 (_ & A1) (_ & A2) SL. destruct (complete _ p1 p2 0 (nstates a - 1) 0 (nstates b - 1) 0 (le_n _) A1 A2 SL R0) as (q & k' & Q1 & Q2 & Q3 & Q4). exists q. split; auto.
      split; [rewrite cn; lia|]. rewrite cn. replace (zlen St - 1) with k'; auto. 
    + intros Ee q q' (_ & A) (_ & B) P1 P2. eapply unique; eauto.
Qed.
End S.
