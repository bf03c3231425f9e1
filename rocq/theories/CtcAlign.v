(** * Proofs: the paths of the CTC graph of a transcript are its alignments. *)
From Coq Require Import ZArith List Lia Lra Bool Reals.
From Coq Require Import ZifyBool ZifyNat.
From Verif Require Import Base RaggedModel RaggedSpec RaggedProofs FsaSpec FsaLemmas FstSpec ConnectSpec PropsSpec LogReal ScoreModel ScoreSpec
  ScorePaths ShortestSpec IntersectPaths IDenseModel IDenseSpec GraphModel GraphProofs GraphProps SufRadix CtcLossSpec.
From Verif Require SufText SufStats ReplaceProps.
Import ListNotations.
Open Scope Z_scope.

(** The aux labels along an alignment *)
Fixpoint emis (prev : Z) (x : list Z) : list Z :=
  match x with [] => [] | l :: x' => (if (l =? 0) || (l =? prev) then 0 else l) :: emis l x' end.
Lemma zlen_emis prev x : zlen (emis prev x) = zlen x.
Proof. revert prev. induction x as [|l x IH]; intros prev; [reflexivity|]. cbn [emis]. rewrite !zlen_cons, IH. reflexivity. Qed.
Lemma at0_emis x : forall prev t, 0 <= t < zlen x ->
  at0 (emis prev x) t = if (at0 x t =? 0) || (at0 x t =? (if t =? 0 then prev else at0 x (t - 1))) then 0 else at0 x t.
Proof.
  induction x as [|l x IH]; intros prev t Ht; [change (zlen (@nil Z)) with 0 in Ht; lia|]. rewrite zlen_cons in Ht. cbn [emis]. destruct (Z.eq_dec t 0) as [->|Nt].
  - reflexivity.
  - replace (t =? 0) with false by lia. unfold at0. rewrite !(rd_cons _ _ t). replace (t =? 0) with false by lia. change (match rd (emis l x) (t - 1) with Some x => x | None => 0 end) with (at0 (emis l x) (t - 1)). rewrite IH by lia.
    unfold at0. destruct (t - 1 =? 0) eqn:E.
    + assert (t = 1) by lia. subst t. reflexivity.
    + rewrite (rd_cons _ _ (t - 1)). rewrite E. reflexivity.
Qed.
(** the delay, from the aux labels *)
Lemma delay_emis x : Forall (fun l => 0 <= l) x ->
  delay x = zsum (map (fun t => let b := at0 (emis 0 x ++ [-1]) t in if (b =? 0) || (b =? -1) then 0 else t - zlen x / 2) (zrange (zlen x + 1))).
Proof.
  intros P. unfold delay. pose proof (zlen_nonneg x) as NN. rewrite zrange_S by lia. rewrite map_app, zsum_app. cbn [map].
  assert (E : at0 (emis 0 x ++ [-1]) (zlen x) = -1) by (unfold at0; rewrite rd_app_r by (rewrite zlen_emis; lia); rewrite zlen_emis, Z.sub_diag; reflexivity).
  rewrite E. change (zsum [let b := -1 in if (b =? 0) || (b =? -1) then 0 else zlen x - zlen x / 2]) with 0. rewrite Z.add_0_r. f_equal. apply map_ext_in. intros t Ht. apply in_zrange in Ht. cbv zeta.
  assert (E2 : at0 (emis 0 x ++ [-1]) t = at0 (emis 0 x) t) by (unfold at0; rewrite rd_app_l by (rewrite zlen_emis; lia); reflexivity). rewrite E2, at0_emis by lia. unfold emits.
  assert (0 <= at0 x t) by (rewrite Forall_forall in P; apply P; pose proof (at0_rd x t Ht) as R; exact (rd_In _ _ _ R)).
  destruct (t =? 0) eqn:Et.
  - destruct (at0 x t =? 0) eqn:E0; cbn [negb orb andb]; [reflexivity|]. cbv iota. rewrite ?E0. cbn [orb]. replace (at0 x t =? -1) with false by lia. reflexivity.
  - cbn [orb]. destruct (at0 x t =? 0) eqn:E0; cbn [negb orb andb]; [reflexivity|]. rewrite (Z.eqb_sym (at0 x (t - 1))). destruct (at0 x t =? at0 x (t - 1)) eqn:E1; cbn [negb orb andb]; [reflexivity|]. rewrite E0. cbn [orb]. replace (at0 x t =? -1) with false by lia. reflexivity.
Qed.

Section Graph.
Variable y : list Z.
Hypothesis pos : Forall (fun a => 1 <= a) y.
Notation T := (ctc_nested false y).
Notation f := (fsa_of T).
Notation aux := (map snd (concat T)).
Notation n := (zlen y).
Notation fin := (2 * n + 1).

Lemma arcs_f : all_arcs f = map fst (concat T).
Proof. unfold all_arcs, fsa_of. now rewrite concat_map. Qed.
Lemma nst : nstates f = 2 * n + 2.
Proof. unfold nstates, fsa_of. rewrite zlen_map, zlen_ctc_nested. reflexivity. Qed.

Lemma state_labels s : 0 <= s < 2 * n + 2 -> NoDup (map (fun b : tarc => lab (fst b)) (ctc_state false y s)).
Proof.
  intros Hs. assert (AP : forall k, 0 <= k <= n -> at_or y k <> 0).
  { intros k Hk. destruct (Z.eq_dec k n) as [->|]; [rewrite at_or_end by lia; lia|]. pose proof (at_or_pos y pos k ltac:(lia)). lia. }
  unfold ctc_state. pose proof (Z.div_mod s 2 ltac:(lia)). pose proof (Z.mod_pos_bound s 2 ltac:(lia)). destruct (s mod 2 =? 0) eqn:E.
  - cbn [map fst lab]. constructor; [|repeat constructor; intros []]. intros [X|[]]. apply (AP (s / 2)); [lia|exact X].
  - destruct (s / 2 =? n) eqn:E2; [constructor|]. assert (A1 : at_or y (s / 2) <> 0) by (apply AP; lia). assert (A2 : at_or y (s / 2 + 1) <> 0) by (apply AP; lia).
    destruct (at_or y (s / 2) =? at_or y (s / 2 + 1)) eqn:E3; cbn [andb negb app map fst lab].
    + constructor; [|repeat constructor; intros []]. intros [X|[]]. congruence.
    + constructor; [intros [X|[X|[]]]; congruence|]. constructor; [intros [X|[]]; lia|]. repeat constructor. intros [].
Qed.
Lemma det j j' b b' : rd (concat T) j = Some b -> rd (concat T) j' = Some b' -> src (fst b) = src (fst b') -> lab (fst b) = lab (fst b') -> j = j'.
Proof.
  intros H H' ES EL. destruct (rd_concat_inv _ _ _ H) as (r & st & i & R1 & R2 & R3 & _). destruct (rd_concat_inv _ _ _ H') as (r' & st' & i' & R1' & R2' & R3' & _).
  unfold ctc_nested in R1, R1'. apply rd_tab_Some in R1 as (B & ->). apply rd_tab_Some in R1' as (B' & ->).
  assert (r = r') by (rewrite <- (ctc_src false y r b (rd_In _ _ _ R2)), ES; exact (ctc_src false y r' b' (rd_In _ _ _ R2'))). subst r'.
  assert (i = i'); [|lia]. pose proof (rd_Some_bound _ _ _ R2) as X. pose proof (rd_Some_bound _ _ _ R2') as X'.
  pose proof (state_labels r B) as ND. rewrite NoDup_nth_error in ND. specialize (ND (Z.to_nat i) (Z.to_nat i')).
  rewrite map_length in ND. rewrite !nth_error_map in ND. rewrite <- !rd_nth, !Z2Nat.id in ND by lia. rewrite R2, R2' in ND. cbn [option_map] in ND. specialize (ND ltac:(unfold zlen in *; lia) ltac:(congruence)). lia.
Qed.

(** One step *)
Lemma step b s : In b (concat T) -> src (fst b) = s -> 0 <= s < fin ->
  (dst (fst b) = fin /\ lab (fst b) = -1 /\ snd b = -1) \/
  (0 <= dst (fst b) < fin /\ 0 <= lab (fst b) /\ snd b = (if (lab (fst b) =? 0) || (lab (fst b) =? prev_at y s) then 0 else lab (fst b)) /\ prev_at y (dst (fst b)) = lab (fst b)).
Proof.
  intros Hb Es Hs. destruct (split_state y s Hs) as [(k & -> & Hk)|(k & -> & Hk)].
  - destruct (proj1 (arcs_even false y k b Hk) (conj Hb Es)) as [->| ->]; cbn [fst snd dst lab].
    + right. rewrite prev_even. repeat split; lia.
    + destruct (Z.eq_dec k n) as [->|Nk]; [left; rewrite at_or_end by lia; repeat split; lia|right]. pose proof (at_or_pos y pos k ltac:(lia)) as P. rewrite prev_even, prev_odd. replace (at_or y k =? 0) with false by lia. cbn [orb]. repeat split; lia.
  - pose proof (at_or_pos y pos k Hk) as P. destruct (proj1 (arcs_odd false y k b Hk) (conj Hb Es)) as [->|[->|(-> & Hm)]]; cbn [fst snd dst lab].
    + right. replace (2 * k + 2) with (2 * (k + 1)) by lia. rewrite prev_even. repeat split; lia.
    + right. rewrite prev_odd. rewrite Z.eqb_refl, orb_true_r. repeat split; lia.
    + destruct Hm as [Hm|Hm]; [discriminate|]. destruct (Z.eq_dec (k + 1) n) as [En|Nk].
      * left. rewrite at_or_end by lia. repeat split; lia.
      * right. pose proof (at_or_pos y pos (k + 1) ltac:(lia)) as P'. replace (2 * k + 3) with (2 * (k + 1) + 1) by lia. rewrite !prev_odd. replace (at_or y (k + 1) =? 0) with false by lia. replace (at_or y (k + 1) =? at_or y k) with false by lia. cbn [orb]. repeat split; lia.
Qed.

(** Paths given by positions and by arcs *)
Lemma to_tpath s p t : apath f s p t -> exists bs : list tarc, tpath (concat T) s bs t /\ arcs_at f p = map fst bs /\ map (at0 aux) p = map snd bs.
Proof.
  induction 1 as [s|j a p t Ha Hp IH]; [exists []; split; [constructor|split; reflexivity]|]. destruct IH as (bs & B1 & B2 & B3). pose proof Ha as Ha'. rewrite arcs_f, rd_map in Ha. destruct (rd (concat T) j) as [b|] eqn:Eb; [|discriminate]. injection Ha as <-.
  exists (b :: bs). split; [apply tpath_cons; [exact (rd_In _ _ _ Eb)|exact B1]|]. rewrite (arcs_at_cons f j p (fst b) Ha'). cbn [map]. rewrite B2, B3. split; [reflexivity|]. f_equal. unfold at0. rewrite rd_map, Eb. reflexivity.
Qed.
Lemma of_tpath s (bs : list tarc) t : tpath (concat T) s bs t -> exists p, apath f s p t /\ arcs_at f p = map fst bs.
Proof.
  induction 1 as [s|b bs t Hb Hp IH]; [exists []; split; [constructor|reflexivity]|]. destruct IH as (p & P1 & P2). apply In_rd in Hb as (j & _ & Hj). assert (Ha : rd (all_arcs f) j = Some (fst b)) by (rewrite arcs_f, rd_map, Hj; reflexivity).
  exists (j :: p). split; [exact (ap_cons f j (fst b) p t Ha P1)|]. rewrite (arcs_at_cons f j p _ Ha), P2. reflexivity.
Qed.
Lemma path_det s p t : apath f s p t -> forall p' t', apath f s p' t' -> labels (arcs_at f p) = labels (arcs_at f p') -> p = p'.
Proof.
  induction 1 as [s|j a p t Ha Hp IH]; intros p' t' Hp' E.
  - destruct Hp' as [s|j' a' p' t' Ha' Hp']; [reflexivity|]. rewrite (arcs_at_cons f j' p' a' Ha') in E. discriminate.
  - rewrite (arcs_at_cons f j p a Ha) in E. inversion Hp' as [s' E1 E2 E3|j' a' p0 t0 Ha' Hp0 E1 E2 E3]; subst; [discriminate|].
    rewrite (arcs_at_cons f j' p0 a' Ha') in E. cbn [labels map] in E. unfold labels in E. cbn [map] in E. injection E as EL ER.
    assert (j = j'). { rewrite arcs_f, rd_map in Ha, Ha'. destruct (rd (concat T) j) as [b|] eqn:Eb; [|discriminate]. destruct (rd (concat T) j') as [b'|] eqn:Eb'; [|discriminate]. injection Ha as <-. injection Ha' as <-. apply (det j j' b b' Eb Eb'); congruence. }
    subst j'. rewrite Ha in Ha'. injection Ha' as <-. f_equal. exact (IH p0 t' Hp0 ER).
Qed.

Lemma tpath_emis (bs : list tarc) : forall s x, tpath (concat T) s bs fin -> 0 <= s < fin -> ilabels bs = x ++ [-1] -> map snd bs = emis (prev_at y s) x ++ [-1] /\ Forall (fun l => 0 <= l) x.
Proof.
  induction bs as [|b bs IH]; intros s x Hp Hs E; [destruct x; discriminate|]. apply tpath_inv in Hp as [(X & _)|(b' & bs' & X & Hb & Es & Hp)]; [discriminate|]. injection X as <- <-.
  destruct (step b s Hb Es Hs) as [(D1 & D2 & D3)|(D1 & D2 & D3 & D4)].
  - rewrite D1 in Hp. apply (tpath_fin false y) in Hp. subst bs. destruct x as [|l x]; [|destruct x; discriminate]. cbn [map emis app]. rewrite D3. split; [reflexivity|constructor].
  - destruct x as [|l x].
    + cbn in E. injection E as E _. lia.
    + cbn in E. injection E as EL ER. destruct (IH _ x Hp D1 ER) as (I1 & I2). cbn [map emis app]. rewrite I1, D3, D4, EL. split; [reflexivity|]. constructor; [lia|exact I2].
Qed.

Lemma n_nonneg : 0 <= n. Proof. apply zlen_nonneg. Qed.

(** Every successful path is an alignment *)
Lemma path_alignment p : successful f p -> exists x, labels (arcs_at f p) = x ++ [-1] /\ collapse x = y /\ score (arcs_at f p) = 0 /\ Forall (fun l => 0 <= l) x /\ zlen p = zlen x + 1 /\ path_delay aux (zlen x) p = delay x.
Proof.
  intros (_ & Hp). rewrite nst in Hp. replace (2 * n + 2 - 1) with fin in Hp by lia. pose proof n_nonneg as NN. destruct (to_tpath 0 p fin Hp) as (bs & B1 & B2 & B3).
  destruct (ctc_fwd false y pos bs 0 B1 ltac:(lia)) as (x & I1 & I2 & I3 & I4). exists x.
  assert (EL : labels (arcs_at f p) = x ++ [-1]) by (rewrite B2; unfold labels; rewrite map_map; exact I1). split; [exact EL|].
  split; [apply crel_false_0; exact I4|]. split; [rewrite B2; unfold score; rewrite map_map; exact I3|].
  destruct (tpath_emis bs 0 x B1 ltac:(lia) I1) as (E1 & E2). split; [exact E2|].
  assert (ZP : zlen p = zlen x + 1).
  { assert (Z : zlen (map (at0 aux) p) = zlen (emis (prev_at y 0) x ++ [-1])) by (rewrite B3, E1; reflexivity). rewrite zlen_map, zlen_app, zlen_emis in Z. exact Z. }
  split; [exact ZP|]. rewrite (delay_emis x E2). unfold path_delay. rewrite ZP. change (prev_at y 0) with 0 in E1. rewrite <- E1, <- B3. f_equal. apply map_ext_in. intros t Ht. apply in_zrange in Ht. rewrite (SufText.at0_map (at0 aux) p t) by lia. reflexivity.
Qed.
(** and every alignment is a path *)
Lemma alignment_path x : collapse x = y -> exists p, successful f p /\ labels (arcs_at f p) = x ++ [-1].
Proof.
  intros H. pose proof n_nonneg as NN. apply crel_false_0 in H. destruct (ctc_bwd false y pos x 0 ltac:(lia) H) as (bs & B1 & B2 & _). destruct (of_tpath 0 bs _ B1) as (p & P1 & P2). exists p. split; [|rewrite P2; unfold labels; rewrite map_map; exact B2].
  split; rewrite nst; [lia|]. replace (2 * n + 2 - 1) with fin by lia. exact P1.
Qed.
Lemma label_bound c a : 0 < c -> Forall (fun l => l < c) y -> In a (all_arcs f) -> lab a < c.
Proof.
  intros Hc HY Ha. assert (AO : forall k, 0 <= k <= n -> at_or y k < c).
  { intros k Hk. unfold at_or. destruct (rd y k) as [l|] eqn:E; [|lia]. rewrite Forall_forall in HY. apply HY. exact (rd_In _ _ _ E). }
  rewrite arcs_f in Ha. apply in_map_iff in Ha as (b & <- & Hb). pose proof n_nonneg as NN. apply (ctc_in false y) in Hb as (s & Hs & Hb). unfold ctc_state in Hb. pose proof (Z.div_mod s 2 ltac:(lia)). pose proof (Z.mod_pos_bound s 2 ltac:(lia)).
  destruct (s mod 2 =? 0) eqn:E.
  - destruct Hb as [<-|[<-|[]]]; cbn [fst lab]; [lia|]. apply AO. lia.
  - destruct (s / 2 =? n) eqn:E2; [destruct Hb|]. assert (B1 : 0 <= s / 2 <= n /\ 0 <= s / 2 + 1 <= n) by (clear -NN Hs E E2 H H0; lia). apply in_app_or in Hb as [[<-|[<-|[]]]|Hb]; cbn [fst lab]; [lia|apply AO; lia|]. destruct (_ && _); [destruct Hb|]. destruct Hb as [<-|[]]. cbn [fst lab]. apply AO. lia.
Qed.
Lemma labels_bound c s p t : 0 < c -> Forall (fun l => l < c) y -> apath f s p t -> Forall (fun l => l < c) (labels (arcs_at f p)).
Proof.
  intros Hc HY. induction 1 as [s|j a p t Ha Hp IH]; [constructor|]. rewrite (arcs_at_cons f j p a Ha). unfold labels in *. cbn [map]. constructor; [|exact IH]. exact (label_bound c a Hc HY (rd_In _ _ _ Ha)).
Qed.
Lemma arc_count : zlen (concat T) <= 5 * n + 2.
Proof.
  pose proof n_nonneg as NN. assert (G : forall s, 0 <= s < 2 * n + 2 -> zlen (ctc_state false y s) <= if s mod 2 =? 0 then 2 else if s / 2 =? n then 0 else 3).
  { intros s Hs. unfold ctc_state. destruct (s mod 2 =? 0); [change (2 <= 2); lia|]. destruct (s / 2 =? n); [change (0 <= 0); lia|]. destruct (_ && _); [change (2 <= 3); lia|change (3 <= 3); lia]. }
  assert (SM : forall m, 0 <= m <= n -> zsum (map (fun s => zlen (ctc_state false y s)) (zrange (2 * m))) <= 5 * m).
  { intros m Hm. replace m with (Z.of_nat (Z.to_nat m)) by lia. assert (Hm' : Z.of_nat (Z.to_nat m) <= n) by lia. clear Hm. revert Hm'. induction (Z.to_nat m) as [|i IH]; intros Hi; [change (0 <= 0); lia|].
    replace (2 * Z.of_nat (S i)) with (2 * Z.of_nat i + 1 + 1) by lia. rewrite !zrange_S by lia. rewrite !map_app, !zsum_app. cbn [map]. specialize (IH ltac:(lia)).
    pose proof (G (2 * Z.of_nat i) ltac:(lia)) as G1. pose proof (G (2 * Z.of_nat i + 1) ltac:(lia)) as G2. destruct (even_facts y (Z.of_nat i)) as (E1 & _). destruct (odd_facts y (Z.of_nat i)) as (O1 & O2 & _). rewrite E1 in G1. rewrite O1, O2 in G2. replace (Z.of_nat i =? n) with false in G2 by lia. change (0 =? 0) with true in G1; change (1 =? 0) with false in G2; cbv iota in G1, G2. rewrite !ReplaceProps.zsum_cons. change (zsum []) with 0.
 lia. }
  assert (E : zlen (concat T) = zsum (map (fun s => zlen (ctc_state false y s)) (zrange (2 * n + 2)))) by (unfold ctc_nested, tab; rewrite <- zsum_zlen_concat, map_map; reflexivity).
  rewrite E. replace (2 * n + 2) with (2 * n + 1 + 1) by lia. rewrite !zrange_S by lia. rewrite !map_app, !zsum_app. cbn [map]. rewrite !ReplaceProps.zsum_cons. change (zsum []) with 0. specialize (SM n ltac:(lia)).
  pose proof (G (2 * n) ltac:(lia)) as G1. pose proof (G (2 * n + 1) ltac:(lia)) as G2. destruct (even_facts y n) as (E1 & _). destruct (odd_facts y n) as (O1 & O2 & _). rewrite E1 in G1. rewrite O1, O2, Z.eqb_refl in G2. change (0 =? 0) with true in G1; change (1 =? 0) with false in G2; cbv iota in G1, G2. lia.
Qed.
End Graph.

Lemma acoustic_app lg x z : zlen x = zlen lg -> acoustic lg (x ++ z) = acoustic lg x.
Proof.
  revert x. induction lg as [|r lg IH]; intros x H; [reflexivity|]. destruct x as [|l x]; [rewrite zlen_cons in H; change (zlen (@nil Z)) with 0 in H; pose proof (zlen_nonneg lg); lia|]. rewrite !zlen_cons in H. cbn [acoustic app]. rewrite IH by lia. reflexivity.
Qed.
