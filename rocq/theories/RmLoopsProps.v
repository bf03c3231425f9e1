(** C27 and C58: k2.remove_epsilon and k2.remove_epsilon_and_add_self_loops on batches *)
From Coq Require Import ZArith List Lia Bool Permutation.
From Coq Require Import ZifyBool ZifyNat.
From Verif Require Import Base RaggedModel RaggedSpec RaggedProofs FsaSpec FsaLemmas FsaOpsModel FsaOpsProofs EpsLoopProofs PropsModel PropsSpec PropsProps OpsModel IntersectModel IntersectProps ComposeProps LinearModel ConnectProofs ReverseModel VecElement DetProps ScoreSpec ShortestSpec RmEpsSpec RmEpsModel RmEpsProps RmDevModel RmDevSpec RmDevProps RmLoopsModel RmLoopsSpec RmLoopsProofs.
Import ListNotations.
Open Scope Z_scope.

Lemma removed_empty : epsilon_removed [] [] [].
Proof. split; [intros a []|]. split; [reflexivity|]. split; intros q (H & _); exfalso; unfold nstates in H; rewrite zlen_nil in H; lia. Qed.

(** ** The host algorithm on a batch *)
Lemma host_finite f r g : accessible f -> removed_into f r g -> mapM finite_arc (snd r) = Some (all_arcs g).
Proof.
  intros HA (_ & _ & _ & L & H). apply mapM_Some_iff. revert L H. generalize (snd r), (all_arcs g). intros l. induction l as [|o l IH]; intros l' L H.
  - destruct l'; [constructor|]. rewrite zlen_nil, zlen_cons in L. pose proof (zlen_nonneg l'). lia.
  - destruct l' as [|a l']; [rewrite zlen_nil, zlen_cons in L; pose proof (zlen_nonneg l); lia|]. rewrite !zlen_cons in L. constructor.
    + destruct (H 0 o a eq_refl eq_refl) as (-> & E2 & E3 & _ & E5) || destruct (H 0 o a eq_refl eq_refl) as (E1 & E2 & E3 & _ & E5). unfold finite_arc. rewrite (E5 HA). destruct a as [s d l0 w]. cbn in *. congruence.
    + apply IH; [lia|]. intros k o' a' Ho Ha'. apply (H (k + 1) o' a'); rewrite rd_cons; pose proof (rd_Some_bound _ _ _ Ho); replace (k + 1 =? 0) with false by lia; replace (k + 1 - 1) with k by lia; assumption.
Qed.

Lemma host_all fs : (forall f, In f fs -> (valid f /\ accessible f \/ f = []) /\ p_topsorted_acyclic f) -> forall tot,
  exists rs gs, remove_epsilon_vec tot (map (fun f => (splits_of f, all_arcs f)) fs) = Some rs /\ zlen rs = zlen fs /\ zlen gs = zlen fs /\
    mapM (fun r => l <- mapM finite_arc (snd r);; Some (fst r, l)) rs = Some (map enc gs) /\
    forall i f g r, rd fs i = Some f -> rd gs i = Some g -> rd rs i = Some r ->
      exists der, map o_der (snd r) = map (map (Z.add (tot + off1 (map all_arcs fs) i))) der /\ epsilon_removed f g der /\ (valid g \/ g = []).
Proof.
  induction fs as [|f fs IH]; intros H tot.
  - exists [], []. repeat split. intros i f g r Hf. rewrite rd_nil in Hf. discriminate.
  - assert (HX : exists r g, remove_epsilon (splits_of f) (all_arcs f) = Some r /\ mapM finite_arc (snd r) = Some (all_arcs g) /\ fst r = splits_of g /\ epsilon_removed f g (map o_der (snd r)) /\ (valid g \/ g = [])).
    { destruct (H f (or_introl eq_refl)) as ([(HV & HA)| ->] & HT).
      - destruct (C27_remove_epsilon_host f HV HT) as (r & g & E & R & _). exists r, g. split; [exact E|]. split; [now apply (host_finite f)|]. destruct R as (R1 & R2 & R3 & _). auto.
      - exists ([0], []), []. split; [reflexivity|]. split; [reflexivity|]. split; [reflexivity|]. split; [apply removed_empty|now right]. }
    destruct HX as (r & g & E & E1 & E2 & E3 & E4). destruct (IH (fun f' Hf => H f' (or_intror Hf)) (tot + zlen (all_arcs f))) as (rs & gs & F1 & F2 & F3 & F4 & F5).
    cbn [map remove_epsilon_vec]. rewrite E, F1. exists ((fst r, map (fun o => mkO (o_src o) (o_dst o) (o_lab o) (o_sc o) (map (fun j => tot + j) (o_der o))) (snd r)) :: rs), (g :: gs). split; [reflexivity|]. rewrite !zlen_cons. split; [lia|]. split; [lia|]. split.
    + cbn [mapM fst snd map]. assert (EF : mapM finite_arc (map (fun o => mkO (o_src o) (o_dst o) (o_lab o) (o_sc o) (map (fun j => tot + j) (o_der o))) (snd r)) = mapM finite_arc (snd r)).
      { generalize (snd r). induction l as [|o l IHl]; [reflexivity|]. cbn [map mapM]. rewrite IHl. reflexivity. }
      rewrite EF, E1. rewrite F4. unfold enc at 2. rewrite E2. reflexivity.
    + intros i f' g' r' Hf Hg Hr. rewrite rd_cons in Hf. rewrite rd_cons in Hg. rewrite rd_cons in Hr. destruct (Z.eqb_spec i 0) as [->|N].
      * injection Hf as <-. injection Hg as <-. injection Hr as <-. exists (map o_der (snd r)). split; [|auto]. cbn [snd]. rewrite !map_map. apply map_ext. intros o. cbn [o_der]. apply map_ext. intros j. change (off1 (all_arcs f :: map all_arcs fs) 0) with 0. lia.
      * destruct (F5 _ _ _ _ Hf Hg Hr) as (der & G1 & G2 & G3). exists der. split; [|auto]. rewrite G1. apply map_ext. intros l. apply map_ext. intros j. f_equal. pose proof (rd_Some_bound _ _ _ Hf). unfold off1. replace (Z.to_nat i) with (S (Z.to_nat (i - 1))) by lia. cbn [map firstn concat]. rewrite zlen_app. lia.
Qed.

Lemma host_batch fs : fs <> [] -> (forall f, In f fs -> (valid f /\ accessible f \/ f = []) /\ p_topsorted_acyclic f) ->
  exists r, remove_epsilon_host (flat_vec fs) = Some r /\ batch_result epsilon_removed fs r.
Proof.
  intros NE H. destruct (host_all fs H 0) as (rs & gs & E1 & E2 & E3 & E4 & E5).
  assert (LF : zlen (v_rs1 (flat_vec fs)) - 1 = zlen fs) by (cbn [flat_vec v_rs1]; rewrite zlen_splits_of; lia).
  unfold remove_epsilon_host. rewrite LF. assert (P : 0 < zlen fs) by (destruct fs; [congruence|rewrite zlen_cons; pose proof (zlen_nonneg fs); lia]). replace (0 <? zlen fs) with true by lia.
  assert (ES : mapM (vec_element (flat_vec fs)) (zrange (zlen fs)) = Some (map flat fs)).
  { apply RaggedOpsProofs.mapM_zrange; [lia|apply zlen_map|]. intros i Hi. rewrite vec_element_ok, rd_map. reflexivity. }
  rewrite ES, map_map. cbn [flat row_splits arcs]. unfold all_arcs in E1. rewrite E1, E4, create_ok. eexists. split; [reflexivity|].
  exists gs, (map (fun r => map o_der (snd r)) rs). split; [reflexivity|]. split; [exact E3|]. split; [rewrite zlen_map; exact E2|].
  intros i f g d Hf Hg Hd. rewrite rd_map in Hd. destruct (rd rs i) as [r|] eqn:Er; [|discriminate]. injection Hd as <-. destruct (E5 i f g r Hf Hg Er) as (der & G). exists der. exact G.
Qed.

(** ** Adding the loops to a result *)
Lemma row_map (F : list Z -> list Z) d i : F [] = [] -> row (map F d) i = F (row d i).
Proof. intros E. unfold row. rewrite rd_map. destruct (rd d i); auto. Qed.

Lemma loops_batch ord fs r : fair ord -> batch_result epsilon_removed fs r ->
  exists o m, add_eps_loops_vec (ord (zlen (v_arcs (fst r)) + (zlen (v_rs2 (fst r)) - 1))) (ord (zlen (v_rs2 (fst r)) - 1)) (fst r) = Some o /\
    carry_rows (snd r) (vo_map o) = Some m /\ batch_result epsilon_loops_only fs (vo_vec o, m).
Proof.
  intros FO (gs & ders & -> & L1 & L2 & H). cbn [fst snd].
  assert (EX : forall k g, rd gs k = Some g -> exists f d, rd fs k = Some f /\ rd ders k = Some d).
  { intros k g Hg. pose proof (rd_Some_bound _ _ _ Hg). destruct (rd_in_bound fs k) as (f & Hf); [lia|]. destruct (rd_in_bound ders k) as (d & Hd); [lia|]. eauto. }
  assert (VO : vec_ok gs).
  { apply Forall_forall. intros g Hg. apply In_rd in Hg as (k & _ & Hg). destruct (EX k g Hg) as (f & d & Hf & Hd). destruct (H k f g d Hf Hg Hd) as (der & _ & _ & [(V1 & V2 & V3)| ->]).
    - split; [exact V1|]. intros a Ha. now apply V3.
    - split; [|intros a []]. intros i st a Hi. rewrite rd_nil in Hi. discriminate. }
  assert (HD : forall k g d, rd gs k = Some g -> rd ders k = Some d -> zlen d = zlen (all_arcs g)).
  { intros k g d Hg Hd. destruct (EX k g Hg) as (f & d' & Hf & _). destruct (H k f g d Hf Hg Hd) as (der & -> & (_ & Z & _) & _). rewrite zlen_map. exact Z. }
  destruct (batch_ok gs ders VO ltac:(lia) HD ord FO) as (o & E1 & E2 & E3). exists o, (concat (newders gs ders)). split; [exact E1|]. split; [exact E3|]. rewrite E2.
  exists (map add_loops gs), (newders gs ders). split; [reflexivity|]. split; [rewrite zlen_map; lia|]. split; [unfold newders; rewrite zlen_imap; lia|].
  intros i f h d Hf Hh Hd. rewrite rd_map in Hh. destruct (rd gs i) as [g|] eqn:Hg; [|discriminate]. injection Hh as <-. destruct (EX i g Hg) as (f' & d' & Hf' & Hd'). rewrite Hf in Hf'. injection Hf' as <-.
  rewrite (newders_rd gs ders ltac:(lia) HD i g d' Hg Hd') in Hd. injection Hd as <-. destruct (H i f g d' Hf Hg Hd') as (der & -> & R & V). exists (dh g der). split; [|split].
  - unfold dh. rewrite map_map. apply map_ext. intros k. now apply row_map.
  - assert (HG : src_ok g /\ forall a, In a (all_arcs g) -> src a <> final g) by (apply (proj1 (Forall_forall _ _) VO); eapply rd_In; eauto). apply one_ok; solve [exact R|apply HG].
  - destruct V as [V| ->]; [left; now apply add_loops_valid|now right].
Qed.

(** ** The properties *)
Lemma props_ok ord fs : fair ord -> (forall f, In f fs -> valid f \/ f = []) ->
  exists p, py_properties (ord (zlen (v_arcs (flat_vec fs)))) (flat_vec fs) = Some p /\
    (Z.land p kTopSortedAndAcyclic <> 0 <-> forall f, In f fs -> p_topsorted_acyclic f) /\
    (Z.land p kEpsilonFree <> 0 <-> forall f, In f fs -> p_epsfree f).
Proof.
  intros FO HV. assert (HS : is_sched (zlen (concat (concat fs))) (ord (zlen (v_arcs (flat_vec fs))))) by apply FO.
  destruct (proj2 (C15_properties_raises _ fs HS)) as (p & Hp).
  { apply Forall_forall. intros f Hf. destruct (HV f Hf) as [V| ->]; [now apply valid_p_valid|apply p_valid_nil]. }
  exists p. split; [exact Hp|]. destruct (C15_property_bits _ fs HS) as (per & tot & E & L & HP & _ & HT). unfold py_properties in Hp. rewrite E in Hp. cbn [snd] in Hp. destruct (_ =? _); [|discriminate]. injection Hp as <-.
  assert (G : forall b (Q : nfsa -> Prop), 0 <= b < 9 -> (forall f p, bits_mean f p -> (has p (2 ^ b) <-> Q f)) -> (has tot (2 ^ b) <-> forall f, In f fs -> Q f)).
  { intros b Q Hb HQ. rewrite (HT b Hb). split.
    - intros A f Hf. apply In_rd in Hf as (k & _ & Hf). destruct (HP k f Hf) as (p & Hp & _ & B). apply (HQ f p B). apply A. eapply rd_In; eauto.
    - intros A p Hp. apply In_rd in Hp as (k & Hk & Hp). destruct (rd_in_bound fs k) as (f & Hf); [lia|]. destruct (HP k f Hf) as (p' & Hp' & _ & B). rewrite Hp in Hp'. injection Hp' as <-. apply (HQ f p B). apply A. eapply rd_In; eauto. }
  split.
  - apply (G 3 p_topsorted_acyclic ltac:(lia)). intros f p (_ & _ & _ & B & _). exact B.
  - apply (G 6 p_epsfree ltac:(lia)). intros f p (_ & _ & _ & _ & _ & _ & B & _). exact B.
Qed.

(** What the input must satisfy.  On the CPU and if all FSAs are top-sorted and acyclic,
    the host algorithm is used: there must be at least one FSA, and all states must be
    accessible, otherwise scores may be NaN (C27_unreachable_nan_refuted).  In the other
    cases the device algorithm is used: see C27_device_early_stop_refuted. *)
Definition usable (cpu : bool) (fs : list nfsa) : Prop :=
  (forall f, In f fs -> (valid f \/ f = []) /\ int32_labels f /\ no_positive_eps_cycle f) /\
  (cpu = true /\ (forall f, In f fs -> p_topsorted_acyclic f) -> fs <> [] /\ forall f, In f fs -> f = [] \/ accessible f) /\
  (~ (cpu = true /\ forall f, In f fs -> p_topsorted_acyclic f) -> zlen fs <= 1 \/ forall f, In f fs -> no_parallel_eps f).

Lemma any_ok cpu ord fuel fs p : fair ord -> usable cpu fs -> zlen (concat fs) <= Z.of_nat fuel ->
  (Z.land p kTopSortedAndAcyclic <> 0 <-> forall f, In f fs -> p_topsorted_acyclic f) ->
  exists r, remove_epsilon_any cpu ord fuel p (flat_vec fs) = Some r /\ batch_result epsilon_removed fs r.
Proof.
  intros FO (U1 & U2 & U3) HF HP. unfold remove_epsilon_any. destruct (negb (Z.land p kTopSortedAndAcyclic =? 0) && cpu) eqn:D.
  - apply andb_prop in D as (D1 & ->). assert (T : forall f, In f fs -> p_topsorted_acyclic f) by (apply HP; lia). destruct (U2 (conj eq_refl T)) as (NE & A). apply host_batch; [exact NE|]. intros f Hf. split; [|now apply T]. destruct (proj1 (U1 f Hf)) as [V|E]; [|now right]. destruct (A f Hf) as [E|E]; [now right|left; auto].
  - assert (N : ~ (cpu = true /\ forall f, In f fs -> p_topsorted_acyclic f)).
    { intros (-> & T). apply HP in T. rewrite andb_true_r in D. lia. }
    destruct (C27_remove_epsilon_device ord fuel fs FO U1 (U3 N) HF) as (r & E & gs & ders & -> & L1 & L2 & H). eexists. split; [exact E|]. exists gs, ders. split; [reflexivity|]. split; [exact L1|]. split; [exact L2|].
    intros i f g d Hf Hg Hd. destruct (H i f g d Hf Hg Hd) as (der & -> & R & _ & R1 & R2). exists der. split; [reflexivity|]. split; [exact R|]. destruct (all_arcs f) eqn:Ea; [right; auto|left; apply R2; discriminate].
Qed.

(** C27, as called from Python, CPU or GPU *)
Theorem C27_remove_epsilon cpu ord fuel fs : fair ord -> usable cpu fs -> zlen (concat fs) <= Z.of_nat fuel ->
  exists r, k2_remove_epsilon cpu ord fuel (flat_vec fs) = Some r /\ batch_result epsilon_removed fs r.
Proof.
  intros FO U HF. destruct (props_ok ord fs FO (fun f Hf => proj1 (proj1 U f Hf))) as (p & E & P1 & _). unfold k2_remove_epsilon. rewrite E. now apply any_ok.
Qed.
Print Assumptions C27_remove_epsilon.

Lemma removed_id f : p_epsfree f -> epsilon_removed f f (map (fun j => [j]) (zrange (zlen (all_arcs f)))).
Proof.
  intros HE. assert (B : forall s q t, apath f s q t -> concat (map (fun j => match rd (map (fun j => [j]) (zrange (zlen (all_arcs f)))) j with Some d => d | None => [] end) q) = q).
  { induction 1 as [|j a p t Ha Hp IH]; [reflexivity|]. cbn [map concat]. rewrite IH, rd_map, rd_zrange by (eapply rd_Some_bound; eauto). reflexivity. }
  split; [exact HE|]. split; [rewrite zlen_map, zlen_zrange; [reflexivity|apply zlen_nonneg]|]. split.
  - intros q (H0 & Hq). rewrite (B _ _ _ Hq). split; [split; auto|]. split; [|reflexivity]. apply strip_noeps. intros a Ha. apply in_flat_map in Ha as (j & _ & Ha). destruct (rd (all_arcs f) j) as [b|] eqn:Eb; [|destruct Ha]. destruct Ha as [<-|[]]. apply HE. eapply rd_In; eauto.
  - intros p Hp. exists p. split; [exact Hp|]. split; [|lia]. symmetry. apply strip_noeps. intros a Ha. apply in_flat_map in Ha as (j & _ & Ha). destruct (rd (all_arcs f) j) as [b|] eqn:Eb; [|destruct Ha]. destruct Ha as [<-|[]]. apply HE. eapply rd_In; eauto.
Qed.

(** C58 *)
Theorem C58_remove_epsilon_add_self_loops cpu ord fuel fs : fair ord -> usable cpu fs -> zlen (concat fs) <= Z.of_nat fuel ->
  exists r, k2_remove_epsilon_add_loops cpu ord fuel (flat_vec fs) = Some r /\ batch_result epsilon_loops_only fs r.
Proof.
  intros FO U HF. destruct (props_ok ord fs FO (fun f Hf => proj1 (proj1 U f Hf))) as (p & E & P1 & P2). unfold k2_remove_epsilon_add_loops. rewrite E. destruct (negb (Z.land p kEpsilonFree =? 0)) eqn:D.
  - assert (EF : forall f, In f fs -> p_epsfree f) by (apply P2; lia).
    set (ders := imap (fun i (f : nfsa) => map (map (Z.add (off1 (map all_arcs fs) i))) (map (fun j => [j]) (zrange (zlen (all_arcs f))))) 0 fs).
    assert (BR : batch_result epsilon_removed fs (flat_vec fs, concat ders)).
    { exists fs, ders. split; [reflexivity|]. split; [reflexivity|]. split; [unfold ders; apply zlen_imap|]. intros i f g d Hf Hg Hd. rewrite Hf in Hg. injection Hg as <-. unfold ders in Hd. rewrite rd_imap, Hf in Hd. cbn [option_map] in Hd. replace (0 + i) with i in Hd by lia. injection Hd as <-. eexists. split; [reflexivity|]. split; [apply removed_id; apply EF; eapply rd_In; eauto|]. apply U. eapply rd_In; eauto. }
    destruct (loops_batch ord fs _ FO BR) as (o & m & A1 & A2 & A3). cbn [fst snd] in *. rewrite A1. eexists. split; [reflexivity|].
    replace (map (fun j => if j =? -1 then [] else [j]) (vo_map o)) with m; [exact A3|].
    assert (ED : forall j, 0 <= j < zlen (concat (concat fs)) -> rd (concat ders) j = Some [j]).
    { intros j Hj. destruct (rd_in_bound _ _ Hj) as (a & Ha). rewrite <- concat_map_concat in Ha. destruct (rd_concat_inv _ _ _ Ha) as (k & l & q & H1 & H2 & -> & _). rewrite rd_map in H1. destruct (rd fs k) as [f|] eqn:Hf; [|discriminate]. injection H1 as <-. pose proof (rd_Some_bound _ _ _ Hf). pose proof (rd_Some_bound _ _ _ H2).
      assert (Hd : rd ders k = Some (map (map (Z.add (off1 (map all_arcs fs) k))) (map (fun j => [j]) (zrange (zlen (all_arcs f)))))) by (unfold ders; rewrite rd_imap, Hf; cbn [option_map]; replace (0 + k) with k by lia; reflexivity).
      assert (HL : forall k g d, rd fs k = Some g -> rd ders k = Some d -> zlen d = zlen (all_arcs g)).
      { intros k' g d Hg' Hd'. unfold ders in Hd'. rewrite rd_imap, Hg' in Hd'. injection Hd' as <-. rewrite !zlen_map, zlen_zrange; [reflexivity|apply zlen_nonneg]. }
      assert (Hq : rd (map (map (Z.add (off1 (map all_arcs fs) k))) (map (fun j => [j]) (zrange (zlen (all_arcs f))))) q = Some [off1 (map all_arcs fs) k + q]) by (rewrite !rd_map, rd_zrange by (unfold all_arcs; lia); reflexivity).
      destruct (rd_concat_off _ _ _ _ _ Hd Hq) as (X & _). rewrite (off_ders fs ders) in X; [exact X|unfold ders; apply zlen_imap|exact HL|lia]. }
    unfold carry_rows in A2. assert (LD : zlen (concat ders) = zlen (concat (concat fs))).
    { destruct (Z.eq_dec (zlen (concat ders)) (zlen (concat (concat fs)))) as [|N]; [assumption|]. exfalso. apply N. apply (zlen_ders fs ders); [unfold ders; apply zlen_imap|]. intros k' g d Hg' Hd'. unfold ders in Hd'. rewrite rd_imap, Hg' in Hd'. injection Hd' as <-. rewrite !zlen_map, zlen_zrange; [reflexivity|apply zlen_nonneg]. }
    clear - A2 ED LD. revert m A2. induction (vo_map o) as [|j l IH]; intros m A2; [injection A2 as <-; reflexivity|]. cbn [mapM] in A2. cbn [map]. destruct (j =? -1) eqn:Ej.
    + destruct (mapM _ l) as [m'|]; [|discriminate]. injection A2 as <-. f_equal. now apply IH.
    + destruct (rd (concat ders) j) as [x|] eqn:Ex; [|discriminate]. pose proof (rd_Some_bound _ _ _ Ex). rewrite ED in Ex by lia. injection Ex as <-. destruct (mapM _ l) as [m'|]; [|discriminate]. injection A2 as <-. f_equal. now apply IH.
  - destruct (any_ok cpu ord fuel fs p FO U HF P1) as (r & E1 & R). unfold remove_epsilon_add_loops. rewrite E1. destruct (loops_batch ord fs r FO R) as (o & m & A1 & A2 & A3). rewrite A1, A2. eexists. split; [reflexivity|exact A3].
Qed.
Print Assumptions C58_remove_epsilon_add_self_loops.

(** The hypotheses hold of a batch for the host algorithm ... *)
Lemma acyclic_no_cycle f : p_topsorted_acyclic f -> no_positive_eps_cycle f.
Proof.
  intros H. assert (G : forall s p t, apath f s p t -> s <= t /\ (p <> [] -> s < t)).
  { induction 1 as [|j a p t Ha Hp (I1 & I2)]; [split; [lia|congruence]|]. pose proof (H a (rd_In _ _ _ Ha)). split; [lia|intros _; lia]. }
  intros s p Hp _. destruct (G _ _ _ Hp) as (_ & X). destruct p as [|j p]; [cbn; lia|]. pose proof (X ltac:(discriminate)). lia.
Qed.
Example C58_host_ex : fair zrange /\ usable true [ex_f; []] /\
  k2_remove_epsilon_add_loops true zrange 20 (flat_vec [ex_f; []]) =
    Some (mkVec [0; 4; 4] [0; 4; 6; 8; 8] [mkArc 0 0 0 0; mkArc 0 1 5 2; mkArc 0 2 7 2; mkArc 0 2 6 8; mkArc 1 1 0 0; mkArc 1 3 (-1) 1; mkArc 2 2 0 0; mkArc 2 3 (-1) 0],
      [[]; [2]; [0; 4]; [0; 3; 5]; []; [6; 7]; []; [7]]).
Proof.
  destruct C27_host_ex as (V & T & A & _). split; [intros n; apply Permutation_refl|]. split; [|vm_compute; reflexivity]. split; [|split].
  - intros f [<-|[<-|[]]]; split; auto; (split; [intros a Ha; cbn in Ha; repeat (destruct Ha as [<-|Ha]; [cbn; lia|]); destruct Ha|apply acyclic_no_cycle]); [exact T|intros a []].
  - intros _. split; [discriminate|]. intros f [<-|[<-|[]]]; auto.
  - intros N. exfalso. apply N. split; [reflexivity|]. intros f [<-|[<-|[]]]; [exact T|intros a []].
Qed.
(** ... and of one with epsilon cycles for the device algorithm *)
Example C58_device_ex : usable true [dex1; [[]; []]; []; dex2] /\ usable false [dex1; [[]; []]; []; dex2].
Proof.
  assert (N : forall c, ~ (c = true /\ forall f, In f [dex1; [[]; []]; []; dex2] -> p_topsorted_acyclic f)).
  { intros c (_ & H). specialize (H dex1 (or_introl eq_refl) (mkArc 2 1 0 (-2))). cbn in H. assert (2 < 1) by (apply H; auto 10). lia. }
  split; (split; [exact C27_device_ex|]; split; [intros X; now apply N in X|intros _; right; exact dex_parallel]).
Qed.
