(** * C19: connect keeps exactly the useful part. *)
From Coq Require Import ZArith List Lia Bool Sorted.
From Coq Require Import ZifyBool ZifyNat.
From Verif Require Import Base RaggedModel RaggedSpec RaggedProofs FsaSpec FsaLemmas FsaOpsModel FsaOpsProofs FsaOpsProps SelectProofs
  EpsLoopProofs RaggedOpsModel RaggedOpsProofs OpsModel OpsProofs FstSpec GraphProofs PropsModel PropsSpec PropsProofs PropsProps ReverseModel ReverseProofs ReverseProps
  VecElement ConnectModel ConnectSpec ConnectProofs ExtractProofs ConnectRun.
Import ListNotations.
Open Scope Z_scope.

(** ** Sorted lists *)
Lemma sorted_first o m : StronglySorted Z.lt o -> In m o -> (forall s, In s o -> m <= s) -> rd o 0 = Some m.
Proof.
  intros S I H. destruct o as [|x o]; [destruct I|]. rewrite rd_cons_0. destruct I as [->|I]; auto.
  inversion S as [|? ? _ F]; subst. rewrite Forall_forall in F. specialize (F m I). specialize (H x (or_introl eq_refl)). lia.
Qed.
Lemma sorted_last o m : StronglySorted Z.lt o -> In m o -> (forall s, In s o -> s <= m) -> rd o (zlen o - 1) = Some m.
Proof.
  induction o as [|x o IH]; intros S I H; [destruct I|]. inversion S as [|? ? S' F]; subst. rewrite Forall_forall in F.
  rewrite zlen_cons. destruct o as [|y o].
  - change (zlen (@nil Z)) with 0. change (1 + 0 - 1) with 0. rewrite rd_cons_0. destruct I as [->|[]]; auto.
  - pose proof (zlen_nonneg o). rewrite rd_cons. pose proof (zlen_cons y o). replace (1 + zlen (y :: o) - 1 =? 0) with false by lia.
    replace (1 + zlen (y :: o) - 1 - 1) with (zlen (y :: o) - 1) by lia. apply IH; auto.
    + destruct I as [->|I]; auto. exfalso. specialize (F y (or_introl eq_refl)). specialize (H y). cbn [In] in H. intuition lia.
    + intros; apply H; now right.
Qed.
Lemma sorted_app (l1 l2 : list Z) : StronglySorted Z.lt (l1 ++ l2) -> StronglySorted Z.lt l1 /\ StronglySorted Z.lt l2.
Proof.
  induction l1 as [|x l1 IH]; intros H; [split; [constructor|auto]|]. cbn [app] in H. inversion H as [|? ? H1 F]; subst.
  destruct (IH H1) as (S1 & S2). split; auto. constructor; auto. rewrite Forall_forall in *. intros; apply F, in_or_app; auto.
Qed.
Lemma sorted_row (ll : list (list Z)) : StronglySorted Z.lt (concat ll) -> forall k l, rd ll k = Some l -> StronglySorted Z.lt l.
Proof.
  induction ll as [|x ll IH]; intros H k l Hk; [rewrite rd_nil in Hk; discriminate|]. cbn [concat] in H. apply sorted_app in H as (H1 & H2).
  rewrite rd_cons in Hk. destruct (k =? 0); [injection Hk as <-; auto|eauto].
Qed.
Lemma sorted_filter (P : Z -> bool) l : StronglySorted Z.lt l -> StronglySorted Z.lt (filter P l).
Proof.
  induction 1 as [|x l S IH F]; cbn [filter]; [constructor|]. destruct (P x); auto. constructor; auto.
  rewrite Forall_forall in *. intros y Hy. apply filter_In in Hy. apply F. tauto.
Qed.
Lemma sorted_zrange n : StronglySorted Z.lt (zrange n).
Proof.
  destruct (Z_lt_le_dec n 0) as [H|H]; [unfold zrange; replace (Z.to_nat n) with 0%nat by lia; constructor|]. revert H.
  apply (natlike_ind (fun n => StronglySorted Z.lt (zrange n))); [constructor|]. intros m Hm IH. unfold Z.succ. rewrite zrange_S by lia.
  assert (G : forall l, StronglySorted Z.lt l -> (forall x, In x l -> x < m) -> StronglySorted Z.lt (l ++ [m])).
  { induction l as [|x l IHl]; intros S B; cbn [app]; [repeat constructor|]. inversion S as [|? ? S' F]; subst. constructor.
    - apply IHl; auto. intros; apply B; now right.
    - apply Forall_forall. intros y Hy. apply in_app_or in Hy as [Hy|[<-|[]]]; [rewrite Forall_forall in F; auto|]. apply B. now left. }
  apply G; auto. intros x Hx. apply in_zrange in Hx. lia.
Qed.
Lemma sorted_map_shift c l : StronglySorted Z.lt l -> StronglySorted Z.lt (map (fun s => s + c) l).
Proof.
  induction 1 as [|x l S IH F]; cbn [map]; constructor; auto. rewrite Forall_forall in *. intros y Hy. apply in_map_iff in Hy as (z & <- & Hz).
  apply F in Hz. lia.
Qed.
Lemma sorted_unique : forall l l', StronglySorted Z.lt l -> StronglySorted Z.lt l' -> (forall x, In x l <-> In x l') -> l = l'.
Proof.
  induction l as [|x l IH]; intros [|y l'] S S' H; auto.
  - exfalso. apply (proj2 (H y)). now left.
  - exfalso. apply (proj1 (H x)). now left.
  - inversion S as [|? ? S1 F]; subst. inversion S' as [|? ? S1' F']; subst. rewrite Forall_forall in *.
    assert (x = y).
    { destruct (proj1 (H x) (or_introl eq_refl)) as [->|I]; auto. destruct (proj2 (H y) (or_introl eq_refl)) as [->|I']; auto.
      apply F' in I. apply F in I'. lia. }
    subst y. f_equal. apply IH; auto. intros z. split; intros I.
    + pose proof (F z I). destruct (proj1 (H z) (or_intror I)) as [->|]; auto. lia.
    + pose proof (F' z I). destruct (proj2 (H z) (or_intror I)) as [->|]; auto. lia.
Qed.

Section Conn.
Variable fs : list nfsa.
Hypothesis WF : Forall well_formed fs.
Let SO : Forall src_ok fs.
Proof. eapply Forall_impl; [|exact WF]. now intros f (H & _). Qed.
Let DO : Forall (fun f : nfsa => forall a, In a (all_arcs f) -> 0 <= dst a < nstates f) fs.
Proof. eapply Forall_impl; [|exact WF]. now intros f (_ & H). Qed.

Definition acc_spec (acc : list bool) := zlen acc = zlen (concat fs) /\ forall k f i, rd fs k = Some f -> 0 <= i < zlen f ->
  rd acc (off1 fs k + i) = Some true <-> exists p, path (all_arcs f) 0 p i.
Definition co_spec (co : list bool) := zlen co = zlen (concat fs) /\ forall k f i, rd fs k = Some f -> 0 <= i < zlen f ->
  rd co (off1 fs k + i) = Some true <-> exists p, path (all_arcs f) i p (final f).
Definition built (acc co : list bool) : vec_out :=
  mkVOut (vec_of (c_ts fs acc co)) (ids_of (concat (c_ts fs acc co))) (map snd (concat (concat (c_ts fs acc co)))).

Lemma connect_ok ord choices : fair ord -> Forall (fun ch => fair (snd ch)) choices ->
  (zlen (concat fs) < count fst choices -> zlen (concat fs) < count (fun ch => negb (fst ch)) choices -> connect ord choices (flat_vec fs) <> None) /\
  (forall r, connect ord choices (flat_vec fs) = Some r -> exists acc co, acc_spec acc /\ co_spec co /\ r = built acc co).
Proof.
  intros HF HC. pose proof (zlen_nonneg (concat fs)) as HS. set (S := zlen (concat fs)) in *.
  destruct (start_batch_ok fs) as (start & ES & HSt). destruct (final_batch_ok fs) as (fin & EF & HFi).
  destruct (run_ok fs WF start fin HSt HFi choices HC) as (st & ER & R1 & R2 & R3 & R4). fold S in ER, R1, R2, R3, R4.
  assert (EQ : connect ord choices (flat_vec fs) = if is_none (c_fw st) && is_none (c_bw st) then Some (built (c_acc st) (c_co st)) else None).
  { unfold connect. cbn [flat_vec v_rs1 v_rs2 v_arcs]. rewrite !zlen_splits_of.
    replace (zlen (concat fs) + 1 - 1) with S by (unfold S; lia). replace (zlen fs + 1 - 1) with (zlen fs) by lia.
    rewrite !row_ids_of_splits. fold (flat_vec fs). rewrite dest_states_ok by auto.
    rewrite incoming_arcs_ok by (auto; apply gdest_range; auto). rewrite ES, EF. unfold S in ER |- *. unfold S in *.
    change (mkVec (splits_of fs) (splits_of (concat fs)) (concat (concat fs))) with (flat_vec fs). rewrite row_ids_of_splits, ER.
    destruct (c_fw st) as [b|] eqn:E1; [reflexivity|]. destruct (c_bw st) as [b|] eqn:E2; [reflexivity|]. cbn [is_none andb].
    destruct (R1 eq_refl) as (La & _). destruct (R2 eq_refl) as (Lc & _).
    rewrite (keep_states_ok fs (c_acc st) (c_co st) La Lc). rewrite (n2o_ok fs (c_acc st) (c_co st) ord HF).
    destruct (nids1_ok fs (c_acc st) (c_co st)) as (nids1 & N1 & -> & N3). rewrite N1, N3.
    rewrite (keep_arcs_ok fs WF (c_acc st) (c_co st) La Lc). rewrite (an2o_ok fs WF (c_acc st) (c_co st) La Lc ord HF).
    destruct (nids2_ok fs WF (c_acc st) (c_co st) La Lc) as (M1 & M2). rewrite M1, M2.
    rewrite (arcs_ok fs WF (c_acc st) (c_co st) La Lc). f_equal. apply build_ok. }
  rewrite EQ. split.
  - intros C1 C2. rewrite R3, R4 by auto. discriminate.
  - intros r H. destruct (c_fw st) as [b|] eqn:E1; [discriminate|]. destruct (c_bw st) as [b|] eqn:E2; [discriminate|]. injection H as <-.
    exists (c_acc st), (c_co st). split; [apply R1; auto|]. split; [apply R2; auto|reflexivity].
Qed.

Lemma spec_unique (P : list bool -> Prop) (Q : Z -> Z -> nfsa -> Prop) a a' :
  (zlen a = zlen (concat fs) /\ forall k f i, rd fs k = Some f -> 0 <= i < zlen f -> rd a (off1 fs k + i) = Some true <-> Q k i f) ->
  (zlen a' = zlen (concat fs) /\ forall k f i, rd fs k = Some f -> 0 <= i < zlen f -> rd a' (off1 fs k + i) = Some true <-> Q k i f) -> a = a'.
Proof.
  intros (L & H) (L' & H'). apply list_ext_rd; [congruence|]. intros s Hs. rewrite L in Hs.
  destruct (state_pos fs s Hs) as (k & f & i & st & Hk & Hi & -> & Bi). specialize (H k f i Hk Bi). specialize (H' k f i Hk Bi).
  destruct (rd_in_bound a (off1 fs k + i) ltac:(lia)) as (b & Eb). destruct (rd_in_bound a' (off1 fs k + i) ltac:(lia)) as (b' & Eb').
  rewrite Eb in *. rewrite Eb' in *. f_equal. destruct b, b'; auto.
  - symmetry. assert (Some false = Some true) by tauto. discriminate.
  - assert (Some false = Some true) by tauto. discriminate.
Qed.

Variables acc co : list bool.
Hypothesis HA : acc_spec acc.
Hypothesis HC : co_spec co.
Let La : zlen acc = zlen (concat fs) := proj1 HA.
Let Lc : zlen co = zlen (concat fs) := proj1 HC.

Lemma K_useful k f i : rd fs k = Some f -> 0 <= i < zlen f -> K acc co (off1 fs k + i) = true <-> useful f i.
Proof.
  intros Hk Hi. unfold K, useful, nstates. rewrite andb_true_iff. rewrite <- (proj2 HA k f i Hk Hi), <- (proj2 HC k f i Hk Hi).
  pose proof (state_range fs k f i Hk Hi) as R. unfold bit.
  destruct (rd_in_bound acc (off1 fs k + i) ltac:(lia)) as (b & ->). destruct (rd_in_bound co (off1 fs k + i) ltac:(lia)) as (b' & ->).
  split; [intros (-> & ->); auto|]. intros (_ & E1 & E2). injection E1 as ->. injection E2 as ->. auto.
Qed.

Variables (k : Z) (f : nfsa) (o : list Z).
Hypothesis Hk : rd fs k = Some f.
Hypothesis Ho : rd (cO fs acc co) k = Some o.
Let na := cna fs acc co.
Let PA := cPA fs acc co.

Lemma one_in s : In s (local fs k o) <-> useful f s.
Proof.
  rewrite (in_local fs k o). rewrite (in_cO fs acc co k f o _ Hk Ho). replace (off1 fs k + s - off1 fs k) with s by lia. split.
  - intros (B & HK). now apply (K_useful k f s Hk).
  - intros U. assert (B : 0 <= s < zlen f) by (destruct U; auto). split; auto. now apply (K_useful k f s Hk).
Qed.
Lemma o_sorted : StronglySorted Z.lt o.
Proof. apply (sorted_row (cO fs acc co)) with k; auto. rewrite concat_cO. apply sorted_filter, sorted_zrange. Qed.
Lemma local_sorted : StronglySorted Z.lt (local fs k o).
Proof. unfold local. apply (sorted_map_shift (- off1 fs k)), o_sorted. Qed.
Lemma one_map_sorted : StronglySorted Z.lt (new_map fs PA na o).
Proof.
  apply (sorted_row (map (fun o => new_map fs PA na o) (cO fs acc co))) with k; [|now rewrite rd_map, Ho].
  replace (map (fun o => new_map fs PA na o) (cO fs acc co)) with (map (fun o => concat (map (fun s => filter PA (arow fs s)) o)) (cO fs acc co))
    by (apply map_ext; intros; now rewrite new_map_eq).
  rewrite <- (map_map (map (fun s => filter PA (arow fs s))) (@concat Z)), concat_map_concat, <- concat_map, concat_cO.
  unfold PA. rewrite <- (arc_rows fs WF acc co La Lc). apply sorted_filter, sorted_zrange.
Qed.

Lemma one_extracts : extracts (off1 (map all_arcs fs) k) f (local fs k o) (new_fsa fs PA na o) (new_map fs PA na o).
Proof.
  apply (extracts_ok fs WF PA na k f o Hk).
  - pose proof o_sorted as S. clear -S. induction S as [|x l S IH F]; constructor; auto. intros I. rewrite Forall_forall in F. apply F in I. lia.
  - intros s Hs. apply (in_cO fs acc co k f o s Hk Ho) in Hs. tauto.
  - intros j a Ha Is. unfold PA. rewrite (cPA_ok fs WF acc co La Lc k f j a Hk Ha). destruct (arc_by_pos fs WF k f j a Hk Ha) as (_ & _ & _ & B1 & B2).
    apply (in_cO fs acc co k f o _ Hk Ho) in Is as (_ & ->). rewrite (in_cO fs acc co k f o _ Hk Ho).
    replace (off1 fs k + dst a - off1 fs k) with (dst a) by lia. cbn [andb]. tauto.
  - intros j a Ha Is Id. now apply (conn_arc_ok fs WF acc co k f j a o Hk Ha Ho Is Id).
Qed.
End Conn.

(** Facts about a trimmed automaton *)
Lemma trim_ends f o : StronglySorted Z.lt o -> (forall s, In s o <-> useful f s) ->
  o = [] \/ (rd o 0 = Some 0 /\ rd o (zlen o - 1) = Some (final f)).
Proof.
  intros S U. destruct o as [|x o']; auto. right. set (o := x :: o') in *.
  assert (Ux : useful f x) by (apply U; now left). destruct Ux as (B & (p & P) & (q & Q)).
  assert (U0 : useful f 0). { split; [lia|]. split; [exists []; constructor|]. exists (p ++ q). eapply path_app; eauto. }
  assert (Uf : useful f (final f)). { split; [unfold final, nstates in *; lia|]. split; [|exists []; constructor]. exists (p ++ q). eapply path_app; eauto. }
  split.
  - apply sorted_first; auto; [now apply U|]. intros s Hs. apply U in Hs as (Bs & _). lia.
  - apply sorted_last; auto; [now apply U|]. intros s Hs. apply U in Hs as (Bs & _). unfold final, nstates in *. lia.
Qed.

Lemma trim_useful base f o g gm : well_formed f -> extracts base f o g gm -> StronglySorted Z.lt o -> (forall s, In s o <-> useful f s) ->
  forall i, 0 <= i < nstates g -> useful g i.
Proof.
  intros WF X S U i Hi. pose proof X as (ND & OR & N & _). destruct (trim_ends f o S U) as [->|(O1 & O2)]; [change (zlen (@nil Z)) with 0 in N; lia|].
  split; auto. rewrite N in Hi. destruct (rd_in_bound o i Hi) as (s & Hs). pose proof (proj1 (U s) (rd_In _ _ _ Hs)) as (B & (p & P) & (q & Q)).
  assert (PQ : path (all_arcs f) 0 (p ++ q) (final f)) by (eapply path_app; eauto).
  assert (IN : forall a, In a (p ++ q) -> In (src a) o /\ In (dst a) o).
  { intros a Ha. destruct (on_path_useful f WF (p ++ q) PQ a Ha). split; now apply U. }
  assert (FG : final g = zlen o - 1) by (unfold final; unfold nstates in N; lia). rewrite FG. split.
  - destruct (x_path_back base f o g gm X p 0 s P) with (i := 0) (i' := i) as (p' & P' & _); auto.
    { intros a Ha. apply IN, in_or_app. auto. } eauto.
  - destruct (x_path_back base f o g gm X q s (final f) Q) with (i := i) (i' := zlen o - 1) as (p' & P' & _); auto.
    { intros a Ha. apply IN, in_or_app. auto. } eauto.
Qed.

(** What connect must return for one FSA: [g] is [f] restricted to its useful
    states, in the same order, [gm] the arc map. *)
Definition trimmed (base : Z) (f g : nfsa) (gm : list Z) : Prop :=
  (exists o, StronglySorted Z.lt o /\ (forall s, In s o <-> useful f s) /\ extracts base f o g gm) /\
  StronglySorted Z.lt gm /\
  (forall s, 0 <= s < nstates g -> useful g s) /\
  (forall w s, accepts g w s <-> accepts f w s) /\
  (forall w s, accepts_str g w s <-> accepts_str f w s) /\
  (valid f -> g = [] \/ valid g).

Lemma one_trimmed base f o g gm : well_formed f -> StronglySorted Z.lt o -> (forall s, In s o <-> useful f s) -> extracts base f o g gm ->
  StronglySorted Z.lt gm -> trimmed base f g gm.
Proof.
  intros WF S U X SM. pose proof (trim_ends f o S U) as OE. assert (OU : forall s, useful f s -> In s o) by (intros; now apply U).
  split; [eauto|]. split; [auto|]. split; [eapply trim_useful; eauto|].
  split; [intros w s; now apply (x_accepts base f o g gm X WF OE OU)|].
  split; [intros w s; now apply (x_accepts_str base f o g gm X WF OE OU)|].
  intros V. destruct o as [|x o'].
  - left. destruct X as (_ & _ & N & _). apply zlen_0_nil. exact N.
  - right. apply (x_valid base f _ g gm X OE); auto. discriminate.
Qed.

(** C19, termination: whatever the interleaving of the two traversals and the
    order inside each kernel, Connect returns once both traversals have been
    given enough turns (one more than the number of states). *)
Theorem C19_connect_returns : forall fs ord choices, Forall well_formed fs -> fair ord -> Forall (fun ch => fair (snd ch)) choices ->
  zlen (concat fs) < count fst choices -> zlen (concat fs) < count (fun ch => negb (fst ch)) choices ->
  connect ord choices (flat_vec fs) <> None.
Proof. intros fs ord choices WF HF HC. apply (connect_ok fs WF ord choices HF HC). Qed.
Print Assumptions C19_connect_returns.

(** C19: whatever is returned is the trimmed version of every FSA. *)
Theorem C19_connect : forall fs ord choices r, Forall well_formed fs -> fair ord -> Forall (fun ch => fair (snd ch)) choices ->
  connect ord choices (flat_vec fs) = Some r ->
  exists gs gms, zlen gs = zlen fs /\ zlen gms = zlen fs /\
    r = mkVOut (flat_vec gs) (ids_of (concat gs)) (concat gms) /\
    forall k f g gm, rd fs k = Some f -> rd gs k = Some g -> rd gms k = Some gm -> trimmed (off1 (map all_arcs fs) k) f g gm.
Proof.
  intros fs ord choices r WF HF HC H. destruct (proj2 (connect_ok fs WF ord choices HF HC) r H) as (acc & co & HA & HO & ->).
  exists (map (map (map fst)) (c_ts fs acc co)), (map (fun t => map snd (concat t)) (c_ts fs acc co)).
  assert (LO : zlen (cO fs acc co) = zlen fs) by (unfold cO, idx_rows; now rewrite zlen_map, zlen_imap).
  assert (LT : zlen (c_ts fs acc co) = zlen fs) by (unfold c_ts, x_ts; now rewrite zlen_map).
  rewrite !zlen_map. split; auto. split; auto. split.
  - unfold built. rewrite <- concat_map, ids_of_map. f_equal. rewrite <- (map_map (@concat (arc * Z)) (map snd)), <- concat_map. now rewrite concat_map_concat.
  - intros k f g gm Hk Hg Hm. destruct (rd_in_bound (cO fs acc co) k) as (o & Ho); [apply rd_Some_bound in Hk; lia|].
    assert (Ht : rd (c_ts fs acc co) k = Some (xt fs (cPA fs acc co) (cna fs acc co) o)) by (unfold c_ts, x_ts; now rewrite rd_map, Ho).
    rewrite rd_map, Ht in Hg. rewrite rd_map, Ht in Hm. injection Hg as <-. injection Hm as <-.
    apply (one_trimmed _ _ (local fs k o)).
    + rewrite Forall_forall in WF. apply WF. eapply rd_In; eauto.
    + eapply local_sorted; eauto.
    + intros s. now apply (one_in fs acc co HA HO k f o Hk Ho).
    + now apply (one_extracts fs WF acc co HA HO k f o Hk Ho).
    + apply (one_map_sorted fs WF acc co HA HO k o Ho).
Qed.
Print Assumptions C19_connect.

(** The result does not depend on the interleaving or on any schedule. *)
Theorem C19_schedule_independent : forall fs ord choices r ord' choices' r', Forall well_formed fs ->
  fair ord -> Forall (fun ch => fair (snd ch)) choices -> connect ord choices (flat_vec fs) = Some r ->
  fair ord' -> Forall (fun ch => fair (snd ch)) choices' -> connect ord' choices' (flat_vec fs) = Some r' -> r = r'.
Proof.
  intros fs ord choices r ord' choices' r' WF HF HC H HF' HC' H'.
  destruct (proj2 (connect_ok fs WF ord choices HF HC) r H) as (acc & co & HA & HO & ->).
  destruct (proj2 (connect_ok fs WF ord' choices' HF' HC') r' H') as (acc' & co' & HA' & HO' & ->).
  assert (acc = acc') by (apply (spec_unique fs (fun _ => True) (fun k i f => exists p, path (all_arcs f) 0 p i)); auto).
  assert (co = co') by (apply (spec_unique fs (fun _ => True) (fun k i f => exists p, path (all_arcs f) i p (final f))); auto).
  now subst.
Qed.
Print Assumptions C19_schedule_independent.

(** ** Connecting twice *)
Lemma src_rows (f : nfsa) : src_ok f -> forall i st, rd f i = Some st -> st = filter (fun a => src a =? i) (all_arcs f).
Proof.
  intros SO. unfold all_arcs. assert (G : forall (f : nfsa) b, (forall i st a, rd f i = Some st -> In a st -> src a = b + i) ->
    forall i st, rd f i = Some st -> st = filter (fun a => src a =? b + i) (concat f)).
  { clear. induction f as [|r f IH]; intros b H i st Hi; [rewrite rd_nil in Hi; discriminate|]. cbn [concat]. rewrite filter_app.
    assert (T : forall i st, rd f i = Some st -> st = filter (fun a => src a =? b + 1 + i) (concat f)).
    { apply IH. intros j s a Hj Ha. rewrite (H (j + 1) s a); [lia| |auto]. pose proof (rd_Some_bound _ _ _ Hj). rewrite rd_cons. replace (j + 1 =? 0) with false by lia.
      now replace (j + 1 - 1) with j by lia. }
    rewrite rd_cons in Hi. destruct (i =? 0) eqn:E0.
    - injection Hi as <-. assert (i = 0) by lia. subst i. replace (filter (fun a => src a =? b + 0) r) with r.
      + assert (Z0 : filter (fun a => src a =? b + 0) (concat f) = []); [|now rewrite Z0, app_nil_r].
        assert (Q : forall a, In a (concat f) -> src a <> b + 0).
        { intros a Ha. apply in_concat in Ha as (s & Hs & Ha). apply In_rd in Hs as (j & Bj & Hj).
          rewrite (H (j + 1) s a); [lia| |auto]. rewrite rd_cons. replace (j + 1 =? 0) with false by lia. now replace (j + 1 - 1) with j by lia. }
        clear -Q. induction (concat f) as [|a l IHl]; auto. cbn [filter]. pose proof (Q a (or_introl eq_refl)). replace (src a =? b + 0) with false by lia.
        apply IHl. intros; apply Q; now right.
      + assert (Q : forall a, In a r -> src a = b + 0) by (intros a Ha; apply (H 0 r a); auto).
        clear -Q. induction r as [|a l IHl]; auto. cbn [filter]. pose proof (Q a (or_introl eq_refl)). replace (src a =? b + 0) with true by lia. f_equal.
        apply IHl. intros; apply Q; now right.
    - pose proof (rd_Some_bound _ _ _ Hi). assert (Z0 : filter (fun a => src a =? b + i) r = []).
      { assert (Q : forall a, In a r -> src a = b + 0) by (intros a Ha; apply (H 0 r a); auto).
        clear -Q E0. induction r as [|a l IHl]; auto. cbn [filter]. pose proof (Q a (or_introl eq_refl)). replace (src a =? b + i) with false by lia.
        apply IHl. intros; apply Q; now right. }
      rewrite Z0. cbn [app]. rewrite (T (i - 1) st Hi) at 1. replace (b + 1 + (i - 1)) with (b + i) by lia. reflexivity. }
  intros i st Hi. pose proof (G f 0 ltac:(intros j s a Hj Ha; rewrite (SO j s a Hj Ha); lia) i st Hi) as E. now replace (0 + i) with i in E by lia.
Qed.

Lemma same_arcs_same_fsa (f g : nfsa) : src_ok f -> src_ok g -> nstates f = nstates g -> all_arcs f = all_arcs g -> f = g.
Proof.
  intros S1 S2 N A. apply list_ext_rd; [exact N|]. intros i Hi. destruct (rd_in_bound f i Hi) as (st & Hst).
  unfold nstates in N. destruct (rd_in_bound g i ltac:(lia)) as (st' & Hst'). rewrite Hst, Hst'. f_equal.
  rewrite (src_rows f S1 i st Hst), (src_rows g S2 i st' Hst'). now rewrite A.
Qed.

Lemma trimmed_same base f g gm : well_formed f -> (forall s, 0 <= s < nstates f -> useful f s) -> trimmed base f g gm ->
  g = f /\ gm = map (fun j => base + j) (zrange (zlen (all_arcs f))).
Proof.
  intros WF U ((o & S & UO & X) & SM & _). pose proof X as (ND & OR & N & (G1 & G2) & L & Q & R & NDM).
  assert (EO : o = zrange (nstates f)).
  { apply sorted_unique; auto using sorted_zrange. intros s. rewrite in_zrange, UO. split; [intros (B & _); auto|auto]. }
  assert (SZ : forall c l, StronglySorted Z.lt l -> StronglySorted Z.lt (map (fun j => c + j) l)).
  { intros c l H. pose proof (sorted_map_shift c l H) as H1. erewrite map_ext; [exact H1|]. intros; cbn; lia. }
  assert (EG : gm = map (fun j => base + j) (zrange (zlen (all_arcs f)))).
  { apply sorted_unique; auto using sorted_zrange. intros x. rewrite in_map_iff. split.
    - intros I. apply In_rd in I as (q & Hq & I). rewrite L in Hq. destruct (rd_in_bound _ _ Hq) as (b & Hb).
      destruct (Q q b x Hb I) as (j & a & -> & Ha & _). exists j. split; auto. apply in_zrange. eapply rd_Some_bound; eauto.
    - intros (j & <- & Hj). apply in_zrange in Hj. destruct (rd_in_bound _ _ Hj) as (a & Ha). destruct WF as (W1 & W2).
      assert (IA : In a (all_arcs f)) by (eapply rd_In; eauto).
      apply (R j a Ha); rewrite EO; apply in_zrange; [now apply src_ok_range|now apply W2]. }
  split; auto. pose proof (zlen_nonneg (all_arcs f)). assert (NF : 0 <= nstates f) by apply zlen_nonneg.
  assert (LA : zlen (all_arcs g) = zlen (all_arcs f)) by (rewrite <- L, EG, zlen_map, zlen_zrange; lia).
  apply same_arcs_same_fsa; auto; [apply WF|rewrite N, EO, zlen_zrange; lia|].
  apply list_ext_rd; auto. intros q Hq. destruct (rd_in_bound _ _ Hq) as (b & Hb). rewrite Hb.
  assert (Hi : rd gm q = Some (base + q)) by (rewrite EG, rd_map, rd_zrange by lia; reflexivity).
  destruct (Q q b _ Hb Hi) as (j & a & E & Ha & E1 & E2 & E3 & E4). assert (j = q) by lia. subst j. rewrite Ha. f_equal.
  assert (RZ : forall i x, rd o i = Some x -> i = x).
  { intros i x Hx. rewrite EO in Hx. pose proof (rd_Some_bound _ _ _ Hx) as B. rewrite zlen_zrange in B by lia. rewrite rd_zrange in Hx by lia. congruence. }
  apply RZ in E1. apply RZ in E2. destruct a, b; cbn in *. congruence.
Qed.

(** Connecting a connected batch changes nothing: same automata, identity arc
    map.  In particular connecting twice is connecting once. *)
Theorem C19_connected_unchanged : forall fs ord choices r, Forall well_formed fs -> fair ord -> Forall (fun ch => fair (snd ch)) choices ->
  (forall f s, In f fs -> 0 <= s < nstates f -> useful f s) ->
  connect ord choices (flat_vec fs) = Some r ->
  r = mkVOut (flat_vec fs) (ids_of (concat fs)) (zrange (zlen (concat (concat fs)))).
Proof.
  intros fs ord choices r WF HF HC U H. destruct (C19_connect fs ord choices r WF HF HC H) as (gs & gms & L1 & L2 & -> & T).
  assert (P : forall k f g gm, rd fs k = Some f -> rd gs k = Some g -> rd gms k = Some gm ->
    g = f /\ gm = map (fun j => off1 (map all_arcs fs) k + j) (zrange (zlen (all_arcs f)))).
  { intros k f g gm Hk Hg Hm. rewrite Forall_forall in WF. apply (trimmed_same _ f g gm); eauto using rd_In. }
  assert (EG : gs = fs).
  { apply list_ext_rd; auto. intros k Hkb. destruct (rd_in_bound gs k Hkb) as (g & Hg). destruct (rd_in_bound fs k ltac:(lia)) as (f & Hf).
    destruct (rd_in_bound gms k ltac:(lia)) as (gm & Hm). destruct (P k f g gm Hf Hg Hm) as (-> & _). congruence. }
  assert (EM : gms = imap (fun i row => map (fun k => off1 (map all_arcs fs) i + k) (zrange (zlen row))) 0 (map all_arcs fs)).
  { apply list_ext_rd; [now rewrite zlen_imap, zlen_map|]. intros k Hkb. rewrite rd_imap, rd_map. destruct (rd_in_bound gs k ltac:(lia)) as (g & Hg).
    destruct (rd_in_bound fs k ltac:(lia)) as (f & Hf). destruct (rd_in_bound gms k ltac:(lia)) as (gm & Hm).
    destruct (P k f g gm Hf Hg Hm) as (_ & ->). rewrite Hm, Hf. cbn. reflexivity. }
  rewrite EG, EM, splits_concat_zrange. unfold all_arcs. now rewrite concat_map_concat.
Qed.
Print Assumptions C19_connected_unchanged.

Theorem C19_idempotent : forall fs ord choices r ord' choices' r', Forall well_formed fs ->
  fair ord -> Forall (fun ch => fair (snd ch)) choices -> connect ord choices (flat_vec fs) = Some r ->
  fair ord' -> Forall (fun ch => fair (snd ch)) choices' -> connect ord' choices' (vo_vec r) = Some r' ->
  vo_vec r' = vo_vec r /\ vo_map r' = zrange (zlen (v_arcs (vo_vec r))).
Proof.
  intros fs ord choices r ord' choices' r' WF HF HC H HF' HC' H'.
  destruct (C19_connect fs ord choices r WF HF HC H) as (gs & gms & L1 & L2 & -> & T). cbn [vo_vec] in *.
  assert (Q : forall g, In g gs -> well_formed g /\ forall s, 0 <= s < nstates g -> useful g s).
  { intros g Hg. apply In_rd in Hg as (k & Bk & Hg). destruct (rd_in_bound fs k ltac:(lia)) as (f & Hf). destruct (rd_in_bound gms k ltac:(lia)) as (gm & Hm).
    destruct (T k f g gm Hf Hg Hm) as ((o & _ & _ & X) & _ & U & _). split; auto. apply X. }
  rewrite (C19_connected_unchanged gs ord' choices' r'); auto.
  - apply Forall_forall. intros g Hg. now apply Q.
  - intros g s Hg. now apply Q.
Qed.
Print Assumptions C19_idempotent.

(** The single-FSA entry point. *)
Theorem C19_connect_single : forall f ord choices, well_formed f -> fair ord -> Forall (fun ch => fair (snd ch)) choices ->
  (zlen f < count fst choices -> zlen f < count (fun ch => negb (fst ch)) choices -> connect_single ord choices (flat f) <> None) /\
  forall h m, connect_single ord choices (flat f) = Some (h, m) -> exists g, h = flat g /\ trimmed 0 f g m.
Proof.
  intros f ord choices WF HF HC. unfold connect_single. rewrite <- flat_one. assert (WF1 : Forall well_formed [f]) by (constructor; auto).
  assert (VE : forall r, connect ord choices (flat_vec [f]) = Some r -> exists g gm, vo_vec r = flat_vec [g] /\ vo_map r = gm /\ trimmed 0 f g gm).
  { intros r H. destruct (C19_connect [f] ord choices r WF1 HF HC H) as (gs & gms & L1 & L2 & -> & T). change (zlen [f]) with 1 in L1, L2.
    destruct gs as [|g [|? gs]]; [discriminate| |exfalso; rewrite !zlen_cons in L1; pose proof (zlen_nonneg gs); lia].
    destruct gms as [|gm [|? gms]]; [discriminate| |exfalso; rewrite !zlen_cons in L2; pose proof (zlen_nonneg gms); lia].
    exists g, gm. cbn [vo_vec vo_map concat]. rewrite app_nil_r. split; auto. split; auto. apply (T 0 f g gm); reflexivity. }
  split.
  - intros C1 C2. destruct (connect ord choices (flat_vec [f])) as [r|] eqn:E.
    + destruct (VE r eq_refl) as (g & gm & -> & _ & _). rewrite vec_element_ok. discriminate.
    + exfalso. apply (C19_connect_returns [f] ord choices WF1 HF HC); auto; cbn [concat]; now rewrite app_nil_r.
  - intros h m H. destruct (connect ord choices (flat_vec [f])) as [r|] eqn:E; [|discriminate].
    destruct (VE r eq_refl) as (g & gm & E1 & E2 & T). rewrite E1, vec_element_ok in H. cbn in H. injection H as <- <-. exists g. split; auto. now rewrite E2.
Qed.
Print Assumptions C19_connect_single.

(** ** The Python function *)
(** An FSA all of whose states are useful is its own trimmed version. *)
Lemma self_trimmed base f : well_formed f -> (forall s, 0 <= s < nstates f -> useful f s) ->
  trimmed base f f (map (fun j => base + j) (zrange (zlen (all_arcs f)))).
Proof.
  intros WF U. pose proof (zlen_nonneg (all_arcs f)). assert (NF : 0 <= nstates f) by apply zlen_nonneg.
  assert (SM : StronglySorted Z.lt (map (fun j => base + j) (zrange (zlen (all_arcs f))))).
  { pose proof (sorted_map_shift base _ (sorted_zrange (zlen (all_arcs f)))) as H1. erewrite map_ext; [exact H1|]. intros; cbn; lia. }
  apply (one_trimmed base f (zrange (nstates f))); auto using sorted_zrange.
  - intros s. rewrite in_zrange. split; auto. intros (B & _); auto.
  - split; [apply NoDup_zrange|]. split; [intros s Hs; now apply in_zrange|]. split; [rewrite zlen_zrange; lia|]. split; [auto|].
    split; [rewrite zlen_map, zlen_zrange; lia|]. split; [|split].
    + intros q b i Hb Hi. pose proof (rd_Some_bound _ _ _ Hb). rewrite rd_map, rd_zrange in Hi by auto. injection Hi as <-.
      exists q, b. assert (I : In b (all_arcs f)) by (eapply rd_In; eauto). destruct WF as (W1 & W2).
      pose proof (src_ok_range f b W1 I). pose proof (W2 b I). unfold nstates in *. rewrite !rd_zrange by lia. repeat split; auto.
    + intros j a Ha _ _. apply in_map_iff. exists j. split; auto. apply in_zrange. eapply rd_Some_bound; eauto.
    + clear -SM. induction SM as [|x l S IH F]; constructor; auto. intros I. rewrite Forall_forall in F. apply F in I. lia.
Qed.

(** In a topologically sorted FSA the two bits are exact. *)
Lemma topsorted_useful f : well_formed f -> p_topsorted f -> p_accessible f -> p_coaccessible f ->
  forall s, 0 <= s < nstates f -> useful f s.
Proof.
  intros WF T AC CO.
  assert (F : forall n s, (Z.to_nat s < n)%nat -> 0 <= s < nstates f -> exists p, path (all_arcs f) 0 p s).
  { induction n as [|n IH]; intros s Hn Hs; [lia|]. destruct (Z.eq_dec s 0) as [->|N]; [exists []; constructor|].
    destruct (AC s ltac:(lia)) as (a & Ha & Ed & Es). pose proof (T a Ha). pose proof (src_ok_range f a (proj1 WF) Ha).
    destruct (IH (src a)) as (p & P); [lia|lia|]. exists (p ++ [a]). eapply path_app; [exact P|]. rewrite <- Ed. now apply path_one. }
  assert (B : forall n s, (Z.to_nat (final f - s) < n)%nat -> 0 <= s < nstates f -> exists p, path (all_arcs f) s p (final f)).
  { unfold final, nstates in *. induction n as [|n IH]; intros s Hn Hs; [lia|]. destruct (Z.eq_dec s (zlen f - 1)) as [->|N]; [exists []; constructor|].
    destruct (rd_in_bound f s Hs) as (st & Hst). destruct (CO s st Hst) as (a & Ha & Ed); [unfold final; lia|].
    pose proof (proj1 WF s st a Hst Ha) as Es. assert (IA : In a (all_arcs f)) by (apply in_concat; exists st; split; auto; eapply rd_In; eauto).
    pose proof (T a IA). pose proof (proj2 WF a IA). unfold nstates in *. destruct (IH (dst a)) as (p & P); [lia|lia|].
    exists (a :: p). rewrite <- Es. eapply path_step; eauto. }
  intros s Hs. split; auto. split; [apply (F (1 + Z.to_nat s)%nat)|apply (B (1 + Z.to_nat (final f - s))%nat)]; auto; lia.
Qed.

(** C19 at the Python level, for topologically sorted FSAs. *)
Theorem C19_connect_python : forall fs sched ord choices v m, is_sched (zlen (concat (concat fs))) sched ->
  fair ord -> Forall (fun ch => fair (snd ch)) choices -> Forall p_topsorted fs ->
  connect_py sched ord choices (flat_vec fs) = Some (v, m) ->
  exists gs gms, zlen gs = zlen fs /\ zlen gms = zlen fs /\ v = flat_vec gs /\ m = concat gms /\
    forall k f g gm, rd fs k = Some f -> rd gs k = Some g -> rd gms k = Some gm -> trimmed (off1 (map all_arcs fs) k) f g gm.
Proof.
  intros fs sched ord choices v m HS HF HC HT H. unfold connect_py in H.
  destruct (py_properties sched (flat_vec fs)) as [p|] eqn:EP; [|discriminate].
  assert (PV : Forall p_valid fs) by (apply (C15_properties_raises sched fs HS); eauto).
  assert (WF : Forall well_formed fs).
  { eapply Forall_impl; [|exact PV]. intros f (V1 & V2). split; auto. intros a Ha. now apply V2. }
  destruct (negb (Z.land p 128 =? 0) && negb (Z.land p 256 =? 0)) eqn:EB.
  - injection H as <- <-. exists fs, (imap (fun i row => map (fun k => off1 (map all_arcs fs) i + k) (zrange (zlen row))) 0 (map all_arcs fs)).
    rewrite zlen_imap, zlen_map. split; auto. split; auto. split; auto. split.
    { rewrite splits_concat_zrange. unfold all_arcs. rewrite concat_map_concat. reflexivity. }
    intros k f g gm Hk Hg Hm. rewrite Hk in Hg. injection Hg as <-. rewrite rd_imap, rd_map, Hk in Hm. cbn in Hm. injection Hm as <-.
    assert (WFf : well_formed f) by (rewrite Forall_forall in WF; apply WF; eapply rd_In; eauto).
    apply self_trimmed; auto. unfold py_properties in EP. destruct (C15_property_bits sched fs HS) as (per & tot & EV & L & P & (_ & TB)).
    rewrite EV in EP. cbn [snd] in EP. destruct (Z.land tot kValid =? 1); [|discriminate]. injection EP as ->.
    destruct (P k f Hk) as (q & Hq & _ & BM). pose proof (rd_In _ _ _ Hq) as Iq.
    assert (B7 : has q 0x80) by (apply (TB 7); auto; [lia|unfold has; change (2 ^ 7) with 128; lia]).
    assert (B8 : has q 0x100) by (apply (TB 8); auto; [lia|unfold has; change (2 ^ 8) with 256; lia]).
    destruct BM as (_ & _ & _ & _ & _ & _ & _ & M7 & M8). apply M7 in B7. apply M8 in B8.
    destruct B7 as [->|(_ & B7)]; [intros s Hs; change (nstates []) with 0 in Hs; lia|].
    destruct B8 as [->|(_ & B8)]; [intros s Hs; change (nstates []) with 0 in Hs; lia|].
    apply topsorted_useful; auto. rewrite Forall_forall in HT. apply HT. eapply rd_In; eauto.
  - destruct (connect ord choices (flat_vec fs)) as [r|] eqn:EC; [|discriminate]. injection H as <- <-.
    destruct (C19_connect fs ord choices r WF HF HC EC) as (gs & gms & L1 & L2 & -> & T). exists gs, gms. cbn [vo_vec vo_map]. auto.
Qed.
Print Assumptions C19_connect_python.

(** For an FSA with a cycle the Python function can return an FSA that is not
    connected: the property bits only look at single arcs, and the two states
    of an unreachable cycle are each entered from the other. *)
Definition ex_far : nfsa :=
  [[mkArc 0 3 (-1) 0]; [mkArc 1 2 5 0]; [mkArc 2 1 6 0; mkArc 2 3 (-1) 0]; []].
Theorem C19_connect_python_refuted : exists fs sched ord choices v m f g s,
  is_sched (zlen (concat (concat fs))) sched /\ fair ord /\ Forall (fun ch => fair (snd ch)) choices /\ Forall valid fs /\
  connect_py sched ord choices (flat_vec fs) = Some (v, m) /\
  fs = [f] /\ v = flat_vec [g] /\ 0 <= s < nstates g /\ ~ useful g s.
Proof.
  exists [ex_far], [3; 1; 0; 2], zrange, [], (flat_vec [ex_far]), [0; 1; 2; 3], ex_far, ex_far, 1.
  split; [solve_sched|]. split; [intros n; apply is_sched_zrange|]. split; [constructor|]. split.
  { constructor; [|constructor]. solve_valid. }
  split; [vm_compute; reflexivity|]. split; auto. split; auto. split; [vm_compute; split; [discriminate|reflexivity]|].
  intros (_ & (p & P) & _). assert (G : forall p s t, path (all_arcs ex_far) s p t -> s = 0 \/ s = 3 -> t = 0 \/ t = 3).
  { clear. induction p as [|a p IH]; intros s t H Hs; destruct (path_inv _ _ _ _ H) as [(E & <-)|(b & p' & E & HI & E2 & HP)]; auto; try discriminate.
    injection E as <- <-. apply (IH _ _ HP). cbn in HI. intuition (subst; cbn in *; auto; lia). }
  destruct (G p 0 1 P); lia.
Qed.
Print Assumptions C19_connect_python_refuted.

(** A batch with a state that is not reachable, one that cannot reach the end,
    an empty FSA and one with no successful path; the two passes interleaved
    and kernels run backwards. *)
Definition wfb (f : nfsa) : bool :=
  forallb (fun p => forallb (fun a => (src a =? fst p) && (0 <=? dst a) && (dst a <? zlen f)) (snd p)) (imap pair 0 f).
Lemma wfb_ok f : wfb f = true -> well_formed f.
Proof.
  intros H. unfold wfb in H. rewrite forallb_forall in H.
  assert (Q : forall i st a, rd f i = Some st -> In a st -> src a = i /\ 0 <= dst a < zlen f).
  { intros i st a Hi Ha. assert (I : In (i, st) (imap pair 0 f)).
    { apply rd_In with i. rewrite rd_imap, Hi. cbn. reflexivity. }
    apply H in I. cbn [fst snd] in I. rewrite forallb_forall in I. apply I in Ha. lia. }
  split; [intros i st a Hi Ha; now apply (Q i st a)|]. intros a Ha. apply in_concat in Ha as (st & Hs & Ha). apply In_rd in Hs as (i & _ & Hi).
  now apply (Q i st a).
Qed.
Definition ex_trim : nfsa :=
  [[mkArc 0 2 1 5; mkArc 0 1 3 1]; []; [mkArc 2 2 7 1; mkArc 2 4 (-1) 2]; [mkArc 3 2 1 1]; []].
Definition rev_ord (n : Z) : list Z := rev (zrange n).
Lemma rev_ord_fair : fair rev_ord.
Proof. intros n. unfold rev_ord. pose proof (is_sched_zrange n) as H. unfold is_sched in *.
  eapply Permutation.Permutation_trans; [apply Permutation.Permutation_sym, Permutation.Permutation_rev|exact H]. Qed.
Definition ex_choices : list (bool * (Z -> list Z)) :=
  concat (repeat [(true, rev_ord); (false, zrange)] 10).
Example C19_ex : connect rev_ord ex_choices (flat_vec [ex_trim; []; [[]; []]]) =
  Some (mkVOut (flat_vec [[[mkArc 0 1 1 5]; [mkArc 1 1 7 1; mkArc 1 2 (-1) 2]; []]; []; []]) [0; 1; 1] [0; 2; 3]) /\
  Forall well_formed [ex_trim; []; [[]; []]] /\ Forall (fun ch => fair (snd ch)) ex_choices /\
  7 < count fst ex_choices /\ 7 < count (fun ch => negb (fst ch)) ex_choices.
Proof.
  split; [vm_compute; reflexivity|]. split.
  { repeat apply Forall_cons; try apply Forall_nil; apply wfb_ok; reflexivity. }
  split; [|split; reflexivity].
  unfold ex_choices. apply Forall_forall. intros ch H. apply in_concat in H as (l & Hl & H). apply repeat_spec in Hl. subst l.
  destruct H as [<-|[<-|[]]]; cbn [snd]; [apply rev_ord_fair|intros n; apply is_sched_zrange].
Qed.
