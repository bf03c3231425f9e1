(** Connect: running the two traversals, then building the result. *)
From Coq Require Import ZArith List Lia Bool Permutation.
From Coq Require Import ZifyBool ZifyNat.
From Verif Require Import Base RaggedModel RaggedSpec RaggedProofs FsaSpec FsaLemmas FsaOpsModel FsaOpsProofs SelectProofs
  EpsLoopProofs RaggedOpsModel RaggedOpsProofs OpsModel OpsProofs FstSpec GraphProofs PropsModel PropsProofs PropsProps ReverseModel ReverseProofs ReverseProps
  ConnectModel ConnectSpec ConnectProofs ExtractProofs.
Import ListNotations.
Open Scope Z_scope.

Definition count {A} (P : A -> bool) (l : list A) : Z := zlen (filter P l).
Lemma count_cons {A} (P : A -> bool) x l : count P (x :: l) = b2z (P x) + count P l.
Proof. unfold count. cbn [filter]. destruct (P x); cbn [b2z]; rewrite ?zlen_cons; lia. Qed.
Lemma count_nonneg {A} (P : A -> bool) l : 0 <= count P l.
Proof. apply zlen_nonneg. Qed.

Section C.
Variable fs : list nfsa.
Hypothesis WF : Forall well_formed fs.
Let SO : Forall src_ok fs.
Proof. eapply Forall_impl; [|exact WF]. now intros f (H & _). Qed.
Let DO : Forall (fun f : nfsa => forall a, In a (all_arcs f) -> 0 <= dst a < nstates f) fs.
Proof. eapply Forall_impl; [|exact WF]. now intros f (_ & H). Qed.
Let S := zlen (concat fs).
Let A := concat (concat fs).
Let v := flat_vec fs.
Let step := conn_step v (ids_of fs) (gdest fs) (splits_of (buckets (gdest fs) S)) (concat (buckets (gdest fs) S)).

Variables start fin : list Z.
Hypothesis HSt : forall x, In x start <-> exists k f, rd fs k = Some f /\ 0 < zlen f /\ x = off1 fs k.
Hypothesis HFi : forall x, In x fin <-> exists k f, rd fs k = Some f /\ 0 < zlen f /\ x = off1 fs k + (zlen f - 1).

Let E := edge fs.
Let E' := fun s t => edge fs t s.
Definition cinv (n m : Z) (st : cst) : Prop :=
  tinv S E start n (c_acc st) (c_fw st) /\ tinv S E' fin m (c_co st) (c_bw st).

Lemma skip_fwd : forall kp t, 0 <= t < zlen kp -> rd kp t = Some false -> exists kp', fwd_skip kp t = Some kp' /\ zlen kp' = zlen kp /\
  forall s, rd kp' s = rd kp s.
Proof. intros kp t _ _. exists kp. auto. Qed.
Lemma skip_bwd : forall kp t, 0 <= t < zlen kp -> rd kp t = Some false -> exists kp', bwd_skip kp t = Some kp' /\ zlen kp' = zlen kp /\
  forall s, rd kp' s = rd kp s.
Proof.
  intros kp t Ht Hf. unfold bwd_skip. destruct (wr_Some kp t false Ht) as (l & E1 & E2 & E3). exists l. split; auto. split; auto.
  intros s. rewrite E3. destruct (Z.eqb_spec s t); [subst; auto|auto].
Qed.

Lemma cinv_step n m st ch : fair (snd ch) -> cinv n m st -> exists st', step st ch = Some st' /\
  cinv (n + b2z (fst ch)) (m + b2z (negb (fst ch))) st'.
Proof.
  intros HF (I1 & I2). unfold step, conn_step. destruct ch as ([|] & ord); cbn [fst snd negb b2z] in *.
  - destruct (c_fw st) as [b|] eqn:Eb.
    + destruct (tinv_step S E (splits_of (concat fs)) (fwd_other (gdest fs)) fwd_skip skip_fwd (fwd_rows fs WF) start
        ord n (c_acc st) b HF I1) as (m' & nb & EN & I1').
      unfold v. cbn [flat_vec v_rs2]. rewrite EN. cbn [fst snd]. eexists. split; [reflexivity|]. split; cbn [c_acc c_fw c_co c_bw]; auto.
      now replace (m + 0) with m by lia.
    + exists st. split; auto. split; [|now replace (m + 0) with m by lia]. rewrite Eb. exact I1.
  - destruct (c_bw st) as [b|] eqn:Eb.
    + destruct (tinv_step S E' (splits_of (buckets (gdest fs) S)) (bwd_other (flat_vec fs) (ids_of fs) (concat (buckets (gdest fs) S)))
        bwd_skip skip_bwd (bwd_rows fs WF) fin ord m (c_co st) b HF I2) as (m' & nb & EN & I2').
      unfold v. rewrite EN. cbn [fst snd]. eexists. split; [reflexivity|]. split; cbn [c_acc c_fw c_co c_bw]; auto.
      now replace (n + 0) with n by lia.
    + exists st. split; auto. split; [now replace (n + 0) with n by lia|]. rewrite Eb. exact I2.
Qed.

Lemma cinv_run choices : Forall (fun ch => fair (snd ch)) choices -> forall n m st, cinv n m st ->
  exists st', foldM step choices st = Some st' /\
    cinv (n + count fst choices) (m + count (fun ch => negb (fst ch)) choices) st'.
Proof.
  induction 1 as [|ch l HF _ IH]; intros n m st I.
  - exists st. split; auto. unfold count. cbn [filter]. change (zlen (@nil (bool * (Z -> list Z)))) with 0.
    now replace (n + 0) with n by lia; replace (m + 0) with m by lia.
  - destruct (cinv_step n m st ch HF I) as (st1 & E1 & I1). destruct (IH _ _ _ I1) as (st2 & E2 & I2).
    exists st2. cbn [foldM]. rewrite E1. split; auto. rewrite !count_cons.
    replace (n + (b2z (fst ch) + count fst l)) with (n + b2z (fst ch) + count fst l) by lia.
    replace (m + (b2z (negb (fst ch)) + count (fun ch => negb (fst ch)) l)) with (m + b2z (negb (fst ch)) + count (fun ch => negb (fst ch)) l) by lia. auto.
Qed.

Lemma start_range : Forall (fun s => 0 <= s < S) start.
Proof.
  apply Forall_forall. intros s Hs. apply HSt in Hs as (k & f & Hk & Hf & ->).
  pose proof (state_range fs k f 0 Hk ltac:(lia)). unfold S. lia.
Qed.
Lemma fin_range : Forall (fun s => 0 <= s < S) fin.
Proof.
  apply Forall_forall. intros s Hs. apply HFi in Hs as (k & f & Hk & Hf & ->).
  pose proof (state_range fs k f (zlen f - 1) Hk ltac:(lia)). unfold S. lia.
Qed.

Let none := repeat false (Z.to_nat S).
Let st0 := mkC none (Some start) none (Some fin).
Lemma run_ok choices : Forall (fun ch => fair (snd ch)) choices -> exists st, foldM step choices st0 = Some st /\
  (c_fw st = None -> zlen (c_acc st) = S /\ forall k f i, rd fs k = Some f -> 0 <= i < zlen f ->
    rd (c_acc st) (off1 fs k + i) = Some true <-> exists p, path (all_arcs f) 0 p i) /\
  (c_bw st = None -> zlen (c_co st) = S /\ forall k f i, rd fs k = Some f -> 0 <= i < zlen f ->
    rd (c_co st) (off1 fs k + i) = Some true <-> exists p, path (all_arcs f) i p (final f)) /\
  (S < count fst choices -> c_fw st = None) /\ (S < count (fun ch => negb (fst ch)) choices -> c_bw st = None).
Proof.
  intros HF. assert (HS : 0 <= S) by apply zlen_nonneg.
  assert (I0 : cinv 0 0 st0). { split; cbn [st0 c_acc c_fw c_co c_bw]; apply tinv_init; auto using start_range, fin_range. }
  destruct (cinv_run choices HF 0 0 st0 I0) as (st & E1 & I1 & I2). exists st. split; auto.
  split; [|split; [|split]].
  - intros N. rewrite N in I1. apply tinv_done in I1 as (L & R). split; auto. intros k f i Hk Hi. rewrite R. now apply (reach_fwd fs WF start HSt).
  - intros N. rewrite N in I2. apply tinv_done in I2 as (L & R). split; auto. intros k f i Hk Hi. rewrite R. now apply (reach_bwd fs WF fin HFi).
  - intros HC. destruct (c_fw st) as [b|]; auto. apply tinv_bound in I1. lia.
  - intros HC. destruct (c_bw st) as [b|]; auto. apply tinv_bound in I2. lia.
Qed.
End C.

(** ** Building the trimmed vector *)
Lemma concat_filter_nil {A B} (K : A -> bool) (g : A -> list B) l : (forall s, In s l -> K s = false -> g s = []) ->
  concat (map g (filter K l)) = concat (map g l).
Proof.
  induction l as [|s l IH]; intros H; auto. cbn [filter map concat]. destruct (K s) eqn:E.
  - cbn [map concat]. rewrite IH; auto. intros; apply H; auto. now right.
  - rewrite IH by (intros; apply H; auto; now right). rewrite (H s) by (auto; now left). reflexivity.
Qed.

Section B.
Variable fs : list nfsa.
Hypothesis WF : Forall well_formed fs.
Let SO : Forall src_ok fs.
Proof. eapply Forall_impl; [|exact WF]. now intros f (H & _). Qed.
Let DO : Forall (fun f : nfsa => forall a, In a (all_arcs f) -> 0 <= dst a < nstates f) fs.
Proof. eapply Forall_impl; [|exact WF]. now intros f (_ & H). Qed.
Let S := zlen (concat fs).
Let A := concat (concat fs).
Let v := flat_vec fs.
Variables acc co : list bool.
Hypothesis La : zlen acc = S.
Hypothesis Lc : zlen co = S.
Definition bit (l : list bool) (s : Z) : bool := match rd l s with Some b => b | None => false end.
Definition K (s : Z) : bool := bit acc s && bit co s.
Let keep := map K (zrange S).
Let o2n := firstn (Z.to_nat S) (old2new keep).
Definition cO : list (list Z) := map (filter K) (idx_rows fs).
Definition cPA (q : Z) : bool := match conn_keep_arc v (ids_of (concat fs)) acc co q with Some b => b | None => false end.
Let L := filter K (zrange S).

Lemma bit_rd l s : zlen l = S -> 0 <= s < S -> rd l s = Some (bit l s).
Proof. intros E H. unfold bit. destruct (rd_in_bound l s ltac:(lia)) as (b & ->). reflexivity. Qed.

Lemma keep_states_ok : mapM (fun i => a <- rd acc i;; c <- rd co i;; Some (a && c)) (zrange S) = Some keep.
Proof.
  apply mapM_Some_map. intros s Hs. apply in_zrange in Hs. rewrite (bit_rd acc), (bit_rd co) by auto. reflexivity.
Qed.

Lemma concat_cO : concat cO = L.
Proof. unfold cO, L. rewrite <- filter_concat. unfold idx_rows. now rewrite splits_concat_zrange. Qed.

Lemma n2o_ok ord : fair ord -> new2old (ord (S + 1)) keep = Some L.
Proof.
  intros HF. assert (HS0 : 0 <= S) by apply zlen_nonneg.
  assert (EK : zlen keep = S) by (unfold keep; rewrite zlen_map, zlen_zrange; lia).
  rewrite new2old_kept; [|rewrite EK; apply HF]. unfold keep, L. now rewrite kept_from_zrange by lia.
Qed.

Lemma o2n_ok s : 0 <= s < S -> K s = true -> exists r, rd o2n s = Some r /\ rd L r = Some s.
Proof.
  intros Hs HK. assert (EK : zlen keep = S) by (unfold keep; rewrite zlen_map, zlen_zrange; lia).
  assert (rd keep s = Some true) by (unfold keep; rewrite rd_map, rd_zrange by auto; cbn; now rewrite HK).
  exists (zsum (map b2z (firstn (Z.to_nat s) keep))). split.
  - unfold o2n. rewrite rd_firstn by lia. apply rd_old2new. lia.
  - unfold L. rewrite <- kept_from_zrange by lia. fold keep. rewrite (rd_kept_from keep 0 s H). reflexivity.
Qed.

Lemma NoDup_L : NoDup L.
Proof. unfold L. apply NoDup_filter, NoDup_zrange. Qed.

Lemma nids1_ok : exists nids1, mapM (rd (ids_of fs)) L = Some nids1 /\ nids1 = ids_of cO /\
  row_ids_to_row_splits nids1 (zlen fs) = Some (splits_of cO).
Proof.
  pose proof (index_last_filter K (idx_rows fs)) as H. rewrite (ids_of_zlen fs (idx_rows fs)) in H by apply zlen_idx_rows.
  assert (E1 : concat (idx_rows fs) = zrange S) by (unfold idx_rows; apply splits_concat_zrange).
  rewrite E1, kept_from_zrange in H by (apply zlen_nonneg). fold L in H.
  replace (zlen (idx_rows fs)) with (zlen fs) in H by (unfold idx_rows; now rewrite zlen_imap).
  unfold index_last in H. destruct (mapM (rd (ids_of fs)) L) as [ids|]; [|discriminate]. exists ids. split; auto.
  destruct (row_ids_to_row_splits ids (zlen fs)) as [rs|]; [|discriminate]. fold cO in H. injection H as <- <-. auto.
Qed.

(** facts about arcs *)
Lemma keep_arc_ok k f j a : rd fs k = Some f -> rd (all_arcs f) j = Some a ->
  conn_keep_arc v (ids_of (concat fs)) acc co (abase fs k + j) = Some (K (off1 fs k + src a) && K (off1 fs k + dst a)).
Proof.
  intros Hk Ha. destruct (arc_by_pos fs WF k f j a Hk Ha) as (P1 & P2 & _ & B1 & B2). unfold conn_keep_arc.
  unfold v. cbn [flat_vec v_arcs]. rewrite P1, P2. replace (dst a - src a + (off1 fs k + src a)) with (off1 fs k + dst a) by lia.
  pose proof (state_range fs k f _ Hk B1) as R1. pose proof (state_range fs k f _ Hk B2) as R2.
  rewrite !(bit_rd acc), !(bit_rd co) by auto. unfold K. f_equal. now rewrite andb_assoc.
Qed.

Lemma every_arc q : 0 <= q < zlen A -> exists k f j a, rd fs k = Some f /\ rd (all_arcs f) j = Some a /\ q = abase fs k + j.
Proof.
  intros H. destruct (arc_pos fs q H) as (k & f & r & st & j & a & H1 & H2 & H3 & ->).
  destruct (rd_concat_off f r st j a H2 H3) as (P & _). exists k, f, (off1 f r + j), a. unfold abase. repeat split; auto. lia.
Qed.

Let ns := zrange (zlen A).
Lemma keep_arcs_ok : mapM (conn_keep_arc v (ids_of (concat fs)) acc co) ns = Some (map cPA ns).
Proof.
  apply mapM_Some_map. intros q Hq. apply in_zrange in Hq. destruct (every_arc q Hq) as (k & f & j & a & Hk & Ha & ->).
  unfold cPA. rewrite (keep_arc_ok k f j a Hk Ha). reflexivity.
Qed.
Lemma cPA_ok k f j a : rd fs k = Some f -> rd (all_arcs f) j = Some a ->
  cPA (abase fs k + j) = K (off1 fs k + src a) && K (off1 fs k + dst a).
Proof. intros Hk Ha. unfold cPA. now rewrite (keep_arc_ok k f j a Hk Ha). Qed.

Lemma idx_rows_arow : idx_rows (concat fs) = map (arow fs) (zrange S).
Proof.
  assert (EL : zlen (idx_rows (concat fs)) = S) by (unfold idx_rows; now rewrite zlen_imap).
  assert (HS0 : 0 <= S) by apply zlen_nonneg.
  apply list_ext_rd; [rewrite zlen_map, zlen_zrange; lia|]. intros i Hi. rewrite EL in Hi. rewrite rd_map, rd_zrange by lia. cbn.
  unfold arow. destruct (rd_in_bound (idx_rows (concat fs)) i ltac:(lia)) as (r & ->). reflexivity.
Qed.
Let cG := map (fun s => filter cPA (arow fs s)) L.

Lemma arc_rows : filter cPA ns = concat cG.
Proof.
  unfold ns. assert (E1 : concat (idx_rows (concat fs)) = zrange (zlen A)) by (unfold idx_rows; apply splits_concat_zrange).
  rewrite <- E1, idx_rows_arow, filter_concat, map_map. unfold cG, L. symmetry. apply concat_filter_nil.
  intros s Hs HK. apply in_zrange in Hs. destruct (state_pos fs s Hs) as (k & f & i & st & Hk & Hi & -> & Bi).
  destruct (filter cPA (arow fs (off1 fs k + i))) as [|q l] eqn:Eq; auto. exfalso.
  assert (Iq : In q (filter cPA (arow fs (off1 fs k + i)))) by (rewrite Eq; now left).
  apply filter_In in Iq as (Iq & Pq). destruct (arow_inv fs WF k f i q Hk Bi Iq) as (j & a & Ha & -> & E3).
  rewrite (cPA_ok k f j a Hk Ha), E3, HK in Pq. discriminate.
Qed.
Lemma an2o_ok ord : fair ord -> new2old (ord (zlen A + 1)) (map cPA ns) = Some (concat cG).
Proof.
  intros HF. pose proof (zlen_nonneg A). assert (EK : zlen (map cPA ns) = zlen A) by (unfold ns; rewrite zlen_map, zlen_zrange; lia).
  rewrite new2old_kept; [|rewrite EK; apply HF]. unfold ns. rewrite kept_from_zrange by lia. fold ns. now rewrite arc_rows.
Qed.

Lemma in_L s : In s L <-> 0 <= s < S /\ K s = true.
Proof. unfold L. rewrite filter_In, in_zrange. tauto. Qed.

(** what an element of a row of cG is *)
Lemma in_cG r l q : rd cG r = Some l -> In q l -> exists k f j a, rd fs k = Some f /\ rd (all_arcs f) j = Some a /\
  q = abase fs k + j /\ rd L r = Some (off1 fs k + src a) /\ K (off1 fs k + src a) = true /\ K (off1 fs k + dst a) = true.
Proof.
  unfold cG. rewrite rd_map. destruct (rd L r) as [s|] eqn:Es; [|discriminate]. cbn [option_map]. intros H Hq. injection H as <-.
  apply filter_In in Hq as (Hq & HP). pose proof (proj1 (in_L s) (rd_In _ _ _ Es)) as (Hs & HK).
  destruct (state_pos fs s Hs) as (k & f & i & st & Hk & Hi & -> & Bi).
  destruct (arow_inv fs WF k f i q Hk Bi Hq) as (j & a & Ha & -> & E3). exists k, f, j, a.
  rewrite (cPA_ok k f j a Hk Ha) in HP. apply andb_true_iff in HP. rewrite E3 in *. tauto.
Qed.

Lemma nids2_ok : mapM (fun i => s <- rd (ids_of (concat fs)) i;; rd o2n s) (concat cG) = Some (ids_of cG) /\
  row_ids_to_row_splits (ids_of cG) (zlen L) = Some (splits_of cG).
Proof.
  split; [|replace (zlen L) with (zlen cG) by (unfold cG; apply zlen_map); apply splits_of_row_ids].
  set (g := fun q => match rd (ids_of (concat fs)) q with Some s => match rd o2n s with Some r => r | None => 0 end | None => 0 end).
  assert (Q : forall r l q, rd cG r = Some l -> In q l -> (s <- rd (ids_of (concat fs)) q;; rd o2n s) = Some r).
  { intros r l q Hr Hq. destruct (in_cG r l q Hr Hq) as (k & f & j & a & Hk & Ha & -> & ER & K1 & K2).
    destruct (arc_by_pos fs WF k f j a Hk Ha) as (_ & P2 & _ & B1 & B2). rewrite P2.
    destruct (o2n_ok (off1 fs k + src a)) as (r' & O1 & O2); auto.
    { apply (state_range fs k f); auto. }
    rewrite O1. f_equal. eapply NoDup_rd; eauto using NoDup_L. }
  rewrite <- (rows_carry_ids g cG).
  - apply mapM_Some_map. intros q Hq. apply in_concat in Hq as (l & Hl & Hq). apply In_rd in Hl as (r & _ & Hr).
    pose proof (Q r l q Hr Hq) as H. unfold g. destruct (rd (ids_of (concat fs)) q) as [s|]; [|discriminate]. rewrite H. reflexivity.
  - intros r l q Hr Hq. pose proof (Q r l q Hr Hq) as H. unfold g. destruct (rd (ids_of (concat fs)) q) as [s|]; [|discriminate]. now rewrite H.
Qed.

Definition cna (q : Z) : arc := match conn_arc v (ids_of fs) (ids_of (concat fs)) o2n (splits_of cO) (ids_of cO) q with
  | Some a => a | None => mkArc 0 0 0 0 end.

Lemma rd_cO k f : rd fs k = Some f -> rd cO k = Some (filter K (map (fun i => off1 fs k + i) (zrange (zlen f)))).
Proof. intros H. unfold cO. rewrite rd_map, (rd_idx_rows _ _ _ H). reflexivity. Qed.
Lemma in_cO k f o s : rd fs k = Some f -> rd cO k = Some o -> In s o <-> 0 <= s - off1 fs k < zlen f /\ K s = true.
Proof.
  intros Hk Ho. rewrite (rd_cO k f Hk) in Ho. injection Ho as <-. rewrite filter_In, in_map_iff. split.
  - intros ((i & <- & Hi) & HK). apply in_zrange in Hi. split; auto. lia.
  - intros (H & HK). split; auto. exists (s - off1 fs k). split; [lia|]. now apply in_zrange.
Qed.

Lemma new_pos k f i o : rd fs k = Some f -> rd cO k = Some o -> 0 <= i < zlen f -> K (off1 fs k + i) = true ->
  exists r j, rd o2n (off1 fs k + i) = Some r /\ rd (ids_of cO) r = Some k /\ rd (splits_of cO) k = Some (off1 cO k) /\
    r - off1 cO k = j /\ rd o j = Some (off1 fs k + i).
Proof.
  intros Hk Ho Hi HK. pose proof (state_range fs k f i Hk Hi) as HR. destruct (o2n_ok _ HR HK) as (r & O1 & O2).
  rewrite <- concat_cO in O2. destruct (rd_concat_inv _ _ _ O2) as (k' & o' & j & C1 & C2 & -> & C4).
  assert (B : 0 <= k' < zlen fs) by (apply rd_Some_bound in C1; unfold cO, idx_rows in C1; rewrite zlen_map, zlen_imap in C1; auto).
  destruct (rd_in_bound fs k' B) as (f' & Hk'). pose proof (proj1 (in_cO k' f' o' _ Hk' C1) (rd_In _ _ _ C2)) as (B' & _).
  destruct (row_unique fs k f i k' f' (off1 fs k + i - off1 fs k') Hk Hk' Hi B' ltac:(lia)) as (<- & _ & <-).
  assert (o' = o) by congruence. subst o'. exists (off1 cO k + j), j. split; auto. split; auto. split.
  - apply rd_splits_off. apply rd_Some_bound in C1. lia.
  - split; [lia|auto].
Qed.

Lemma conn_arc_ok k f j a o : rd fs k = Some f -> rd (all_arcs f) j = Some a -> rd cO k = Some o ->
  In (off1 fs k + src a) o -> In (off1 fs k + dst a) o ->
  conn_arc v (ids_of fs) (ids_of (concat fs)) o2n (splits_of cO) (ids_of cO) (abase fs k + j) = Some (cna (abase fs k + j)) /\
  lab (cna (abase fs k + j)) = lab a /\ sc (cna (abase fs k + j)) = sc a /\
  rd o (src (cna (abase fs k + j))) = Some (off1 fs k + src a) /\ rd o (dst (cna (abase fs k + j))) = Some (off1 fs k + dst a).
Proof.
  intros Hk Ha Ho Is Id. destruct (arc_by_pos fs WF k f j a Hk Ha) as (P1 & P2 & _ & B1 & B2).
  pose proof (proj1 (in_cO k f o _ Hk Ho) Is) as (_ & K1). pose proof (proj1 (in_cO k f o _ Hk Ho) Id) as (_ & K2).
  destruct (new_pos k f _ o Hk Ho B1 K1) as (r1 & j1 & N1 & N2 & N3 & N4 & N5).
  destruct (new_pos k f _ o Hk Ho B2 K2) as (r2 & j2 & M1 & M2 & M3 & M4 & M5).
  assert (EQ : conn_arc v (ids_of fs) (ids_of (concat fs)) o2n (splits_of cO) (ids_of cO) (abase fs k + j) = Some (mkArc j1 j2 (lab a) (sc a))).
  { unfold conn_arc. rewrite P2. destruct (rd_in_bound f _ B1) as (st & Hst). destruct (rd_concat_off fs k f _ st Hk Hst) as (_ & C2). rewrite C2.
    unfold v. cbn [flat_vec v_rs1 v_arcs]. rewrite (rd_splits_off fs k) by (apply rd_Some_bound in Hk; lia).
    unfold A in *. rewrite P1, N1, N2, N3, M1, M2, M3. now rewrite N4, M4. }
  unfold cna. rewrite EQ. cbn. auto.
Qed.

Lemma arcs_ok : mapM (conn_arc v (ids_of fs) (ids_of (concat fs)) o2n (splits_of cO) (ids_of cO)) (concat cG) = Some (map cna (concat cG)).
Proof.
  apply mapM_Some_map. intros q Hq. apply in_concat in Hq as (l & Hl & Hq). apply In_rd in Hl as (r & _ & Hr).
  destruct (in_cG r l q Hr Hq) as (k & f & j & a & Hk & Ha & -> & ER & K1 & K2).
  destruct (arc_by_pos fs WF k f j a Hk Ha) as (_ & _ & _ & B1 & B2). pose proof (rd_cO k f Hk) as Ho.
  apply (conn_arc_ok k f j a _ Hk Ha Ho); apply (in_cO k f _ _ Hk Ho); split; auto; lia.
Qed.

Definition c_ts := x_ts fs cO cPA cna.
Lemma zlen_cG : map zlen cG = map zlen (concat c_ts).
Proof.
  unfold c_ts, x_ts, xt, cG. rewrite <- concat_cO. rewrite <- concat_map, !map_map. apply map_ext. intros s. now rewrite zlen_map.
Qed.
Lemma build_ok : mkVOut (mkVec (splits_of cO) (splits_of cG) (map cna (concat cG))) (ids_of cG) (concat cG) =
  mkVOut (vec_of c_ts) (ids_of (concat c_ts)) (map snd (concat (concat c_ts))).
Proof.
  rewrite vec_of_eq. pose proof zlen_cG as EZ. destruct (map_zlen_rd (concat c_ts) cG EZ) as (_ & E2 & _).
  pose proof (ids_of_zlen (concat c_ts) cG EZ) as E3. rewrite E2, E3.
  assert (EO : splits_of c_ts = splits_of cO).
  { unfold splits_of, c_ts, x_ts, xt. f_equal. rewrite map_map. apply map_ext. intros o. apply zlen_map. }
  rewrite EO.
  assert (EC : concat (concat c_ts) = map (fun q => (cna q, q)) (concat cG)).
  { unfold c_ts, x_ts, xt, cG. rewrite <- concat_cO, <- concat_map, (concat_map (fun q => (cna q, q))), map_map. reflexivity. }
  rewrite EC, !map_map. cbn [fst snd]. rewrite map_id. reflexivity.
Qed.
End B.
