(** * C20: top_sort. *)
From Coq Require Import ZArith List Lia Bool Sorted Permutation.
From Coq Require Import ZifyBool ZifyNat.
From Verif Require Import Base RaggedModel RaggedSpec RaggedProofs FsaSpec FsaLemmas FsaOpsModel FsaOpsProofs FsaOpsProps SelectProofs
  EpsLoopProofs RaggedOpsModel RaggedOpsSpec RaggedOpsProofs RaggedOpsProps OpsModel OpsProofs FstSpec GraphProofs PropsModel PropsSpec PropsProofs PropsProps ReverseModel ReverseProofs ReverseProps
  VecElement ConnectModel ConnectSpec ConnectProofs ExtractProofs ConnectRun ConnectProps TopSortModel TopSortProofs TopSortRun TopSortBuild.
Import ListNotations.
Open Scope Z_scope.

Lemma pos_before (l1 l2 : list Z) s t i j : NoDup (l1 ++ l2) -> In s l1 -> In t l2 -> rd (l1 ++ l2) i = Some s -> rd (l1 ++ l2) j = Some t -> i < j.
Proof.
  intros N I1 I2 H1 H2. apply In_rd in I1 as (i' & B1 & E1). apply In_rd in I2 as (j' & B2 & E2).
  assert (i = i') by (apply (NoDup_rd (l1 ++ l2) N i i' s); auto; rewrite rd_app_l by lia; auto).
  assert (j = zlen l1 + j') by (apply (NoDup_rd (l1 ++ l2) N j (zlen l1 + j') t); auto; rewrite rd_app_r by lia; now replace (zlen l1 + j' - zlen l1) with j' by lia).
  lia.
Qed.

Section S.
Variable fs : list nfsa.
Hypothesis WF : Forall well_formed fs.
Let SO : Forall src_ok fs.
Proof. eapply Forall_impl; [|exact WF]. now intros f (H & _). Qed.
Let DO : Forall (fun f : nfsa => forall a, In a (all_arcs f) -> 0 <= dst a < nstates f) fs.
Proof. eapply Forall_impl; [|exact WF]. now intros f (_ & H). Qed.
Let Sn := zlen (concat fs).
Let v := flat_vec fs.
Notation P := (Pn fs).
Notation B := (Bn fs).

Definition orows (m : nat) : list (list Z) :=
  cat_rows (map (fun j => rows_of fs (B j)) (seq 0 (S m)) ++ [fin_rows fs]) (zlen fs).
Definition pre (k : Z) (f : nfsa) (j : nat) : list Z := concat (map (fun i => filter (B i) (irow fs k f)) (seq 0 j)).
Definition frow (k : Z) (f : nfsa) : list Z := if 0 <? zlen f then [off1 fs k + zlen f - 1] else [].

Lemma rd_orows m k f : rd fs k = Some f -> rd (orows m) k = Some (pre k f (S m) ++ frow k f).
Proof.
  intros Hk. pose proof (rd_Some_bound _ _ _ Hk) as Bk. unfold orows, cat_rows. rewrite rd_map, rd_zrange by auto. cbn [option_map]. f_equal.
  rewrite map_app, concat_app. cbn [map concat]. rewrite app_nil_r. unfold pick at 2. rewrite (rd_fin_rows fs k f Hk). fold (frow k f). f_equal.
  unfold pre. rewrite map_map. f_equal. apply map_ext. intros i. unfold pick. rewrite (rd_rows_of fs (B i) k f Hk). reflexivity.
Qed.
Lemma zlen_orows m : zlen (orows m) = zlen fs.
Proof. unfold orows, cat_rows. rewrite zlen_map, zlen_zrange; auto. apply zlen_nonneg. Qed.

Lemma pre_S k f j : pre k f (S j) = pre k f j ++ filter (B j) (irow fs k f).
Proof. unfold pre. rewrite seq_S, map_app, concat_app. cbn. now rewrite app_nil_r. Qed.
Lemma in_pre k f j s : In s (pre k f j) <-> In s (irow fs k f) /\ P j s = true.
Proof.
  induction j as [|j IH]; [cbn; intuition discriminate|]. rewrite pre_S, in_app_iff, filter_In, IH. rewrite <- (Pn_step fs j s).
  destruct (P j s), (B j s); cbn [orb]; intuition discriminate.
Qed.
Lemma pre_nodup k f j : NoDup (pre k f j).
Proof.
  induction j as [|j IH]; [constructor|]. rewrite pre_S. apply NoDup_app_disj; auto.
  - apply NoDup_filter, irow_nodup.
  - intros s H1 H2. apply in_pre in H1 as (_ & H1). apply filter_In in H2 as (_ & H2). unfold Bn in H2. rewrite H1, andb_false_r in H2. discriminate.
Qed.
Lemma pre_split k f j m : (j <= m)%nat -> exists post, pre k f m = pre k f j ++ post.
Proof.
  induction 1 as [|m H (post & E)]; [exists []; now rewrite app_nil_r|]. exists (post ++ filter (B m) (irow fs k f)). now rewrite pre_S, E, app_assoc.
Qed.

Lemma fin_not_done k f j : rd fs k = Some f -> 0 < zlen f -> P j (off1 fs k + zlen f - 1) = false.
Proof.
  intros Hk Hf. destruct j as [|j]; auto. cbn [Pn]. apply Z.eqb_neq. unfold degP.
  match goal with |- ?a + ?b <> 0 => assert (0 <= a) by apply count_nonneg; assert (0 < b) end; [|lia].
  pose proof (count_nonneg (fun k0 => fin_of fs k0 (off1 fs k + zlen f - 1)) (zrange (zlen fs))).
  destruct (Z.eq_dec (count (fun k0 => fin_of fs k0 (off1 fs k + zlen f - 1)) (zrange (zlen fs))) 0) as [C|]; [|lia].
  rewrite count_zero in C. specialize (C k (proj2 (in_zrange _ _) (rd_Some_bound _ _ _ Hk))). unfold fin_of in C. rewrite Hk in C. lia.
Qed.
Lemma fin_zero k f i : rd fs k = Some f -> 0 <= i < zlen f - 1 -> count (fun k0 => fin_of fs k0 (off1 fs k + i)) (zrange (zlen fs)) = 0.
Proof.
  intros Hk Hi. apply count_zero. intros k' _. unfold fin_of. destruct (rd fs k') as [f'|] eqn:Hk'; auto. destruct (0 <? zlen f') eqn:E; auto. cbn [andb].
  apply Z.eqb_neq. intros Q. destruct (row_unique fs k f i k' f' (zlen f' - 1) Hk Hk' ltac:(lia) ltac:(lia) ltac:(lia)) as (_ & Q2 & <-). lia.
Qed.

Lemma row_nodup k f j : rd fs k = Some f -> NoDup (pre k f j ++ frow k f).
Proof.
  intros Hk. apply NoDup_app_disj; [apply pre_nodup| |].
  - unfold frow. destruct (0 <? zlen f); repeat constructor. intros [].
  - intros s H1 H2. unfold frow in H2. destruct (0 <? zlen f) eqn:E; [|destruct H2]. destruct H2 as [<-|[]]. apply in_pre in H1 as (_ & H1).
    rewrite (fin_not_done k f j Hk) in H1 by lia. discriminate.
Qed.
Lemma row_in k f j s : In s (pre k f j ++ frow k f) -> In s (irow fs k f).
Proof.
  intros H. apply in_app_or in H as [H|H]; [now apply in_pre in H|]. unfold frow in H. destruct (0 <? zlen f) eqn:E; [|destruct H]. destruct H as [<-|[]].
  apply in_irow. lia.
Qed.
Lemma row_len k f j : rd fs k = Some f -> zlen (pre k f j ++ frow k f) <= zlen f.
Proof.
  intros Hk. rewrite <- (zlen_irow fs k f). unfold zlen. apply inj_le. apply NoDup_incl_length; [now apply row_nodup|]. intros s. apply row_in.
Qed.

(** the number of states listed *)
Lemma lens_eq (x y : list Z) : zlen x = zlen y -> (forall k a b, rd x k = Some a -> rd y k = Some b -> a <= b) ->
  zsum x <= zsum y /\ (zsum x = zsum y -> x = y).
Proof using.
  clear. revert y. induction x as [|a x IH]; intros [|b y] L H.
  - auto using Z.le_refl.
  - pose proof (zlen_nonneg y). exfalso. rewrite zlen_cons in L. change (zlen (@nil Z)) with 0 in L. lia.
  - pose proof (zlen_nonneg x). exfalso. rewrite zlen_cons in L. change (zlen (@nil Z)) with 0 in L. lia.
  - rewrite !zlen_cons in L. assert (a <= b) by (apply (H 0); apply rd_cons_0). destruct (IH y ltac:(lia)) as (I1 & I2).
    { intros k c d Hc Hd. pose proof (rd_Some_bound _ _ _ Hc). apply (H (k + 1)); rewrite rd_cons; replace (k + 1 =? 0) with false by lia; now replace (k + 1 - 1) with k by lia. }
    cbn [zsum]. split; [lia|]. intros E. f_equal; [lia|]. apply I2. lia.
Qed.

Lemma zlen_concat_sum {X} (ll : list (list X)) : zlen (concat ll) = zsum (map zlen ll).
Proof using. clear. induction ll as [|l ll IH]; auto. cbn [concat map zsum]. now rewrite zlen_app, IH. Qed.

Lemma full_rows m : zlen (concat (orows m)) = Sn -> forall k f o, rd fs k = Some f -> rd (orows m) k = Some o -> Permutation o (irow fs k f).
Proof.
  intros H k f o Hk Ho. unfold Sn in H. rewrite !zlen_concat_sum in H.
  assert (E : map zlen (orows m) = map zlen fs).
  { apply lens_eq; auto; [rewrite !zlen_map; apply zlen_orows|]. intros k' a b Ha Hb. rewrite rd_map in Ha; rewrite rd_map in Hb.
    destruct (rd fs k') as [f'|] eqn:Hf; [|discriminate]. rewrite (rd_orows m k' f' Hf) in Ha. cbn [option_map] in Ha, Hb. injection Ha as <-. injection Hb as <-. now apply row_len. }
  rewrite (rd_orows m k f Hk) in Ho. assert (Q : rd (map zlen (orows m)) k = rd (map zlen fs) k) by now rewrite E.
  rewrite !rd_map, Hk, (rd_orows m k f Hk) in Q. cbn [option_map] in Q. injection Q as Q. injection Ho as <-.
  apply NoDup_perm_full; [now apply row_nodup|apply row_in|rewrite zlen_irow; lia|apply irow_nodup].
Qed.
Lemma full_iff m : zlen (concat (orows m)) = Sn <-> forall k f i, rd fs k = Some f -> 0 <= i < zlen f - 1 -> P (S m) (off1 fs k + i) = true.
Proof.
  split.
  - intros H k f i Hk Hi. pose proof (full_rows m H k f _ Hk (rd_orows m k f Hk)) as PR.
    assert (I : In (off1 fs k + i) (irow fs k f)) by (apply in_irow; lia). apply (Permutation_in _ (Permutation_sym PR)) in I.
    apply in_app_or in I as [I|I]; [now apply in_pre in I|]. unfold frow in I. destruct (0 <? zlen f); [|destruct I]. destruct I as [I|[]]; lia.
  - intros H. unfold Sn. rewrite !zlen_concat_sum. f_equal. apply list_ext_rd; [rewrite !zlen_map; apply zlen_orows|].
    intros k Hk. rewrite zlen_map, zlen_orows in Hk. destruct (rd_in_bound fs k Hk) as (f & Hf). rewrite !rd_map, Hf, (rd_orows m k f Hf). cbn [option_map]. f_equal.
    rewrite <- (zlen_irow fs k f). unfold zlen. f_equal. apply Permutation_length. apply NoDup_Permutation; [now apply row_nodup|apply irow_nodup|].
    intros s. split; [apply row_in|]. intros I. pose proof (proj1 (in_irow fs k f s) I) as Bs. apply in_or_app.
    destruct (Z.eq_dec s (off1 fs k + zlen f - 1)) as [->|N].
    + right. unfold frow. replace (0 <? zlen f) with true by lia. now left.
    + left. apply in_pre. split; auto. replace s with (off1 fs k + (s - off1 fs k)) by lia. apply (H k f); auto. lia.
Qed.

Definition result (m : nat) : vec_out :=
  let ts := x_ts fs (orows m) (fun _ => true) (rna fs (orows m)) in mkVOut (vec_of ts) (ids_of (concat ts)) (map snd (concat (concat ts))).
Definition starts_ok : Prop := forall k f, rd fs k = Some f -> 0 < zlen f -> B 0 (off1 fs k) = true.

Lemma top_sort_run ord ords : fair ord -> Forall fair ords ->
  (forall r, top_sort ord ords v = Some r -> exists m, starts_ok /\ existsb (B (S m)) (zrange Sn) = false /\
     (forall j, (0 < j <= m)%nat -> existsb (B j) (zrange Sn) = true) /\ zlen (concat (orows m)) = Sn /\ r = result m) /\
  (starts_ok -> Sn < zlen ords -> (forall m, existsb (B (S m)) (zrange Sn) = false -> zlen (concat (orows m)) = Sn) -> top_sort ord ords v <> None).
Proof.
  intros HF HFs. pose proof (zlen_nonneg (concat fs)) as HS.
  assert (RB : rows_of fs (fun t => degP fs (fun _ => false) t =? 0) = rows_of fs (B 0)).
  { apply rows_of_ext. intros s _. unfold Bn. cbn [Pn negb]. now rewrite andb_true_r. }
  set (D0 := map (degP fs (fun _ => false)) (zrange Sn)).
  assert (E : top_sort ord ords v =
    (ok <- ts_check_start (splits_of fs) (batch_of (rows_of fs (B 0)));; check ok;;
     bs <- ts_loop ords v (gdest fs) D0 (batch_of (rows_of fs (B 0)));;
     all <- ragged_cat1 (bs ++ [batch_of (fin_rows fs)]);;
     check (zlen (snd all) =? Sn);; renumber_fsa_vec ord v (snd all))).
  { unfold top_sort. cbn [v flat_vec v_rs1 v_rs2 v_arcs]. rewrite !zlen_splits_of.
    replace (zlen (concat fs) + 1 - 1) with Sn by (unfold Sn; lia). replace (zlen fs + 1 - 1) with (zlen fs) by lia.
    unfold Sn at 1. rewrite !row_ids_of_splits. fold (flat_vec fs). fold v. unfold v at 1. rewrite dest_states_ok by auto.
    unfold v at 1. rewrite (in_degree_ok fs WF ord HF). rewrite (initial_ok fs ord _ HF). rewrite RB, final_ok. reflexivity. }
  assert (EC : forall m, ragged_cat1 (map (fun j => batch_of (rows_of fs (B j))) (seq 0 (S m)) ++ [batch_of (fin_rows fs)]) = Some (batch_of (orows m))).
  { intros m. pose proof (C07_cat_axis1 Z (map (fun j => rows_of fs (B j)) (seq 0 (S m)) ++ [fin_rows fs]) (zlen fs)) as C. cbv zeta in C.
    rewrite map_app, map_map in C. cbn [map] in C. apply C.
    - destruct (seq 0 (S m)); discriminate.
    - apply Forall_app. split; [|constructor; [unfold fin_rows; apply zlen_imap|constructor]]. apply Forall_forall. intros x Hx. apply in_map_iff in Hx as (j & <- & _). apply zlen_rows_of. }
  assert (RN : forall m, zlen (concat (orows m)) = Sn -> renumber_fsa_vec ord v (concat (orows m)) = Some (result m)).
  { intros m H. unfold v. rewrite (renumber_ok fs WF (orows m) (zlen_orows m)); auto. now apply full_rows. }
  split.
  - intros r H. rewrite E in H. destruct (ts_check_start _ _) as [[|]|] eqn:EK; try discriminate.
    destruct (ts_loop ords v (gdest fs) D0 _) as [bs|] eqn:EL; [|discriminate].
    destruct (loop_ok fs WF ords HFs 0 bs EL) as (m & -> & M1 & M2). rewrite EC in H. cbn [batch_of snd] in H.
    destruct (zlen (concat (orows m)) =? Sn) eqn:EZ; [|discriminate]. assert (zlen (concat (orows m)) = Sn) by lia. rewrite RN in H by auto. injection H as <-.
    exists m. split; [exact (check_start_inv fs (B 0) EK)|]. split; [exact M1|]. split; [intros j Hj; apply M2; lia|]. auto.
  - intros ST HL HZ. rewrite E. rewrite (check_start_ok fs (B 0) ST).
    assert (LE : ts_loop ords v (gdest fs) D0 (batch_of (rows_of fs (B 0))) <> None).
    { apply (loop_ends fs WF ords HFs 0). pose proof (count_nonneg (P 1) (zrange Sn)). unfold Sn in *. lia. }
    destruct (ts_loop ords v (gdest fs) D0 (batch_of (rows_of fs (B 0)))) as [bs|] eqn:EL; [|contradiction].
    destruct (loop_ok fs WF ords HFs 0 bs EL) as (m & -> & M1 & M2). rewrite EC. cbn [batch_of snd]. rewrite (HZ m M1), Z.eqb_refl, RN by auto. discriminate.
Qed.

(** ** The order *)
Lemma ordered m k f a : zlen (concat (orows m)) = Sn -> rd fs k = Some f -> In a (all_arcs f) -> forall o i j, rd (orows m) k = Some o ->
  rd o i = Some (off1 fs k + src a) -> rd o j = Some (off1 fs k + dst a) -> i <= j.
Proof.
  intros HZ Hk Ha o i j Ho Hi Hj. apply In_rd in Ha as (q & _ & Ha). destruct (arc_by_pos fs WF k f q a Hk Ha) as (_ & _ & _ & B1 & B2).
  destruct (arc_kj fs WF k f q a Hk Ha) as (A1 & A2 & A3).
  rewrite (rd_orows m k f Hk) in Ho. injection Ho as <-. pose proof (row_nodup k f (S m) Hk) as ND.
  destruct (Z.eq_dec (src a) (dst a)) as [Q|Q]. { rewrite Q in Hi. pose proof (NoDup_rd _ ND i j _ Hi Hj). lia. }
  enough (i < j) by lia.
  assert (PD : forall n, P (S n) (off1 fs k + dst a) = true -> P n (off1 fs k + src a) = true).
  { intros n H. cbn [Pn] in H. unfold degP in H.
    match type of H with (?x + ?y =? 0) = true => assert (x = 0) by (assert (0 <= x) by apply count_nonneg; assert (0 <= y) by apply count_nonneg; lia) end.
    rewrite count_zero in H0. specialize (H0 (abase fs k + q)). rewrite in_zrange in H0. specialize (H0 A1). unfold nl in H0. rewrite A2, A3 in H0.
    destruct (P n (off1 fs k + src a)); auto. lia. }
  destruct (P (S m) (off1 fs k + dst a)) eqn:EP.
  - (* the batch of the destination *)
    assert (X : exists n, (n <= m)%nat /\ B n (off1 fs k + dst a) = true).
    { clear - EP. revert EP. generalize (off1 fs k + dst a). intros t. induction m as [|m IH].
      - intros H. exists 0%nat. split; auto. unfold Bn. rewrite H. reflexivity.
      - intros H. destruct (P (S m) t) eqn:E; [destruct (IH eq_refl) as (n & L & Hn); exists n; split; auto|]. exists (S m). split; auto. unfold Bn. now rewrite H, E. }
    destruct X as (n & Ln & HB). unfold Bn in HB. apply andb_true_iff in HB as (HB1 & HB2). apply negb_true_iff in HB2.
    destruct (pre_split k f n (S m) ltac:(lia)) as (post & Epost). rewrite Epost, <- app_assoc in *.
    apply (pos_before (pre k f n) (post ++ frow k f) (off1 fs k + src a) (off1 fs k + dst a)); auto.
    + apply in_pre. split; [apply in_irow; lia|]. apply PD. exact HB1.
    + assert (I : In (off1 fs k + dst a) (pre k f n ++ post ++ frow k f)) by (eapply rd_In; eauto). apply in_app_or in I as [I|I]; auto.
      apply in_pre in I as (_ & I). congruence.
  - apply (pos_before (pre k f (S m)) (frow k f) (off1 fs k + src a) (off1 fs k + dst a)); auto.
    + apply in_pre. split; [apply in_irow; lia|]. apply (proj1 (full_iff m) HZ k f); auto.
      assert (I : In (off1 fs k + dst a) (pre k f (S m) ++ frow k f)) by (eapply rd_In; eauto). apply in_app_or in I as [I|I].
      * apply in_pre in I as (_ & I). congruence.
      * unfold frow in I. destruct (0 <? zlen f); [|destruct I]. destruct I as [I|[]]. lia.
    + assert (I : In (off1 fs k + dst a) (pre k f (S m) ++ frow k f)) by (eapply rd_In; eauto). apply in_app_or in I as [I|I]; auto.
      apply in_pre in I as (_ & I). congruence.
Qed.

Lemma ends m k f o : starts_ok -> rd fs k = Some f -> 0 < zlen f -> rd (orows m) k = Some o ->
  rd o 0 = Some (off1 fs k) /\ rd o (zlen o - 1) = Some (off1 fs k + zlen f - 1).
Proof.
  intros ST Hk Hf Ho. rewrite (rd_orows m k f Hk) in Ho. injection Ho as <-. split.
  - specialize (ST k f Hk Hf). assert (E : exists l, pre k f (S m) ++ frow k f = off1 fs k :: l).
    { unfold pre. cbn [seq map concat]. unfold irow at 1. rewrite zrange_cons by lia. cbn [map filter]. rewrite Z.add_0_r, ST. cbn [app]. eauto. }
    destruct E as (l & ->). apply rd_cons_0.
  - unfold frow. replace (0 <? zlen f) with true by lia. rewrite zlen_app. change (zlen [off1 fs k + zlen f - 1]) with 1.
    rewrite rd_app_r by lia. replace (zlen (pre k f (S m)) + 1 - 1 - zlen (pre k f (S m))) with 0 by lia. apply rd_cons_0.
Qed.
End S.

(** ** Specification: [g] is [f] with its states put in topological order. *)
Definition sorted_form (base : Z) (f g : nfsa) (gm : list Z) : Prop :=
  (exists o, Permutation o (zrange (nstates f)) /\ extracts base f o g gm /\
     (f = [] \/ (rd o 0 = Some 0 /\ rd o (zlen o - 1) = Some (final f)))) /\
  p_topsorted g /\
  (forall w s, accepts g w s <-> accepts f w s) /\
  (forall w s, accepts_str g w s <-> accepts_str f w s) /\
  (valid f -> valid g).

Lemma one_sorted fs m k f o : Forall well_formed fs -> starts_ok fs -> zlen (concat (orows fs m)) = zlen (concat fs) ->
  rd fs k = Some f -> rd (orows fs m) k = Some o ->
  sorted_form (abase fs k) f (new_fsa fs (fun _ => true) (rna fs (orows fs m)) o) (new_map fs (fun _ => true) (rna fs (orows fs m)) o).
Proof.
  intros WF ST HZ Hk Ho. pose proof (full_rows fs m HZ) as FR. pose proof (zlen_orows fs m) as LO.
  destruct (row_O fs (orows fs m) LO FR k f Hk) as (o' & Ho' & PR & LEN & ND & IN). assert (o' = o) by congruence. subst o'.
  assert (WFf : well_formed f) by (rewrite Forall_forall in WF; apply WF; eapply rd_In; eauto).
  set (g := new_fsa fs (fun _ => true) (rna fs (orows fs m)) o). set (gm := new_map fs (fun _ => true) (rna fs (orows fs m)) o).
  assert (X : extracts (abase fs k) f (local fs k o) g gm).
  { apply extracts_ok; auto.
    - intros s Hs. now apply IN.
    - intros j a Ha Hs. split; auto. intros _. apply IN. destruct (arc_by_pos fs WF k f j a Hk Ha) as (_ & _ & _ & _ & B2). lia.
    - intros j a Ha _ _. destruct (rna_ok fs WF (orows fs m) LO FR k f j a o Hk Ha Ho) as (E & R1 & R2). rewrite E in *. auto. }
  assert (PL : Permutation (local fs k o) (zrange (nstates f))).
  { unfold local. apply (Permutation_map (fun s => s - off1 fs k)) in PR. eapply Permutation_trans; [exact PR|]. unfold irow. rewrite map_map.
    rewrite (map_ext _ (fun i => i)) by (intros; lia). rewrite map_id. apply Permutation_refl. }
  assert (LL : zlen (local fs k o) = zlen o) by (unfold local; apply zlen_map).
  assert (OE : f = [] \/ rd (local fs k o) 0 = Some 0 /\ rd (local fs k o) (zlen (local fs k o) - 1) = Some (final f)).
  { destruct (Z.eq_dec (zlen f) 0) as [Z0|NZ]; [left; now apply zlen_0_nil|]. right. pose proof (zlen_nonneg f).
    destruct (ends fs m k f o ST Hk ltac:(lia) Ho) as (E1 & E2). apply (rd_local fs k) in E1. apply (rd_local fs k) in E2. rewrite LL. split.
    - rewrite E1. f_equal. lia.
    - rewrite E2. unfold final, nstates. f_equal. lia. }
  assert (OE' : local fs k o = [] \/ rd (local fs k o) 0 = Some 0 /\ rd (local fs k o) (zlen (local fs k o) - 1) = Some (final f)).
  { destruct OE as [->|OE]; auto. left. apply zlen_0_nil. rewrite LL, LEN. reflexivity. }
  assert (OU : forall s, useful f s -> In s (local fs k o)).
  { intros s (Bs & _). apply (Permutation_in _ (Permutation_sym PL)). now apply in_zrange. }
  split; [exists (local fs k o); auto|]. split; [|split; [|split]].
  - intros b Hb. destruct (x_arc _ _ _ _ _ X b Hb) as (a & Ha & R1 & R2 & _). unfold local in R1, R2. rewrite rd_map in R1. rewrite rd_map in R2.
    destruct (rd o (src b)) as [s|] eqn:E1; [|discriminate]. destruct (rd o (dst b)) as [t|] eqn:E2; [|discriminate]. cbn in R1, R2. injection R1 as R1. injection R2 as R2.
    apply (ordered fs WF m k f a HZ Hk Ha o); auto; [rewrite E1|rewrite E2]; f_equal; lia.
  - intros w s. now apply (x_accepts _ _ _ _ _ X WFf OE' OU).
  - intros w s. now apply (x_accepts_str _ _ _ _ _ X WFf OE' OU).
  - intros V. apply (x_valid _ _ _ _ _ X OE'); auto. intros E. destruct V as (_ & V & _). rewrite E in LL. change (zlen (@nil Z)) with 0 in LL. unfold nstates in *. lia.
Qed.

(** C20: whatever is returned is every FSA in topological order, start state
    first and final state last, for every order in which the kernels run. *)
Theorem C20_top_sort : forall fs ord ords r, Forall well_formed fs -> fair ord -> Forall fair ords ->
  top_sort ord ords (flat_vec fs) = Some r ->
  exists gs gms, zlen gs = zlen fs /\ zlen gms = zlen fs /\
    r = mkVOut (flat_vec gs) (ids_of (concat gs)) (concat gms) /\
    forall k f g gm, rd fs k = Some f -> rd gs k = Some g -> rd gms k = Some gm -> sorted_form (off1 (map all_arcs fs) k) f g gm.
Proof.
  intros fs ord ords r WF HF HFs H. destruct (proj1 (top_sort_run fs WF ord ords HF HFs) r H) as (m & ST & _ & _ & HZ & ->).
  set (ts := x_ts fs (orows fs m) (fun _ => true) (rna fs (orows fs m))). pose proof (zlen_orows fs m) as LO.
  exists (map (map (map fst)) ts), (map (fun t => map snd (concat t)) ts).
  assert (LT : zlen ts = zlen fs) by (unfold ts, x_ts; now rewrite zlen_map).
  rewrite !zlen_map. split; auto. split; auto. split.
  - unfold result. fold ts. rewrite <- concat_map, ids_of_map. f_equal. rewrite <- (map_map (@concat (arc * Z)) (map snd)), <- concat_map. now rewrite concat_map_concat.
  - intros k f g gm Hk Hg Hm. destruct (rd_in_bound (orows fs m) k) as (o & Ho); [apply rd_Some_bound in Hk; lia|].
    assert (Ht : rd ts k = Some (xt fs (fun _ => true) (rna fs (orows fs m)) o)) by (unfold ts, x_ts; now rewrite rd_map, Ho).
    rewrite rd_map, Ht in Hg. rewrite rd_map, Ht in Hm. injection Hg as <-. injection Hm as <-.
    now apply (one_sorted fs m k f o WF ST HZ Hk Ho).
Qed.
Print Assumptions C20_top_sort.

(** C20: the result does not depend on the order in which the kernels run. *)
Theorem C20_schedule_independent : forall fs ord ords r ord' ords' r', Forall well_formed fs ->
  fair ord -> Forall fair ords -> top_sort ord ords (flat_vec fs) = Some r ->
  fair ord' -> Forall fair ords' -> top_sort ord' ords' (flat_vec fs) = Some r' -> r = r'.
Proof.
  intros fs ord ords r ord' ords' r' WF HF HFs H HF' HFs' H'.
  destruct (proj1 (top_sort_run fs WF ord ords HF HFs) r H) as (m & _ & M1 & M2 & _ & ->).
  destruct (proj1 (top_sort_run fs WF ord' ords' HF' HFs') r' H') as (m' & _ & M1' & M2' & _ & ->).
  assert (m = m'); [|now subst].
  destruct (Nat.lt_trichotomy m m') as [L|[L|L]]; auto; exfalso.
  - rewrite (M2' (S m)) in M1 by lia. discriminate.
  - rewrite (M2 (S m')) in M1' by lia. discriminate.
Qed.
Print Assumptions C20_schedule_independent.

(** C20: an FSA with a cycle other than a self-loop is refused. *)
Lemma order_path (f : nfsa) o : NoDup o -> (forall s, 0 <= s < nstates f -> In s o) -> well_formed f ->
  (forall a i j, In a (all_arcs f) -> rd o i = Some (src a) -> rd o j = Some (dst a) -> i <= j) ->
  forall p s t, path (all_arcs f) s p t -> forall i j, rd o i = Some s -> rd o j = Some t -> i <= j /\ ((exists a, In a p /\ src a <> dst a) -> i < j).
Proof.
  intros ND C (SO & DO) M. induction p as [|a p IH]; intros s t H i j Hi Hj.
  - destruct (path_inv _ _ _ _ H) as [(_ & ->)|(a & p' & E & _)]; [|discriminate]. pose proof (NoDup_rd _ ND i j _ Hi Hj). split; [lia|]. intros (a & [] & _).
  - destruct (path_inv _ _ _ _ H) as [(E & _)|(a' & p' & E & Ha & <- & H')]; [discriminate|]. injection E as <- <-.
    destruct (In_rd _ _ (C (dst a) (DO a Ha))) as (k & _ & Hk). destruct (IH _ _ H' k j Hk Hj) as (L & ST). pose proof (M a i k Ha Hi Hk).
    split; [lia|]. intros (b & [<-|Hb] & N).
    + assert (i <> k) by (intros ->; congruence). lia.
    + specialize (ST (ex_intro _ b (conj Hb N))). lia.
Qed.
Lemma sorted_acyclic base f g gm : well_formed f -> sorted_form base f g gm -> ~ nontrivial_cycle f.
Proof.
  intros WF ((o & PR & X & _) & TS & _) (s & p & a & Hp & Ha & N).
  assert (ND : NoDup o) by (apply (Permutation_NoDup (Permutation_sym PR)), NoDup_zrange).
  assert (C : forall s, 0 <= s < nstates f -> In s o) by (intros t Ht; apply (Permutation_in _ (Permutation_sym PR)); now apply in_zrange).
  assert (Bs : 0 <= s < nstates f).
  { destruct (path_inv _ _ _ _ Hp) as [(-> & _)|(b & p' & -> & Hb & <- & _)]; [destruct Ha|]. apply src_ok_range; auto. apply WF. }
  apply C in Bs. destruct (In_rd _ _ Bs) as (i & _ & Hi).
  destruct (order_path f o ND C WF) with (p := p) (s := s) (t := s) (i := i) (j := i) as (_ & L); auto.
  - intros b i1 j1 Hb R1 R2. pose proof (x_arc_back _ _ _ _ _ X b i1 j1 Hb R1 R2) as I. apply TS in I. exact I.
  - assert (i < i) by (apply L; eauto). lia.
Qed.
Theorem C20_cycle_refused : forall fs ord ords f, Forall well_formed fs -> fair ord -> Forall fair ords ->
  In f fs -> nontrivial_cycle f -> top_sort ord ords (flat_vec fs) = None.
Proof.
  intros fs ord ords f WF HF HFs Hf HC. destruct (top_sort ord ords (flat_vec fs)) as [r|] eqn:E; auto. exfalso.
  destruct (C20_top_sort fs ord ords r WF HF HFs E) as (gs & gms & L1 & L2 & _ & T). apply In_rd in Hf as (k & Bk & Hk).
  destruct (rd_in_bound gs k ltac:(lia)) as (g & Hg). destruct (rd_in_bound gms k ltac:(lia)) as (gm & Hm).
  apply (sorted_acyclic _ f g gm) with (2 := T k f g gm Hk Hg Hm) in HC; auto. rewrite Forall_forall in WF. eapply WF, rd_In; eauto.
Qed.
Print Assumptions C20_cycle_refused.

(** C20: an FSA that can be sorted is sorted: at least two states, only
    self-loops enter the start state or leave the final state, and no other
    cycle.  (The loop ends after at most one iteration per state, plus one.) *)
Definition sortable (f : nfsa) : Prop :=
  f = [] \/ (2 <= nstates f /\ (forall a, In a (all_arcs f) -> dst a = 0 -> src a = 0) /\
             (forall a, In a (all_arcs f) -> src a = final f -> dst a = final f) /\ ~ nontrivial_cycle f).

Lemma dup_split (l : list Z) : ~ NoDup l -> exists l1 x l2 l3, l = l1 ++ x :: l2 ++ x :: l3.
Proof.
  induction l as [|x l IH]; intros H; [exfalso; apply H; constructor|]. destruct (in_dec Z.eq_dec x l) as [I|I].
  - apply in_split in I as (l2 & l3 & ->). exists [], x, l2, l3. reflexivity.
  - destruct IH as (l1 & y & l2 & l3 & ->). { intros N. apply H. constructor; auto. } exists (x :: l1), y, l2, l3. reflexivity.
Qed.
(** a set of states each of which is entered from the set has a cycle *)
Lemma chain_cycle (f : nfsa) (Q : Z -> Prop) : well_formed f -> (forall s, Q s -> exists a, In a (all_arcs f) /\ src a <> dst a /\ dst a = s /\ Q (src a)) ->
  forall s, Q s -> nontrivial_cycle f.
Proof.
  intros (SO & DO) HQ s Hs.
  assert (G : forall n, exists p s0, path (all_arcs f) s0 p s /\ length p = n /\ Forall (fun a => In a (all_arcs f) /\ src a <> dst a) p /\ Q s0).
  { induction n as [|n (p & s0 & H1 & H2 & H3 & H4)]; [exists [], s; repeat split; auto; constructor|].
    destruct (HQ s0 H4) as (a & A1 & A2 & <- & A4). exists (a :: p), (src a). repeat split; auto; [now constructor|cbn; lia]. }
  destruct (G (S (Z.to_nat (nstates f)))) as (p & s0 & H1 & H2 & H3 & _).
  assert (ND : ~ NoDup (map src p)).
  { intros N. assert (L : (length (map src p) <= length (zrange (nstates f)))%nat).
    { apply NoDup_incl_length; auto. intros x Hx. apply in_map_iff in Hx as (a & <- & Ha). rewrite Forall_forall in H3. destruct (H3 a Ha) as (Ia & _).
      apply in_zrange. now apply src_ok_range. }
    rewrite map_length, H2 in L. pose proof (zlen_zrange (nstates f) (zlen_nonneg _)) as LZ. unfold zlen in LZ. lia. }
  apply dup_split in ND as (l1 & x & l2 & l3 & E).
  apply map_eq_app in E as (p1 & p2 & -> & _ & E). apply map_eq_cons in E as (a & p3 & -> & Ea & E).
  apply map_eq_app in E as (p4 & p5 & -> & _ & E). apply map_eq_cons in E as (b & p6 & -> & Eb & _).
  apply path_app_inv in H1 as (m1 & _ & H1). change (a :: p4 ++ b :: p6) with ((a :: p4) ++ b :: p6) in H1. apply path_app_inv in H1 as (m2 & P1 & P2).
  destruct (path_inv _ _ _ _ P1) as [(E1 & _)|(a' & p' & E1 & _ & E2 & _)]; [discriminate|]. injection E1 as <- <-.
  destruct (path_inv _ _ _ _ P2) as [(E1 & _)|(b' & p' & E1 & _ & E3 & _)]; [discriminate|]. injection E1 as <- <-.
  exists x, (a :: p4), a. split; [|split; [now left|]].
  - now rewrite <- E2, <- E3, Ea, Eb in P1.
  - rewrite Forall_forall in H3. apply H3. apply in_or_app. right. now left.
Qed.

Theorem C20_top_sort_returns : forall fs ord ords, Forall well_formed fs -> fair ord -> Forall fair ords ->
  Forall sortable fs -> zlen (concat fs) < zlen ords -> top_sort ord ords (flat_vec fs) <> None.
Proof.
  intros fs ord ords WF HF HFs HS HL. apply (top_sort_run fs WF ord ords HF HFs); auto.
  - intros k f Hk Hf. rewrite Forall_forall in HS. destruct (HS f (rd_In _ _ _ Hk)) as [->|(S1 & S2 & _ & _)]; [change (zlen (@nil (list arc))) with 0 in Hf; lia|].
    unfold Bn. cbn [Pn negb]. rewrite andb_true_r. apply Z.eqb_eq. unfold degP. unfold nstates in S1.
    pose proof (fin_zero fs k f 0 Hk ltac:(lia)) as F0. rewrite Z.add_0_r in F0. rewrite F0, Z.add_0_r. apply count_zero. intros q Hq. apply in_zrange in Hq.
    destruct (arc_q fs WF q Hq) as (k' & f' & j & a & Hk' & Ha & -> & B1 & B2 & E1 & E2 & _). unfold nl. rewrite E1, E2.
    destruct (off1 fs k' + dst a =? off1 fs k) eqn:Q; [|now rewrite andb_false_r].
    destruct (row_unique fs k f 0 k' f' (dst a) Hk Hk' ltac:(lia) B2 ltac:(lia)) as (<- & Q1 & <-).
    rewrite (S2 a (rd_In _ _ _ Ha)), <- Q1 by auto. rewrite Z.eqb_refl. reflexivity.
  - intros m HB. apply full_iff. intros k f i Hk Hi. destruct (Pn fs (S m) (off1 fs k + i)) eqn:EP; auto. exfalso.
    rewrite Forall_forall in HS. destruct (HS f (rd_In _ _ _ Hk)) as [->|(S1 & _ & S3 & S4)]; [change (zlen (@nil (list arc))) with 0 in Hi; lia|].
    assert (WFf : well_formed f) by (rewrite Forall_forall in WF; apply WF; eapply rd_In; eauto).
    apply S4. apply (chain_cycle f (fun s => 0 <= s < zlen f - 1 /\ Pn fs (S m) (off1 fs k + s) = false) WFf) with (s := i); auto.
    intros s (Bs & Hs). assert (H2 : Pn fs (S (S m)) (off1 fs k + s) = false).
    { destruct (Pn fs (S (S m)) (off1 fs k + s)) eqn:E2; auto. exfalso. assert (existsb (Bn fs (S m)) (zrange (zlen (concat fs))) = true); [|congruence].
      apply existsb_exists. exists (off1 fs k + s). split; [apply in_zrange, (state_range fs k f); auto; lia|]. unfold Bn. now rewrite E2, Hs. }
    change (Pn fs (S (S m)) (off1 fs k + s)) with (degP fs (Pn fs (S m)) (off1 fs k + s) =? 0) in H2. unfold degP in H2.
    rewrite (fin_zero fs k f s Hk Bs), Z.add_0_r in H2.
    match type of H2 with (?x =? 0) = false => assert (CP : 0 < x) by (assert (0 <= x) by apply count_nonneg; lia) end.
    apply count_pos in CP as (q & Hq & HC). apply in_zrange in Hq.
    destruct (arc_q fs WF q Hq) as (k' & f' & j & a & Hk' & Ha & -> & B1 & B2 & E1 & E2 & _). unfold nl in HC. rewrite E1, E2 in HC.
    destruct (row_unique fs k f s k' f' (dst a) Hk Hk' ltac:(lia) B2 ltac:(lia)) as (<- & Q1 & <-). exists a.
    assert (Ia : In a (all_arcs f)) by (eapply rd_In; eauto). split; auto. split; [intros X; rewrite X in HC; lia|]. split; auto.
    assert (src a <> final f). { intros X. specialize (S3 a Ia X). unfold final, nstates in *. lia. }
    unfold final, nstates in *. split; [lia|]. destruct (Pn fs (S m) (off1 fs k + src a)); [|reflexivity]. exfalso. lia.
Qed.
Print Assumptions C20_top_sort_returns.

(** The single-FSA entry point. *)
Theorem C20_top_sort_single : forall f ord ords, well_formed f -> fair ord -> Forall fair ords ->
  (sortable f -> zlen f < zlen ords -> top_sort_single ord ords (flat f) <> None) /\
  (nontrivial_cycle f -> top_sort_single ord ords (flat f) = None) /\
  forall h m, top_sort_single ord ords (flat f) = Some (h, m) -> exists g, h = flat g /\ sorted_form 0 f g m.
Proof.
  intros f ord ords WF HF HFs. unfold top_sort_single. rewrite <- flat_one. assert (WF1 : Forall well_formed [f]) by (constructor; auto).
  assert (VE : forall r, top_sort ord ords (flat_vec [f]) = Some r -> exists g gm, vo_vec r = flat_vec [g] /\ vo_map r = gm /\ sorted_form 0 f g gm).
  { intros r H. destruct (C20_top_sort [f] ord ords r WF1 HF HFs H) as (gs & gms & L1 & L2 & -> & T). change (zlen [f]) with 1 in L1, L2.
    destruct gs as [|g [|? gs]]; [discriminate| |exfalso; rewrite !zlen_cons in L1; pose proof (zlen_nonneg gs); lia].
    destruct gms as [|gm [|? gms]]; [discriminate| |exfalso; rewrite !zlen_cons in L2; pose proof (zlen_nonneg gms); lia].
    exists g, gm. cbn [vo_vec vo_map concat]. rewrite app_nil_r. split; auto. split; auto. apply (T 0 f g gm); reflexivity. }
  split; [|split].
  - intros C1 C2. destruct (top_sort ord ords (flat_vec [f])) as [r|] eqn:E.
    + destruct (VE r eq_refl) as (g & gm & -> & _ & _). rewrite vec_element_ok. discriminate.
    + exfalso. apply (C20_top_sort_returns [f] ord ords WF1 HF HFs); auto; cbn [concat]; now rewrite app_nil_r.
  - intros C. now rewrite (C20_cycle_refused [f] ord ords f WF1 HF HFs (or_introl eq_refl) C).
  - intros h m H. destruct (top_sort ord ords (flat_vec [f])) as [r|] eqn:E; [|discriminate].
    destruct (VE r eq_refl) as (g & gm & E1 & E2 & T). rewrite E1, vec_element_ok in H. cbn in H. injection H as <- <-. exists g. split; auto. now rewrite E2.
Qed.
Print Assumptions C20_top_sort_single.

(** A batch of three: a graph out of order with a self-loop and an unreachable
    state, an empty FSA, one with no path. *)
Definition ex_ts : nfsa :=
  [[mkArc 0 2 1 5; mkArc 0 4 (-1) 0]; [mkArc 1 1 7 1; mkArc 1 4 (-1) 2]; [mkArc 2 1 2 3; mkArc 2 1 3 4]; [mkArc 3 1 9 9]; []].
Example C20_ex : top_sort rev_ord (repeat rev_ord 10) (flat_vec [ex_ts; []; [[]; []]]) =
  Some (mkVOut (flat_vec [[[mkArc 0 2 1 5; mkArc 0 4 (-1) 0]; [mkArc 1 3 9 9]; [mkArc 2 3 2 3; mkArc 2 3 3 4]; [mkArc 3 3 7 1; mkArc 3 4 (-1) 2]; []]; []; [[]; []]])
    [0; 0; 1; 2; 2; 3; 3] [0; 1; 6; 4; 5; 2; 3]) /\
  Forall well_formed [ex_ts; []; [[]; []]] /\ Forall fair (repeat rev_ord 10) /\ 7 < zlen (repeat rev_ord 10) /\
  Forall sortable [ex_ts; []; [[]; []]].
Proof.
  split; [vm_compute; reflexivity|]. assert (WF : Forall well_formed [ex_ts; []; [[]; []]]).
  { repeat apply Forall_cons; try apply Forall_nil; apply wfb_ok; reflexivity. }
  assert (FO : Forall fair (repeat rev_ord 10)). { apply Forall_forall. intros x Hx. apply repeat_spec in Hx. subst. apply rev_ord_fair. }
  split; auto. split; auto. split; [reflexivity|].
  assert (NC : forall f, In f [ex_ts; []; [[]; []]] -> ~ nontrivial_cycle f).
  { intros f Hf C. assert (X : top_sort rev_ord (repeat rev_ord 10) (flat_vec [ex_ts; []; [[]; []]]) = None)
      by (apply (C20_cycle_refused _ _ _ f); auto using rev_ord_fair). revert X. vm_compute. discriminate. }
  repeat apply Forall_cons; try apply Forall_nil; [right|left; auto|right]; (split; [vm_compute; discriminate|split; [|split; [|apply NC; cbn; auto]]]);
    intros a Ha; cbn in Ha; intuition (subst; cbn in *; try discriminate; auto).
Qed.
Definition ex_cyc : nfsa := [[mkArc 0 1 1 0]; [mkArc 1 2 2 0; mkArc 1 3 (-1) 0]; [mkArc 2 1 3 0]; []].
Example C20_cycle_ex : nontrivial_cycle ex_cyc /\ well_formed ex_cyc /\ top_sort zrange (repeat zrange 9) (flat_vec [ex_cyc]) = None.
Proof.
  assert (C : nontrivial_cycle ex_cyc).
  { exists 1, [mkArc 1 2 2 0; mkArc 2 1 3 0], (mkArc 1 2 2 0). split; [|split; [now left|discriminate]].
    apply (path_step _ _ (mkArc 1 2 2 0)); [cbn; auto|auto|]. apply (path_step _ _ (mkArc 2 1 3 0)); [cbn; auto|auto|]. constructor. }
  split; auto. split; [apply wfb_ok; reflexivity|]. vm_compute. reflexivity.
Qed.
