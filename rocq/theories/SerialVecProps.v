(** * C14: tensor forms of FSAs and FsaVecs *)
From Coq Require Import ZArith List Lia Bool Permutation Sorting.Sorted.
From Coq Require Import ZifyBool.
From Verif Require Import Base RaggedModel RaggedSpec RaggedProofs FsaSpec FsaLemmas RaggedOpsProofs OpsModel PropsModel PropsSpec PropsProofs PropsProps LinearProofs SerialModel SerialProofs SerialProps SerialVecProofs.
Import ListNotations.
Open Scope Z_scope.

Lemma cut_tensor n x rs1 rs12 rest : 0 <= n -> zlen rs1 = n + 1 -> zlen rs12 = n + 1 ->
  let t := n :: x :: rs1 ++ rs12 ++ rest in
  firstn (Z.to_nat (n + 1)) (skipn 2 t) = rs1 /\
  firstn (Z.to_nat (n + 1)) (skipn (Z.to_nat (2 + n + 1)) t) = rs12 /\
  skipn (Z.to_nat (2 + (n + 1) * 2)) t = rest /\ zlen t = 4 + 2 * n + zlen rest.
Proof.
  intros Hn H1 H2 t. unfold t.
  assert (L1 : length rs1 = Z.to_nat (n + 1)) by (unfold zlen in H1; lia).
  assert (L2 : length rs12 = Z.to_nat (n + 1)) by (unfold zlen in H2; lia).
  split; [|split; [|split]].
  - cbn [skipn]. rewrite <- L1, firstn_app, Nat.sub_diag, firstn_all. cbn. apply app_nil_r.
  - replace (Z.to_nat (2 + n + 1)) with (2 + length rs1)%nat by lia. cbn [skipn Nat.add].
    rewrite skipn_app, skipn_all, Nat.sub_diag. cbn [skipn app]. rewrite <- L2, firstn_app, Nat.sub_diag, firstn_all. cbn. apply app_nil_r.
  - replace (Z.to_nat (2 + (n + 1) * 2)) with (2 + (length rs1 + length rs12))%nat by lia. cbn [skipn Nat.add].
    rewrite app_assoc, skipn_app, app_length, Nat.sub_diag, <- app_length, skipn_all. reflexivity.
  - rewrite !zlen_cons, !zlen_app. lia.
Qed.

Lemma shape_tensor n t : 0 <= n -> rd t 0 = Some n -> 4 + 2 * n <= zlen t ->
  exists x rs1 rs12 rest, t = n :: x :: rs1 ++ rs12 ++ rest /\ zlen rs1 = n + 1 /\ zlen rs12 = n + 1.
Proof.
  intros Hn H0 HL. destruct t as [|n' [|x t]].
  - now rewrite rd_nil in H0.
  - rewrite zlen_cons in HL. change (zlen (@nil Z)) with 0 in HL. lia.
  - rewrite rd_cons_0 in H0. injection H0 as ->. rewrite !zlen_cons in HL.
    exists x, (firstn (Z.to_nat (n + 1)) t), (firstn (Z.to_nat (n + 1)) (skipn (Z.to_nat (n + 1)) t)), (skipn (Z.to_nat (n + 1)) (skipn (Z.to_nat (n + 1)) t)).
    rewrite !firstn_skipn. split; [reflexivity|]. split; apply zlen_firstn; [lia|]. unfold zlen in *. rewrite skipn_length. lia.
Qed.

Lemma from_tensor_cut n x rs1 rs12 rest : 0 <= n -> zlen rs1 = n + 1 -> zlen rs12 = n + 1 ->
  fsa_vec_from_tensor (n :: x :: rs1 ++ rs12 ++ rest) =
  if negb (zlen rest mod 4 =? 0) then Some None else
    arcs <- ints_arcs rest;;
    b <- rd rs12 n;;
    if negb (zlen rest / 4 =? b) then Some None
    else
      v1 <- validate_row_splits rs1;;
      v2 <- (if v1 then validate_row_splits rs12 else Some false);;
      if negb v2 then Some None
      else
        num_states <- rd rs1 n;;
        ids12 <- row_splits_to_row_ids rs12 (zlen rest / 4);;
        ids2 <- mapM (fun i => f <- rd ids12 i;; s0x <- rd rs1 f;; a <- rd arcs i;; Some (s0x + src a)) (zrange (zlen rest / 4));;
        rs2 <- row_ids_to_row_splits_checked ids2 num_states;;
        v <- validate_row_splits_and_ids rs2 ids2;;
        if negb v then Some None else Some (Some (mkVec rs1 rs2 arcs)).
Proof.
  intros Hn H1 H2. destruct (cut_tensor n x rs1 rs12 rest Hn H1 H2) as (E1 & E2 & E3 & E4).
  unfold fsa_vec_from_tensor. rewrite rd_cons_0, E1, E2, E3, E4. cbv beta iota zeta.
  replace (4 + 2 * n + zlen rest - (2 + (n + 1) * 2)) with (zlen rest) by lia. pose proof (zlen_nonneg rest).
  replace ((n <? 0) || (4 + 2 * n + zlen rest <? 2 + (n + 1) * 2)) with false by lia. reflexivity.
Qed.

Lemma splits_valid {A} (ll : list (list A)) : validate_row_splits (splits_of ll) = Some true.
Proof.
  destruct (validate_row_splits_ok (splits_of ll)) as (b & E & H).
  { intros C. pose proof (zlen_splits_of ll) as L. rewrite C in L. change (zlen (@nil Z)) with 0 in L. pose proof (zlen_nonneg ll). lia. }
  rewrite E. f_equal. apply H. split.
  - rewrite rd_splits_off by (pose proof (zlen_nonneg ll); lia). now rewrite off1_0.
  - unfold splits_of. apply exsum_sorted. rewrite Forall_map, Forall_forall. intros. apply zlen_nonneg.
Qed.

Lemma from_tensor_flat x fs : Forall src_ok fs ->
  fsa_vec_from_tensor (zlen fs :: x :: splits_of fs ++ splits_of (map (@concat arc) fs) ++ concat (map arc_ints (concat (concat fs)))) = Some (Some (flat_vec fs)).
Proof.
  intros H. assert (L1 : zlen (map (@concat arc) fs) = zlen fs) by apply zlen_map. pose proof (zlen_nonneg fs).
  rewrite from_tensor_cut; [|lia|now rewrite zlen_splits_of|now rewrite zlen_splits_of, L1].
  assert (Q : concat (map (@concat arc) fs) = concat (concat fs)) by apply concat_map_concat.
  rewrite zlen_arc_ints, ints_arcs_ok. replace (4 * zlen (concat (concat fs))) with (zlen (concat (concat fs)) * 4) by lia.
  rewrite Z.mod_mul, Z.div_mul by lia. change (0 =? 0) with true. cbn [negb].
  rewrite rd_splits_off by lia. rewrite <- L1 at 1. rewrite off1_all, Q, Z.eqb_refl. cbn [negb].
  rewrite !splits_valid. cbn [negb]. rewrite rd_splits_off by lia. rewrite off1_all.
  rewrite <- Q at 1. rewrite row_ids_of_splits. rewrite make_ids2 by auto.
  rewrite checked_ok, validate_both_ok. cbn [negb]. reflexivity.
Qed.

(** C14: an FsaVec that is written as a tensor and read back is the same FsaVec
    (same states, same arcs, same order), including empty FSAs and FSAs without
    arcs; no property is needed but that every arc is stored with its source. *)
Theorem C14_vec_round_trip : forall fs, Forall src_ok fs ->
  exists t, fsa_vec_to_tensor (flat_vec fs) = Some t /\ fsa_vec_from_tensor t = Some (Some (flat_vec fs)).
Proof.
  intros fs H. unfold fsa_vec_to_tensor. unfold flat_vec at 1 2 3 4 5. cbn [v_rs1 v_rs2 v_arcs]. rewrite splits_compose.
  rewrite zlen_splits_of. replace (zlen fs + 1 - 1) with (zlen fs) by lia. eexists. split; [reflexivity|]. now apply from_tensor_flat.
Qed.
Print Assumptions C14_vec_round_trip.

(** In the tensor t, the source of every arc is a state of the FSA that the arc
    belongs to.  (Layout, fsa.h: number of FSAs n, a 0, n + 1 state offsets, n + 1
    arc offsets, four integers per arc.) *)
Definition own_states (t : list Z) : Prop :=
  forall n k s0 s1 a0 a1 i s, rd t 0 = Some n -> 0 <= k < n ->
    rd t (2 + k) = Some s0 -> rd t (2 + k + 1) = Some s1 ->
    rd t (2 + (n + 1) + k) = Some a0 -> rd t (2 + (n + 1) + k + 1) = Some a1 ->
    a0 <= i < a1 -> rd t (2 + (n + 1) * 2 + 4 * i) = Some s -> 0 <= s < s1 - s0.

Lemma rd_arc_ints arcs i a : rd arcs i = Some a -> rd (concat (map arc_ints arcs)) (4 * i) = Some (src a).
Proof.
  revert i. induction arcs as [|b arcs IH]; intros i H; [now rewrite rd_nil in H|]. cbn [map concat].
  destruct (Z.eq_dec i 0) as [-> | Hi].
  - rewrite rd_cons_0 in H. injection H as ->. destruct a. reflexivity.
  - pose proof (rd_Some_bound _ _ _ H) as B. rewrite zlen_cons in B. rewrite rd_cons in H. destruct (i =? 0) eqn:C; [lia|].
    assert (E4 : zlen (arc_ints b) = 4) by reflexivity.
    rewrite rd_app_r by (rewrite ?E4; lia). rewrite E4. replace (4 * i - 4) with (4 * (i - 1)) by lia. apply IH; auto.
Qed.

(** C14: whatever is accepted (if every arc's source is a state of its own FSA)
    has the meaning that was written: it is an FsaVec whose tensor form is t again,
    except that the unused second entry is set to 0. *)
Theorem C14_vec_accepted : forall t v, own_states t -> fsa_vec_from_tensor t = Some (Some v) ->
  exists fs, v = flat_vec fs /\ Forall src_ok fs /\
  exists t', fsa_vec_to_tensor v = Some t' /\ zlen t' = zlen t /\ forall i, i <> 1 -> rd t' i = rd t i.
Proof.
  intros t v HO HF.
  assert (SH : exists n, 0 <= n /\ rd t 0 = Some n /\ 4 + 2 * n <= zlen t).
  { unfold fsa_vec_from_tensor in HF. destruct (rd t 0) as [n|]; [|discriminate]. cbv zeta in HF. exists n.
    destruct (n <? 0) eqn:C1; [discriminate|]. destruct (zlen t <? 2 + (n + 1) * 2) eqn:C2; [discriminate|]. split; [|split; auto]; lia. }
  destruct SH as (n & Hn & H0 & HL). destruct (shape_tensor n t Hn H0 HL) as (x & rs1 & rs12 & rest & -> & L1 & L2).
  rewrite from_tensor_cut in HF by auto.
  destruct (zlen rest mod 4 =? 0) eqn:M4; [|discriminate]. cbn [negb] in HF.
  destruct (ints_arcs rest) as [arcs|] eqn:IA; [|discriminate]. apply (ints_arcs_inv (length rest)) in IA; [|lia].
  assert (HR : zlen rest = zlen arcs * 4) by (rewrite <- IA, zlen_arc_ints; lia).
  rewrite HR in HF. rewrite Z.div_mul in HF by lia.
  destruct (rd rs12 n) as [b|] eqn:Eb; [|discriminate]. destruct (zlen arcs =? b) eqn:Cb; [|discriminate]. assert (b = zlen arcs) by lia. subst b. clear Cb.
  cbn [negb] in HF.
  destruct (validate_row_splits_ok rs1) as (v1 & V1 & W1); [intros ->; change (zlen (@nil Z)) with 0 in L1; lia|].
  destruct (validate_row_splits_ok rs12) as (v2 & V2 & W2); [intros ->; change (zlen (@nil Z)) with 0 in L2; lia|].
  rewrite V1 in HF. destruct v1; [|discriminate]. rewrite V2 in HF. destruct v2; [|discriminate]. cbn [negb] in HF.
  destruct (proj1 W1 eq_refl) as (Z1 & S1). destruct (proj1 W2 eq_refl) as (Z2 & S2). clear W1 W2.
  destruct (sorted_exsum rs1 Z1 S1) as (sz1 & P1 & ->). destruct (sorted_exsum rs12 Z2 S2) as (sz2 & P2 & ->).
  rewrite zlen_exsum in L1, L2. assert (LZ1 : zlen sz1 = n) by lia. assert (LZ2 : zlen sz2 = n) by lia.
  rewrite rd_exsum in Eb by lia. injection Eb as Eb.
  assert (FA : forall s : list Z, zlen s = n -> firstn (Z.to_nat n) s = s) by (intros s <-; unfold zlen; now rewrite Nat2Z.id, firstn_all).
  rewrite FA in Eb by auto.
  destruct (cut_sizes sz2 P2 arcs Eb) as (aa & A1 & A2).
  assert (E12 : exsum sz2 = splits_of aa) by (unfold splits_of; now rewrite A2).
  assert (LA : zlen aa = n) by (rewrite <- LZ2, <- A2, zlen_map; lia).
  rewrite E12 in HF. rewrite rd_exsum in HF by lia. rewrite FA in HF by auto.
  rewrite <- A1 in HF at 1. rewrite row_ids_of_splits in HF.
  destruct (mapM _ (zrange (zlen arcs))) as [ids2|] eqn:M2; [|discriminate].
  destruct (row_ids_to_row_splits_checked ids2 (zsum sz1)) as [rs2|] eqn:R2; [|discriminate].
  destruct (validate_row_splits_and_ids rs2 ids2) as [vv|]; [|discriminate]. destruct vv; [|discriminate]. cbn [negb] in HF. injection HF as <-.
  (* states of each FSA *)
  assert (OWN : forall k row a, rd aa k = Some row -> In a row -> 0 <= src a < match rd sz1 k with Some z => z | None => 0 end).
  { intros k row a Hk Ha. pose proof (rd_Some_bound _ _ _ Hk) as Bk. apply In_rd in Ha. destruct Ha as (j & Bj & Ha).
    destruct (rd_in_bound sz1 k) as (z & Ez); [lia|]. rewrite Ez.
    destruct (rd_concat_off aa k row j a Hk Ha) as (Q1 & Q2). rewrite A1 in Q1.
    replace z with (zsum (firstn (Z.to_nat (k + 1)) sz1) - zsum (firstn (Z.to_nat k) sz1)).
    2:{ replace (Z.to_nat (k + 1)) with (S (Z.to_nat k)) by lia. clear -Ez Bk. unfold rd in Ez. destruct (k <? 0) eqn:?; [lia|].
        revert Ez. generalize (Z.to_nat k). clear. intros m. revert sz1. induction m as [|m IH]; intros [|y s]; cbn; try discriminate.
        - intros [= ->]. lia.
        - intros H. specialize (IH _ H). cbn in IH. lia. }
    eapply (HO n k (zsum (firstn (Z.to_nat k) sz1)) (zsum (firstn (Z.to_nat (k + 1)) sz1)) (off1 aa k) (off1 aa (k + 1)) (off1 aa k + j)); auto.
    - lia.
    - replace (2 + k) with (k + 1 + 1) by lia. rewrite !rd_cons_S by lia. rewrite rd_app_l by (rewrite zlen_exsum; lia). apply rd_exsum. lia.
    - replace (2 + k + 1) with (k + 1 + 1 + 1) by lia. rewrite !rd_cons_S by lia. rewrite rd_app_l by (rewrite zlen_exsum; lia). apply rd_exsum. lia.
    - replace (2 + (n + 1) + k) with (n + 1 + k + 1 + 1) by lia. rewrite !rd_cons_S by lia. rewrite rd_app_r by (rewrite zlen_exsum; lia).
      rewrite zlen_exsum. replace (n + 1 + k - (zlen sz1 + 1)) with k by lia. rewrite rd_app_l by (rewrite zlen_exsum; lia). rewrite E12. apply rd_splits_off. lia.
    - replace (2 + (n + 1) + k + 1) with (n + 1 + (k + 1) + 1 + 1) by lia. rewrite !rd_cons_S by lia. rewrite rd_app_r by (rewrite zlen_exsum; lia).
      rewrite zlen_exsum. replace (n + 1 + (k + 1) - (zlen sz1 + 1)) with (k + 1) by lia. rewrite rd_app_l by (rewrite zlen_exsum; lia). rewrite E12. apply rd_splits_off. lia.
    - rewrite (off1_next aa k row) by auto. lia.
    - pose proof (off1_nonneg aa k).
      replace (2 + (n + 1) * 2 + 4 * (off1 aa k + j)) with (zlen (exsum sz1) + (zlen (exsum sz2) + 4 * (off1 aa k + j)) + 1 + 1) by (rewrite !zlen_exsum; lia).
      rewrite !rd_cons_S by (rewrite !zlen_exsum; lia). rewrite rd_app_r by (rewrite !zlen_exsum; lia).
      replace (zlen (exsum sz1) + (zlen (exsum sz2) + 4 * (off1 aa k + j)) - zlen (exsum sz1)) with (zlen (exsum sz2) + 4 * (off1 aa k + j)) by lia.
      rewrite rd_app_r by (rewrite !zlen_exsum; lia). replace (zlen (exsum sz2) + 4 * (off1 aa k + j) - zlen (exsum sz2)) with (4 * (off1 aa k + j)) by lia.
      rewrite <- IA. apply rd_arc_ints. exact Q1. }
  assert (SRT : StronglySorted Z.le ids2).
  { unfold row_ids_to_row_splits_checked in R2. repeat match goal with H : (if ?c then _ else None) = Some _ |- _ => destruct c; [|discriminate] end.
    destruct (if 0 <? zlen ids2 then _ else _) as [[|]|]; try discriminate. eapply row_splits_sorted; eauto. }
  (* arcs sorted inside each FSA *)
  assert (GRP : forall k row z, rd aa k = Some row -> rd sz1 k = Some z -> exists f, zlen f = z /\ concat f = row /\ src_ok f).
  { intros k row z Hk Hz. pose proof (rd_Some_bound _ _ _ Hk) as Bk.
    assert (Pz : 0 <= z) by (rewrite Forall_forall in P1; apply P1; eapply rd_In; eauto).
    destruct (group_sorted src (Z.to_nat z) row) as (f & F1 & F2 & F3).
    - apply (sorted_adjacent (fun a b => src a <= src b)); [intros; lia|]. intros j a b Hj Ha Hb.
      destruct (rd_concat_off aa k row (j - 1) a Hk Ha) as (U1 & U2). destruct (rd_concat_off aa k row j b Hk Hb) as (U3 & U4). rewrite A1 in U1, U3.
      assert (G : forall i c, rd arcs i = Some c -> rd (ids_of aa) i = Some k -> rd ids2 i = Some (zsum (firstn (Z.to_nat k) sz1) + src c)).
      { intros i c Hi Hid. pose proof (rd_Some_bound _ _ _ Hi). assert (ML : zlen ids2 = zlen (zrange (zlen arcs))) by (unfold zlen at 1 2; f_equal; exact (mapM_length _ _ _ M2)). rewrite zlen_zrange in ML by lia.
        destruct (rd_in_bound ids2 i) as (y & Hy); [lia|]. rewrite Hy. destruct (mapM_rd _ _ _ _ _ M2 Hy) as (w & W1 & W2).
        rewrite rd_zrange in W1 by lia. injection W1 as <-. rewrite Hid in W2. rewrite rd_exsum in W2 by lia. rewrite Hi in W2. now rewrite <- W2. }
      pose proof (proj1 (sorted_adjacent Z.le Z.le_trans ids2) SRT (off1 aa k + j) _ _ ltac:(pose proof (off1_nonneg aa k); lia)
        (eq_trans (f_equal (rd ids2) (eq_sym (Z.add_sub_assoc (off1 aa k) j 1))) (G _ _ U1 U2)) (G _ _ U3 U4)) as X. lia.
    - rewrite Forall_forall. intros a Ha. specialize (OWN k row a Hk Ha). rewrite Hz in OWN. lia.
    - exists f. rewrite F1. split; [lia|]. auto. }
  assert (BLD : exists fs, map zlen fs = sz1 /\ map (@concat arc) fs = aa /\ Forall src_ok fs).
  { clear -GRP LZ1 LA. revert sz1 n LZ1 LA GRP. induction aa as [|row aa IH]; intros sz1 n LZ1 LA GRP.
    - assert (sz1 = []) by (apply zlen_0_nil; change (zlen (@nil (list arc))) with 0 in LA; lia). subst. exists []. auto.
    - rewrite zlen_cons in LA. pose proof (zlen_nonneg aa). destruct sz1 as [|z sz1]; [change (zlen (@nil Z)) with 0 in LZ1; lia|]. rewrite zlen_cons in LZ1.
      destruct (IH sz1 (n - 1)) as (fs & F1 & F2 & F3); [lia|lia| |].
      + intros k r z' Hr Hz. pose proof (rd_Some_bound _ _ _ Hr). apply (GRP (k + 1)); rewrite rd_cons_S by lia; auto.
      + destruct (GRP 0 row z) as (f & G1 & G2 & G3); [apply rd_cons_0|apply rd_cons_0|]. exists (f :: fs). cbn. rewrite G1, G2, F1, F2. auto. }
  destruct BLD as (fs & F1 & F2 & F3).
  assert (E1 : exsum sz1 = splits_of fs) by (unfold splits_of; now rewrite F1).
  assert (EA : concat (concat fs) = arcs) by (rewrite <- A1, <- F2; symmetry; apply concat_map_concat).
  assert (LF : zlen fs = n) by (rewrite <- LZ1, <- F1, zlen_map; lia).
  assert (EI : ids2 = ids_of (concat fs)).
  { pose proof (make_ids2 fs F3) as Q. rewrite EA, F2, <- E1 in Q. congruence. }
  assert (ER : rs2 = splits_of (concat fs)).
  { pose proof (checked_ok (concat fs)) as Q. rewrite <- EI in Q. replace (zlen (concat fs)) with (zsum sz1) in Q; [congruence|].
    rewrite <- F1. clear. induction fs as [|f fs IH]; [reflexivity|]. cbn. rewrite zlen_app. lia. }
  exists fs. unfold flat_vec. rewrite ER, E1, EA. split; [reflexivity|]. split; auto.
  unfold fsa_vec_to_tensor. cbn [v_rs1 v_rs2 v_arcs]. rewrite splits_compose, F2, <- E12. eexists. split; [reflexivity|].
  rewrite IA. rewrite <- E1. rewrite zlen_exsum, LZ1. replace (n + 1 - 1) with n by lia. split; [rewrite !zlen_cons; lia|].
  intros i Hi. rewrite !rd_cons. destruct (i =? 0) eqn:C; auto. destruct (i - 1 =? 0) eqn:C2; auto. lia.
Qed.
Print Assumptions C14_vec_accepted.

Definition fs14 : list nfsa := [[[mkArc 0 1 5 70; mkArc 0 1 (-1) 71]; []]; []; [[mkArc 0 1 3 72]; [mkArc 1 2 (-1) 73]; []]].
Definition t14 : list Z := [3; 0; 0; 2; 2; 5; 0; 2; 2; 4; 0; 1; 5; 70; 0; 1; -1; 71; 0; 1; 3; 72; 1; 2; -1; 73].
Example C14_vec_ex : Forall src_ok fs14 /\ fsa_vec_to_tensor (flat_vec fs14) = Some t14 /\ own_states t14 /\
  fsa_vec_from_tensor t14 = Some (Some (flat_vec fs14)).
Proof.
  split; [|split; [reflexivity|split; [|reflexivity]]].
  - repeat constructor; intros i st a H Ha.
    + assert (i = 0 \/ i = 1) as [-> | ->] by (apply rd_Some_bound in H; change (zlen _) with 2 in H; lia);
      injection H as <-; in_list; subst; auto.
    + now rewrite rd_nil in H.
    + assert (i = 0 \/ i = 1 \/ i = 2) as [-> | [-> | ->]] by (apply rd_Some_bound in H; change (zlen _) with 3 in H; lia);
      injection H as <-; in_list; subst; auto.
  - intros n k s0 s1 a0 a1 i s H0 Hk. injection H0 as <-.
    assert (k = 0 \/ k = 1 \/ k = 2) as [-> | [-> | ->]] by lia; intros [= <-] [= <-] [= <-] [= <-] Hi Hs.
    + assert (i = 0 \/ i = 1) as [-> | ->] by lia; injection Hs as <-; lia.
    + lia.
    + assert (i = 2 \/ i = 3) as [-> | ->] by lia; injection Hs as <-; lia.
Qed.

(** C14, refuted: a tensor whose first arc claims a source state that its FSA does
    not have is accepted, and the arc becomes an arc of the next FSA. *)
Theorem C14_malformed_refuted : exists t v t', fsa_vec_from_tensor t = Some (Some v) /\ ~ own_states t /\
  fsa_vec_to_tensor v = Some t' /\ rd t 6 = Some 1 /\ rd t' 6 = Some 0.
Proof.
  exists [2; 0; 0; 2; 4; 0; 1; 2; 2; 1; -1; 70; 0; 1; -1; 71].
  eexists. eexists. split; [vm_compute; reflexivity|]. split; [|split; [reflexivity|split; reflexivity]].
  intros H. specialize (H 2 0 0 2 0 1 0 2 eq_refl ltac:(lia) eq_refl eq_refl eq_refl eq_refl ltac:(lia) eq_refl). lia.
Qed.
Print Assumptions C14_malformed_refuted.

(** ** Single FSAs *)
Lemma rows_back arcs : mapM ints_arc (map arc_ints arcs) = Some arcs.
Proof. induction arcs as [|[s d l x] arcs IH]; cbn; auto. now rewrite IH. Qed.
Lemma rows_inv t : forall arcs, mapM ints_arc t = Some arcs -> map arc_ints arcs = t.
Proof.
  induction t as [|r t IH]; intros arcs; cbn; [intros [= <-]; reflexivity|].
  destruct r as [|s [|d [|l [|x [|? ?]]]]]; cbn; try discriminate. destruct (mapM ints_arc t); [|discriminate]. intros [= <-]. cbn. now rewrite IH.
Qed.

Lemma keyed_src_sorted f : src_ok f -> StronglySorted (fun a b => src a <= src b) (concat f).
Proof. intros H. apply (keyed_sorted src). exact H. Qed.

(** C14: a valid FSA with at least two states and a final arc comes back from its
    tensor (any interleaving of the threads). *)
Theorem C14_fsa_round_trip : forall ev sched f,
  p_valid f -> 2 <= nstates f -> (exists a, In a (all_arcs f) /\ lab a = -1) ->
  interleaving (zlen (all_arcs f)) ev -> is_sched (zlen (all_arcs f)) sched ->
  fsa_from_tensor ev sched 4 (fsa_to_tensor (flat f)) = Some (Some (flat f)).
Proof.
  intros ev sched f HV H2 (a & Ha & La) HI HS. unfold fsa_from_tensor. change (4 =? 4) with true. cbn [negb].
  unfold fsa_to_tensor, flat at 1. cbn [arcs]. rewrite rows_back. fold (all_arcs f) in *.
  apply C53_fsa_from_array1; auto.
  { intros C. unfold all_arcs in *. rewrite C in Ha. destruct Ha. }
  exists (nstates f - 1), f. unfold nstates in *.
  pose proof (proj1 (p_valid_arcs f (zlen f - 1) ltac:(lia)) HV) as (HO & HA). fold (all_arcs f) in HA.
  split; [|split; [|split; [reflexivity|split; [reflexivity|split; [unfold nstates; lia|auto]]]]].
  - split; [lia|]. right. split; auto. exists a. split; auto. split; auto. now apply (HA a Ha).
  - split; [now apply keyed_src_sorted|]. intros b Hb. specialize (HA b Hb). split; [|auto].
    unfold all_arcs in Hb. apply in_concat in Hb. destruct Hb as (st & Hst & Hb). apply In_rd in Hst. destruct Hst as (i & Bi & Hst).
    rewrite (HO i st b Hst Hb). lia.
Qed.
Print Assumptions C14_fsa_round_trip.

(** C14: what FsaFromTensor accepts has four columns and writes out as the same
    rows; it is a valid FSA. *)
Theorem C14_fsa_accepted : forall ev sched cols t f,
  interleaving (zlen t) ev -> is_sched (zlen t) sched ->
  fsa_from_tensor ev sched cols t = Some (Some f) ->
  cols = 4 /\ fsa_to_tensor f = t /\ exists nf, f = flat nf /\ p_valid nf /\ 2 <= nstates nf.
Proof.
  intros ev sched cols t f HI HS. unfold fsa_from_tensor. destruct (cols =? 4) eqn:C; [|discriminate]. cbn [negb].
  destruct (mapM ints_arc t) as [arcs|] eqn:M; [|discriminate]. apply rows_inv in M.
  assert (L : zlen arcs = zlen t) by (rewrite <- M, zlen_map; reflexivity).
  intros H. assert (N : arcs <> []).
  { intros ->. cbn in H. discriminate. }
  apply C53_fsa_from_array1 in H; try rewrite L; auto.
  destruct H as (F & nf & (P & HC) & (A1 & A2) & -> & H1 & H2 & H3). split; [lia|]. unfold nstates in *. split.
  - unfold fsa_to_tensor, flat. cbn [FsaSpec.arcs]. now rewrite H1.
  - exists nf. split; auto. split; [|lia]. apply (p_valid_arcs nf F); auto. split; auto. rewrite H1. intros a Ha. specialize (A2 a Ha). tauto.
Qed.
Print Assumptions C14_fsa_accepted.

Definition f14 : nfsa := [[mkArc 0 1 3 5; mkArc 0 2 (-1) 6]; [mkArc 1 1 0 7; mkArc 1 2 (-1) 8]; []].
Example C14_fsa_ex : p_valid f14 /\ 2 <= nstates f14 /\ (exists a, In a (all_arcs f14) /\ lab a = -1) /\
  interleaving (zlen (all_arcs f14)) ev53 /\ is_sched (zlen (all_arcs f14)) [2; 0; 3; 1] /\
  fsa_to_tensor (flat f14) = [[0; 1; 3; 5]; [0; 2; -1; 6]; [1; 1; 0; 7]; [1; 2; -1; 8]].
Proof.
  split; [|split; [vm_compute; discriminate|split; [|split; [exact (proj1 C53_ex)|split; [|reflexivity]]]]].
  - apply (p_valid_arcs f14 2 eq_refl). split.
    + intros i st a H Ha. assert (i = 0 \/ i = 1 \/ i = 2) as [-> | [-> | ->]] by (apply rd_Some_bound in H; change (zlen _) with 3 in H; lia);
      injection H as <-; in_list; subst; auto.
    + apply (proj1 (proj2 (proj2 C53_ex))).
  - exists (mkArc 0 2 (-1) 6). cbn. auto.
  - apply Permutation_sym. change (zrange (zlen (all_arcs f14))) with [0; 1; 2; 3].
    apply (Permutation_trans (l' := [0; 2; 1; 3])).
    + repeat constructor.
    + apply (Permutation_trans (l' := [2; 0; 1; 3])); [constructor|]. do 2 constructor. apply perm_swap.
Qed.

(** C14, refuted: a valid FSA without a final arc does not come back. *)
Theorem C14_no_final_arc_refuted : exists f, p_valid f /\ 2 <= nstates f /\
  fsa_from_tensor [(false, 0); (true, 0)] [0] 4 (fsa_to_tensor (flat f)) = Some None.
Proof.
  exists [[mkArc 0 1 5 7]; []; []]. split; [|split; [vm_compute; discriminate|reflexivity]].
  apply (p_valid_arcs [[mkArc 0 1 5 7]; []; []] 2 eq_refl). split.
  - intros i st a H Ha. assert (i = 0 \/ i = 1 \/ i = 2) as [-> | [-> | ->]] by (apply rd_Some_bound in H; change (zlen _) with 3 in H; lia);
      injection H as <-; in_list; subst; auto.
  - intros a [<- | []]. cbn. lia.
Qed.
Print Assumptions C14_no_final_arc_refuted.

(** C53, refuted: fsa.h says that without arcs labelled -1 the final state is the
    highest state plus one; the code reports an error. *)
Theorem C53_no_final_arcs_refuted : exists arcs, StronglySorted (fun a b => src a <= src b) arcs /\
  (forall a, In a arcs -> 0 <= src a < 2 /\ 0 <= dst a < 2 /\ 0 <= lab a) /\
  forall ev sched, interleaving (zlen arcs) ev -> is_sched (zlen arcs) sched -> fsa_from_array1 ev sched arcs (-1) = Some None.
Proof.
  exists [mkArc 0 1 5 7; mkArc 1 1 4 8]. split; [repeat constructor; cbn; lia|]. split.
  - intros a [<- | [<- | []]]; cbn; lia.
  - intros ev sched HI HS. destruct (misc_ok _ ev HI) as (fin & flag & E1 & E2 & E3). unfold fsa_from_array1. cbn [andb].
    change (zlen _ =? 0) with false. cbn [andb]. rewrite E1. destruct E2 as [(a & [<- | [<- | []]] & H2 & _)|(_ & ->)]; try discriminate.
    destruct (flag =? 0); reflexivity.
Qed.
Print Assumptions C53_no_final_arcs_refuted.
(** C53, refuted: an FSA with an arc that leaves the final state is accepted. *)
Theorem C53_leaving_final_refuted : exists arcs f, fsa_from_array1 [(false, 0); (false, 1); (true, 0); (true, 1)] [0; 1] arcs (-1) = Some (Some f) /\
  exists a b, In a arcs /\ lab a = -1 /\ In b arcs /\ src b = dst a.
Proof.
  exists [mkArc 0 1 (-1) 5; mkArc 1 0 7 6]. eexists. split; [vm_compute; reflexivity|].
  exists (mkArc 0 1 (-1) 5), (mkArc 1 0 7 6). cbn. repeat split; auto.
Qed.
Print Assumptions C53_leaving_final_refuted.
(** C53, refuted: a source state beyond the final state is no clean error; the
    offsets no longer fit the arcs (out-of-bounds accesses follow). *)
Theorem C53_out_of_range_refuted : fsa_from_array1 [(false, 0); (false, 1); (true, 0); (true, 1)] [0; 1] [mkArc 0 1 (-1) 5; mkArc 3 1 (-1) 6] (-1) = None.
Proof. reflexivity. Qed.
Print Assumptions C53_out_of_range_refuted.
