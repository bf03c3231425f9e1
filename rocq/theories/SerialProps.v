(** * C53: FsaFromArray1, C14: tensor forms of FSAs *)
From Coq Require Import ZArith List Lia Bool Permutation Sorting.Sorted.
From Coq Require Import ZifyBool.
From Verif Require Import Base RaggedModel RaggedSpec RaggedProofs FsaSpec FsaLemmas RaggedOpsProofs OpsModel PropsModel PropsSpec PropsProofs PropsProps SerialModel SerialProofs.
Import ListNotations.
Open Scope Z_scope.

(** ** C53 *)
(** The arcs can be those of a valid FSA with states 0 .. F: sorted by source
    state, all states in range, and -1 on exactly the arcs to F. *)
Definition arcs_ok (F : Z) (arcs : list arc) : Prop :=
  StronglySorted (fun a b => src a <= src b) arcs /\
  forall a, In a arcs -> 0 <= src a <= F /\ 0 <= dst a <= F /\ -1 <= lab a /\ (lab a = -1 <-> dst a = F).
(** The final state: as requested, or if nothing is requested (-1) where some
    arc with label -1 goes. *)
Definition final_choice (final_state F : Z) (arcs : list arc) : Prop :=
  0 < F /\ (final_state = F \/ final_state = -1 /\ exists a, In a arcs /\ lab a = -1 /\ dst a = F).

Lemma valid_nonempty p : Z.land p (Z.lor kValid kNonempty) =? Z.lor kValid kNonempty = true <-> has p 0x01 /\ has p 0x02.
Proof.
  change (Z.lor kValid kNonempty) with 3. rewrite Z.eqb_eq.
  rewrite (has_pow p 0) by lia. rewrite (has_pow p 1) by lia.
  replace 3 with (Z.ones 2) by reflexivity. split.
  - intros H. split; pose proof (f_equal (fun z => Z.testbit z 0) H) as H0; pose proof (f_equal (fun z => Z.testbit z 1) H) as H1; cbn beta in *;
    rewrite Z.land_spec in *; rewrite !Z.ones_spec_low in * by lia; rewrite !andb_true_r in *; auto.
  - intros (H0 & H1). apply Z.bits_inj'. intros n Hn. rewrite Z.land_spec. destruct (Z_lt_ge_dec n 2).
    + rewrite Z.ones_spec_low by lia. rewrite andb_true_r. assert (n = 0 \/ n = 1) as [-> | ->] by lia; auto.
    + rewrite Z.ones_spec_high by lia. apply andb_false_r.
Qed.

Lemma p_valid_arcs nf F : zlen nf = F + 1 -> (p_valid nf <-> src_ok nf /\ forall a, In a (concat nf) -> 0 <= dst a <= F /\ -1 <= lab a /\ (lab a = -1 <-> dst a = F)).
Proof.
  intros H. unfold p_valid, nstates, final, all_arcs. rewrite H. replace (F + 1 - 1) with F by lia.
  split; intros (H1 & H2); split; auto; intros a Ha; specialize (H2 a Ha); split; tauto || lia.
Qed.

(** C53: for an array of arcs and any interleaving of the threads that look for
    the final state, FsaFromArray1 returns an FSA exactly when the arcs and the
    final state fit together; the FSA has states 0 .. F, its arcs are the array in
    its order, and every arc is stored with its source state. *)
Theorem C53_fsa_from_array1 : forall ev sched arcs final_state f,
  arcs <> [] -> interleaving (zlen arcs) ev -> is_sched (zlen arcs) sched ->
  (fsa_from_array1 ev sched arcs final_state = Some (Some f) <->
   exists F nf, final_choice final_state F arcs /\ arcs_ok F arcs /\
     f = flat nf /\ concat nf = arcs /\ nstates nf = F + 1 /\ src_ok nf).
Proof.
  intros ev sched arcs final_state f Hne HI HS.
  destruct (misc_ok arcs ev HI) as (fin & flag & E1 & E2 & E3).
  assert (N0 : zlen arcs =? 0 = false).
  { destruct arcs; [congruence|]. rewrite zlen_cons. pose proof (zlen_nonneg arcs). lia. }
  destruct (validate_row_ids_ok (map src arcs)) as (vb & E4 & E5).
  unfold fsa_from_array1. rewrite N0, E1. rewrite !andb_false_r. cbn [andb]. cbv beta iota zeta.
  (* the part after the choice of the final state *)
  assert (K : forall F, 0 < F ->
    (v <- validate_row_ids (map src arcs);;
      if negb v then Some None
      else
        rs <- row_ids_to_row_splits (map src arcs) (F + 1);;
        back <- rd rs (F + 1);;
        check (back =? zlen arcs);;
        p <- fsa_props sched (mkFsa rs arcs);;
        if Z.land p (Z.lor kValid kNonempty) =? Z.lor kValid kNonempty then Some (Some (mkFsa rs arcs))
        else Some None) = Some (Some f) <->
    arcs_ok F arcs /\ exists nf, f = flat nf /\ concat nf = arcs /\ nstates nf = F + 1 /\ src_ok nf).
  { intros F HF. rewrite E4.
    assert (KG : forall nf, concat nf = arcs -> nstates nf = F + 1 -> src_ok nf ->
       row_ids_to_row_splits (map src arcs) (F + 1) = Some (splits_of nf) /\ rd (splits_of nf) (F + 1) = Some (zlen arcs) /\
       exists p, fsa_props sched (mkFsa (splits_of nf) arcs) = Some p /\
        (Z.land p (Z.lor kValid kNonempty) =? Z.lor kValid kNonempty = true <->
         forall a, In a arcs -> 0 <= dst a <= F /\ -1 <= lab a /\ (lab a = -1 <-> dst a = F))).
    { intros nf G1 G2 G3. unfold nstates in G2. split; [|split].
      - rewrite <- G1, <- G2, <- keyed_ids by exact G3. apply splits_of_row_ids.
      - rewrite <- G1, <- G2. rewrite rd_splits_off by (pose proof (zlen_nonneg nf); lia). now rewrite off1_all.
      - destruct (C15_property_bits_single sched nf) as (p & P1 & _ & P2); [rewrite G1; exact HS|].
        unfold flat in P1. rewrite G1 in P1. exists p. split; auto. rewrite valid_nonempty.
        destruct P2 as (P2 & P3 & _). rewrite P2, P3. rewrite (p_valid_arcs nf F) by lia. rewrite G1. split; [tauto|].
        intros H. split; [split; auto|]. unfold p_nonempty, all_arcs. rewrite G1. destruct arcs as [|a arcs']; [congruence|]. exists a. now left. }
    split.
    - destruct vb; cbn [negb]; [|discriminate]. destruct (proj1 E5 eq_refl) as (S1 & S2). apply (sorted_map src) in S1.
      destruct (row_ids_to_row_splits (map src arcs) (F + 1)) as [rs|] eqn:R; [|discriminate].
      destruct (rd rs (F + 1)) as [back|] eqn:Bk; [|discriminate]. destruct (back =? zlen arcs) eqn:Q; [|discriminate].
      assert (BD : forall x, In x (map src arcs) -> x < F + 1).
      { eapply row_splits_back; eauto. rewrite zlen_map. lia. }
      destruct (group_sorted src (Z.to_nat (F + 1)) arcs S1) as (nf & L1 & L2 & L3).
      { rewrite Forall_forall in *. intros a Ha. specialize (S2 (src a) (in_map _ _ _ Ha)). specialize (BD (src a) (in_map _ _ _ Ha)). cbn in S2. lia. }
      rewrite Z2Nat.id in L1 by lia.
      destruct (KG nf L2 L1 L3) as (K1 & K2 & p & K3 & K4).
      assert (rs = splits_of nf) by congruence. subst rs. rewrite K3.
      destruct (_ =? Z.lor kValid kNonempty) eqn:V; [|discriminate]. intros [= <-]. specialize (proj1 K4 eq_refl) as K5. split.
      + split; auto. intros a Ha. specialize (K5 a Ha). rewrite Forall_forall in S2.
        specialize (S2 (src a) (in_map _ _ _ Ha)). specialize (BD (src a) (in_map _ _ _ Ha)). cbn in S2. split; [lia|tauto].
      + exists nf. unfold flat. rewrite L2. auto.
    - intros ((A1 & A2) & nf & G0 & G1 & G2 & G3). destruct (KG nf G1 G2 G3) as (K1 & K2 & p & K3 & K4).
      rewrite (proj2 E5). 2:{ split; [now apply sorted_map|]. rewrite Forall_map, Forall_forall. intros a Ha. apply A2; auto. }
      cbn [negb]. rewrite K1, K2, Z.eqb_refl, K3. rewrite (proj2 K4) by (intros a Ha; specialize (A2 a Ha); tauto).
      rewrite G0. unfold flat. now rewrite G1. }
  assert (FN : forall F, arcs_ok F arcs -> (fin = F \/ fin = -1) /\ flag = -1).
  { intros F (_ & A). split.
    - destruct E2 as [(a & H1 & H2 & H3)|(_ & H)]; auto. left. subst fin. apply A; auto.
    - apply E3. intros a b Ha Hb La Lb. destruct (A a Ha) as (_ & _ & _ & H1). destruct (A b Hb) as (_ & _ & _ & H2). rewrite (proj1 H1), (proj1 H2); auto. }
  split.
  - destruct (flag =? 0) eqn:Fl; [discriminate|]. destruct ((fin <=? 0) && (final_state <=? 0)) eqn:C; [discriminate|].
    set (fs := if negb (fin <=? 0) && (final_state =? -1) then fin else final_state).
    destruct (fin <=? fs) eqn:C2; [|discriminate]. intros H.
    assert (P : 0 < fs) by (unfold fs in *; clear -C C2; destruct (negb (fin <=? 0) && (final_state =? -1)) eqn:?; lia).
    apply (K fs P) in H. destruct H as (HA & nf & H1 & H2 & H3 & H4). exists fs, nf. split; [|auto].
    split; auto. unfold fs. destruct (negb (fin <=? 0) && (final_state =? -1)) eqn:D; auto. right. split; [lia|].
    destruct E2 as [(a & A1 & A2 & A3)|(_ & A)]; [exists a; auto|lia].
  - intros (F & nf & (P & HC) & HA & HF). destruct (FN F HA) as (Hfin & ->). change (-1 =? 0) with false. cbv iota.
    assert (Hfs : fin <= F /\ (fin <=? 0) && (final_state <=? 0) = false /\ (if negb (fin <=? 0) && (final_state =? -1) then fin else final_state) = F).
    { destruct HC as [-> | (-> & a & A1 & A2 & A3)].
      - destruct Hfin as [-> | ->]; [|repeat split; lia]. replace (F <=? 0) with false by lia. cbn [andb negb]. replace (F =? -1) with false by lia. lia.
      - assert (fin = F).
        { destruct E2 as [(b & B1 & B2 & B3)|(B & _)]; [|now destruct (B a)]. subst fin. apply HA; auto. }
        subst fin. replace (F <=? 0) with false by lia. change (-1 =? -1) with true. cbn [negb andb]. lia. }
    destruct Hfs as (Hle & -> & Hf). rewrite Hf. replace (fin <=? F) with true by lia.
    apply K; auto. split; auto. exists nf. exact HF.
Qed.
Print Assumptions C53_fsa_from_array1.

(** C53: so it succeeds iff the arcs are acceptable for some final state. *)
Theorem C53_succeeds_iff : forall ev sched arcs final_state,
  arcs <> [] -> interleaving (zlen arcs) ev -> is_sched (zlen arcs) sched ->
  ((exists f, fsa_from_array1 ev sched arcs final_state = Some (Some f)) <->
   exists F, final_choice final_state F arcs /\ arcs_ok F arcs).
Proof.
  intros ev sched arcs fs Hne HI HS. split.
  - intros (f & H). apply C53_fsa_from_array1 in H; auto. destruct H as (F & nf & H1 & H2 & _). eauto.
  - intros (F & (P & HC) & (A1 & A2)). destruct (group_sorted src (Z.to_nat (F + 1)) arcs A1) as (nf & L1 & L2 & L3).
    { rewrite Forall_forall. intros a Ha. specialize (A2 a Ha). lia. }
    rewrite Z2Nat.id in L1 by lia. exists (flat nf). apply C53_fsa_from_array1; auto. exists F, nf.
    split; [split; auto|]. split; [split; auto|]. auto.
Qed.
Print Assumptions C53_succeeds_iff.

(** No arcs: an error without a requested final state; with one, an FSA without
    any state. *)
Theorem C53_no_arcs : forall final_state sched,
  fsa_from_array1 [] sched [] final_state = Some (if 0 <? final_state then Some (mkFsa [0] []) else None).
Proof.
  intros fs sched. unfold fsa_from_array1. change (zlen (@nil arc) =? 0) with true. cbn [andb].
  destruct (fs =? -1) eqn:E; [now replace (0 <? fs) with false by lia|].
  change (lambda_misc [] []) with (Some (-1, -1)). cbv beta iota. change (-1 =? 0) with false. change (-1 <=? 0) with true. cbn [andb].
  destruct (fs <=? 0) eqn:G; [now replace (0 <? fs) with false by lia|now replace (0 <? fs) with true by lia].
Qed.
Print Assumptions C53_no_arcs.

Definition arcs53 : list arc := [mkArc 0 1 3 5; mkArc 0 2 (-1) 6; mkArc 1 1 0 7; mkArc 1 2 (-1) 8].
Definition ev53 : list (bool * Z) := [(false, 3); (false, 1); (true, 1); (false, 0); (true, 3); (false, 2); (true, 2); (true, 0)].
Ltac in_list := repeat match goal with H : In _ (_ :: _) |- _ => destruct H as [H|H] | H : In _ [] |- _ => destruct H end.
Example C53_ex : interleaving (zlen arcs53) ev53 /\ final_choice (-1) 2 arcs53 /\ arcs_ok 2 arcs53 /\
  fsa_from_array1 ev53 [2; 0; 3; 1] arcs53 (-1) = Some (Some (mkFsa [0; 2; 4; 4] arcs53)).
Proof.
  split; [|split; [|split]].
  - change (zlen arcs53) with 4. split; [|split].
    + intros b i H. unfold ev53 in H. in_list; injection H as <- <-; lia.
    + intros i Hi. assert (i = 0 \/ i = 1 \/ i = 2 \/ i = 3) as [-> | [-> | [-> | ->]]] by lia; cbn; tauto.
    + intros i l1 l2. unfold ev53. do 8 (destruct l1 as [|? l1]; [cbn; intros H; try discriminate H; injection H as <-; intros;
        cbn; tauto|cbn [app]; intros H; injection H as <- H]; revert H). destruct l1; cbn; discriminate.
  - split; [lia|]. right. split; auto. exists (mkArc 0 2 (-1) 6). cbn. auto.
  - split; [unfold arcs53; repeat constructor; cbn; lia|].
    intros a Ha. unfold arcs53 in Ha. in_list; subst a; cbn; lia.
  - vm_compute. reflexivity.
Qed.
