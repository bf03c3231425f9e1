(** * Properties C06 (row_splits / row_ids) and C50 (Renumbering). *)
From Coq Require Import ZArith List Lia Bool Permutation.
From Coq Require Import ZifyBool ZifyNat.
From Verif Require Import Base RaggedModel RaggedSpec RaggedProofs.
Import ListNotations.
Open Scope Z_scope.

(** C06: every element gets the one row whose interval contains it. *)
Theorem C06_row_ids_are_the_rows : forall rs n, row_splits_ok rs n ->
  exists ids, row_splits_to_row_ids rs n = Some ids /\ zlen ids = n /\
    row_ids_ok ids (zlen rs - 1) /\
    forall i, 0 <= i < n -> exists r, rd ids i = Some r /\ in_row rs i r /\
      forall r', in_row rs i r' -> r' = r.
Proof.
  intros rs n H. destruct (row_splits_to_row_ids_correct rs n H) as (ids & H1 & H2 & H3 & H4).
  exists ids; split; [auto|]; split; [auto|]; split; [auto|]. intros i Hi.
  destruct (H3 i Hi) as (r & Hr & Hin & _). exists r; repeat split; auto.
  intros r' Hr'. symmetry. eapply in_row_unique; eauto.
Qed.
Print Assumptions C06_row_ids_are_the_rows.

(** C06: splits -> ids -> splits is the identity. *)
Theorem C06_splits_roundtrip : forall rs n, row_splits_ok rs n ->
  exists ids, row_splits_to_row_ids rs n = Some ids /\
              row_ids_to_row_splits ids (zlen rs - 1) = Some rs.
Proof. exact splits_ids_roundtrip. Qed.
Print Assumptions C06_splits_roundtrip.

(** C06: ids -> splits -> ids is the identity. *)
Theorem C06_ids_roundtrip : forall ids rows, 0 <= rows -> row_ids_ok ids rows ->
  exists rs, row_ids_to_row_splits ids rows = Some rs /\ row_splits_ok rs (zlen ids) /\
             zlen rs = rows + 1 /\ row_splits_to_row_ids rs (zlen ids) = Some ids.
Proof. exact ids_splits_roundtrip. Qed.
Print Assumptions C06_ids_roundtrip.

Example C06_example : row_splits_ok [0; 2; 2; 5] 5 /\
  row_splits_to_row_ids [0; 2; 2; 5] 5 = Some [0; 0; 2; 2; 2] /\
  row_ids_to_row_splits [0; 0; 2; 2; 2] 3 = Some [0; 2; 2; 5].
Proof.
  repeat split; try (vm_compute; congruence).
  intros i a b Ha Hb. pose proof (rd_Some_bound _ _ _ Hb) as B. cbv [zlen] in B; simpl length in B.
  assert (i = 0 \/ i = 1 \/ i = 2 \/ i < 0) as [-> | [-> | [-> | L]]] by lia;
    try (vm_compute in Ha, Hb; injection Ha as <-; injection Hb as <-; lia).
  apply rd_Some_bound in Ha; lia.
Qed.

(** C50: for every keep array and every execution order of the kernel, New2Old
    lists exactly the kept old indexes in increasing order, and Old2New is its
    inverse on the kept ones. *)
Theorem C50_renumbering_inverse : forall keep sched, is_sched (zlen keep + 1) sched ->
  exists n2o, new2old sched keep = Some n2o /\
    rd (old2new keep) (zlen keep) = Some (zlen n2o) /\
    (forall i, rd keep i = Some true -> exists k,
       rd (old2new keep) i = Some k /\ rd n2o k = Some i) /\
    (forall k i, rd n2o k = Some i ->
       rd keep i = Some true /\ rd (old2new keep) i = Some k) /\
    (forall k i j, rd n2o k = Some i -> rd n2o (k + 1) = Some j -> i < j).
Proof.
  intros keep sched Hs. exists (kept_from 0 keep).
  assert (INV : forall k i, rd (kept_from 0 keep) k = Some i ->
       rd keep i = Some true /\ rd (old2new keep) i = Some k).
  { intros k i Hk. destruct (rd_kept_from_inv keep 0 k i Hk) as (i' & -> & Hi & E).
    pose proof (rd_Some_bound _ _ _ Hi). replace (0 + i') with i' by lia. split; auto.
    rewrite rd_old2new by lia. now rewrite E. }
  split; [now apply new2old_kept|]. split; [|split; [|split]]; auto.
  - rewrite rd_old2new by (pose proof (zlen_nonneg keep); lia). rewrite zlen_kept_from.
    unfold zlen; rewrite Nat2Z.id, firstn_all. reflexivity.
  - intros i Hi. pose proof (rd_Some_bound _ _ _ Hi). eexists.
    rewrite rd_old2new by lia. split; [reflexivity|]. rewrite rd_kept_from; auto.
  - intros k i j Hi Hj.
    destruct (INV _ _ Hi) as [K1 O1]. destruct (INV _ _ Hj) as [K2 O2].
    destruct (Z_lt_ge_dec i j) as [|G]; auto. exfalso.
    unfold old2new in O1, O2.
    assert (k + 1 <= k); [|lia].
    eapply (exsum_mono (map b2z keep) j i); eauto; [|lia].
    clear. induction keep as [|[] t IH]; simpl; constructor; auto; unfold b2z; lia.
Qed.
Print Assumptions C50_renumbering_inverse.

Example C50_example : is_sched 5 [3; 0; 4; 1; 2] /\
  new2old [3; 0; 4; 1; 2] [true; false; false; true] = Some [0; 3] /\
  old2new [true; false; false; true] = [0; 1; 1; 1; 2].
Proof.
  split; [solve_sched|split; reflexivity].
Qed.
