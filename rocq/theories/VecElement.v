(** Taking one FSA out of an FsaVec. *)
From Coq Require Import ZArith List Lia Bool.
From Coq Require Import ZifyBool ZifyNat.
From Verif Require Import Base RaggedModel RaggedSpec FsaSpec FsaLemmas RaggedOpsModel RaggedOpsProofs RaggedListProofs OpsModel ReverseModel GraphProofs.
Import ListNotations.
Open Scope Z_scope.

(** The k'th element of a batch is the k'th FSA, whichever k. *)
Theorem vec_element_ok : forall fs k, vec_element (flat_vec fs) k = option_map flat (rd fs k).
Proof.
  intros fs k. unfold vec_element. cbn [flat_vec v_rs1 v_rs2 v_arcs].
  replace (zlen (splits_of fs)) with (zlen fs + 1) by (symmetry; apply zlen_splits_of).
  destruct (0 <=? k) eqn:E0; [|rewrite (proj2 (rd_None fs k)) by lia; reflexivity].
  destruct (k + 1 <? zlen fs + 1) eqn:E1; [|rewrite (proj2 (rd_None fs k)) by lia; reflexivity].
  destruct (rd_in_bound fs k ltac:(lia)) as (f & Hk). rewrite Hk. cbn [option_map].
  destruct ((k =? 0) && (zlen fs + 1 - 1 =? 1)) eqn:E2.
  - destruct fs as [|f0 [|f1 fs]]; [exfalso; change (zlen (@nil nfsa)) with 0 in *; lia| |exfalso; rewrite !zlen_cons in E2; pose proof (zlen_nonneg fs); lia].
    assert (k = 0) by lia. subst k. rewrite rd_cons_0 in Hk. injection Hk as ->. unfold flat. cbn [concat]. now rewrite !app_nil_r.
  - assert (B : (if k =? 0 then Some 0 else rd (splits_of fs) k) = Some (off1 fs k)).
    { destruct (Z.eqb_spec k 0) as [->|]; [rewrite off1_0; auto|]. apply rd_splits_off. lia. }
    rewrite B. rewrite rd_splits_off by lia. pose proof (off1_next fs k f Hk) as N. pose proof (off1_nonneg fs k). pose proof (zlen_nonneg f).
    pose proof (off1_bound fs (k + 1)).
    assert (OC : forall r, 0 <= r <= zlen f -> off1 (concat fs) (off1 fs k + r) = off1 (map (@concat arc) fs) k + off1 f r).
    { intros r Hr. pose proof (off1_concat fs k f r Hk Hr) as O. now rewrite <- off1_map_concat in O. }
    pose proof (OC 0 ltac:(lia)) as O0. rewrite off1_0 in O0. replace (off1 fs k + 0) with (off1 fs k) in O0 by lia.
    pose proof (OC (zlen f) ltac:(lia)) as O1. rewrite <- N in O1.
    assert (BN : (if off1 fs k =? 0 then Some 0 else rd (splits_of (concat fs)) (off1 fs k)) = Some (off1 (map (@concat arc) fs) k)).
    { destruct (Z.eqb_spec (off1 fs k) 0) as [E|].
      - rewrite E, off1_0 in O0. f_equal. lia.
      - rewrite rd_splits_off by lia. f_equal. lia. }
    rewrite BN, rd_splits_off, O1 by lia.
    assert (SL : slice (splits_of (concat fs)) (off1 fs k) (off1 fs (k + 1) + 1) =
                 Some (map (fun x => off1 (map (@concat arc) fs) k + x) (splits_of f))).
    { unfold slice. rewrite N. replace (off1 fs k + zlen f + 1 - off1 fs k) with (zlen (map (fun x => off1 (map (@concat arc) fs) k + x) (splits_of f)))
        by (rewrite zlen_map, zlen_splits_of; lia).
      apply RaggedOpsProofs.mapM_zrange; [apply zlen_nonneg|reflexivity|]. intros r Hr. rewrite zlen_map, zlen_splits_of in Hr. rewrite rd_splits_off by lia. rewrite OC by lia.
      rewrite rd_map, rd_splits_off by lia. reflexivity. }
    rewrite SL.
    assert (SA : slice (concat (concat fs)) (off1 (map (@concat arc) fs) k) (off1 (map (@concat arc) fs) k + off1 f (zlen f)) = Some (concat f)).
    { rewrite <- concat_map_concat. replace (off1 (map (@concat arc) fs) k + off1 f (zlen f)) with (off1 (map (@concat arc) fs) (k + 1)).
      - apply slice_ok. now rewrite rd_map, Hk.
      - rewrite (off1_next _ k (concat f)) by (now rewrite rd_map, Hk). f_equal. now rewrite off1_all. }
    rewrite SA. unfold flat. do 2 f_equal. rewrite map_map. rewrite <- (map_id (splits_of f)) at 2. apply map_ext. intros; lia.
Qed.
Print Assumptions vec_element_ok.
