(** Ragged lemmas for the device version of epsilon removal *)
From Coq Require Import ZArith List Lia Bool.
From Coq Require Import ZifyBool ZifyNat.
From Verif Require Import Base RaggedModel RaggedSpec RaggedProofs FsaLemmas SelectProofs RaggedOpsModel RaggedOpsProofs EpsLoopProofs.
Import ListNotations.
Open Scope Z_scope.

(** A kernel over the elements of a ragged shape *)
Lemma ragged_eval {A B} (LL : list (list A)) (h : Z -> Z -> option B) (g : A -> B) :
  (forall r l k x, rd LL r = Some l -> rd l k = Some x -> h r k = Some (g x)) ->
  mapM (fun i => r <- rd (ids_of LL) i;; b <- rd (splits_of LL) r;; h r (i - b)) (zrange (zlen (concat LL))) = Some (map g (concat LL)).
Proof.
  intros H. apply mapM_by_rd; [rewrite zlen_map, zlen_zrange by apply zlen_nonneg; reflexivity|].
  intros i x Hi. pose proof (rd_Some_bound _ _ _ Hi) as Bi. rewrite zlen_zrange in Bi by apply zlen_nonneg. rewrite rd_zrange in Hi by auto. injection Hi as <-.
  destruct (rd_in_bound (concat LL) i Bi) as (y & Hy). destruct (rd_concat_inv _ _ _ Hy) as (r & l & k & H1 & H2 & H3 & H4).
  rewrite H4, rd_splits_off by (apply rd_Some_bound in H1; lia). rewrite H3. replace (off1 LL r + k - off1 LL r) with k by lia. rewrite (H r l k y H1 H2), rd_map, <- H3, Hy. reflexivity.
Qed.

Lemma splits_nth {A} (LL : list (list A)) r l : rd LL r = Some l -> rd (splits_of LL) r = Some (off1 LL r) /\ rd (splits_of LL) (r + 1) = Some (off1 LL r + zlen l).
Proof. intros H. pose proof (rd_Some_bound _ _ _ H). rewrite !rd_splits_off by lia. rewrite (off1_next _ _ _ H). auto. Qed.

(** RemoveAxis on the axis of the heads of an expansion *)
Lemma concat_map_rows {A B} (e : A -> list B) (HR : list (list A)) : concat (map (fun hr => concat (map e hr)) HR) = concat (map e (concat HR)).
Proof. induction HR as [|h HR IH]; [reflexivity|]. cbn [map concat]. rewrite map_app, concat_app, IH. reflexivity. Qed.
Lemma firstn_off1 {A} (ll : list (list A)) k : firstn (Z.to_nat (off1 ll k)) (concat ll) = concat (firstn (Z.to_nat k) ll).
Proof.
  unfold off1. rewrite <- (firstn_skipn (Z.to_nat k) ll) at 2. rewrite concat_app, firstn_app. unfold zlen. rewrite Nat2Z.id, firstn_all, Nat.sub_diag. cbn. now rewrite app_nil_r.
Qed.
Lemma off1_rows {A B} (e : A -> list B) (HR : list (list A)) k : off1 (map (fun hr => concat (map e hr)) HR) k = off1 (map e (concat HR)) (off1 HR k).
Proof.
  unfold off1 at 1 2. rewrite firstn_map, concat_map_rows. rewrite firstn_map, firstn_off1. reflexivity.
Qed.
Lemma rm_axis_splits {A B} (e : A -> list B) (HR : list (list A)) :
  mapM (rd (splits_of (map e (concat HR)))) (splits_of HR) = Some (splits_of (map (fun hr => concat (map e hr)) HR)).
Proof.
  apply mapM_by_rd; [rewrite !zlen_splits_of, zlen_map; reflexivity|]. intros k x Hx. pose proof (rd_Some_bound _ _ _ Hx) as B0. rewrite zlen_splits_of in B0.
  rewrite rd_splits_off in Hx by lia. injection Hx as <-. rewrite rd_splits_off. 2:{ rewrite zlen_map. pose proof (off1_nonneg HR k). pose proof (off1_bound HR k). lia. }
  rewrite rd_splits_off by (rewrite zlen_map; lia). now rewrite off1_rows.
Qed.
Lemma repeat_concat_ids {A B} (e : A -> list B) (x : Z) hr : concat (map (fun a => repeat x (length (e a))) hr) = repeat x (length (concat (map e hr))).
Proof. induction hr as [|a hr IH]; [reflexivity|]. cbn [map concat]. rewrite IH, app_length, repeat_app. reflexivity. Qed.
Lemma rm_axis_ids {A B} (e : A -> list B) (HR : list (list A)) :
  mapM (rd (ids_of HR)) (ids_of (map e (concat HR))) = Some (ids_of (map (fun hr => concat (map e hr)) HR)).
Proof.
  assert (L : forall i j x, rd (ids_of (map e (concat HR))) i = Some j -> rd (ids_of (map (fun hr => concat (map e hr)) HR)) i = Some x -> rd (ids_of HR) j = Some x).
  { intros i j x Hj Hx. pose proof (rd_Some_bound _ _ _ Hj) as Bi. unfold ids_of in Bi. rewrite zlen_ids_from in Bi.
    destruct (rd_in_bound (concat (map e (concat HR))) i Bi) as (y & Hy). destruct (rd_concat_inv _ _ _ Hy) as (j' & l & k & H1 & H2 & H3 & H4).
    rewrite H4 in Hj. injection Hj as <-. rewrite rd_map in H1. destruct (rd (concat HR) j') as [a|] eqn:Ea; [|discriminate].
    destruct (rd_concat_inv _ _ _ Ea) as (r & hr & q & R1 & R2 & R3 & R4). rewrite R4. rewrite <- concat_map_rows in Hy. destruct (rd_concat_inv _ _ _ Hy) as (r' & l' & k' & S1 & S2 & S3 & S4). rewrite S4 in Hx. injection Hx as <-. f_equal.
    rewrite off1_rows in S3. rewrite rd_map in S1. destruct (rd HR r') as [hr'|] eqn:Er; [|discriminate]. injection S1 as <-.
    pose proof (rd_Some_bound _ _ _ S2) as B2. pose proof (rd_Some_bound _ _ _ H2) as B3. pose proof (rd_Some_bound _ _ _ R2) as B4.
    assert (E1 : off1 (map e (concat HR)) (off1 HR r' + zlen hr') = off1 (map e (concat HR)) (off1 HR r') + zlen (concat (map e hr'))).
    { rewrite <- (off1_next _ _ _ Er), <- !off1_rows. apply off1_next. rewrite rd_map, Er. reflexivity. }
    assert (H1' : rd (map e (concat HR)) j' = Some l) by (rewrite rd_map, Ea; exact H1). pose proof (off1_next _ _ _ H1') as N1.
    destruct (Z_lt_le_dec r r') as [Lt|Ge].
    - pose proof (off1_mono HR (r + 1) r' ltac:(lia)) as M. rewrite (off1_next _ _ _ R1) in M. pose proof (off1_mono (map e (concat HR)) (j' + 1) (off1 HR r') ltac:(lia)) as M2. lia.
    - destruct (Z_lt_le_dec r' r) as [Lt|]; [|lia]. pose proof (off1_mono HR (r' + 1) r ltac:(lia)) as M. rewrite (off1_next _ _ _ Er) in M. pose proof (off1_mono (map e (concat HR)) (off1 HR r' + zlen hr') j' ltac:(lia)) as M2. lia. }
  assert (LN : zlen (ids_of (map (fun hr => concat (map e hr)) HR)) = zlen (ids_of (map e (concat HR)))) by (unfold ids_of; rewrite !zlen_ids_from, concat_map_rows; reflexivity).
  apply mapM_by_rd; [exact LN|]. intros i j Hj. pose proof (rd_Some_bound _ _ _ Hj). destruct (rd_in_bound (ids_of (map (fun hr => concat (map e hr)) HR)) i ltac:(lia)) as (x & Hx). rewrite (L i j x Hj Hx), Hx. reflexivity.
Qed.

(** Renumbering of the elements *)
Lemma o2n_splits {A} (P : A -> bool) ll : mapM (rd (old2new (map P (concat ll)))) (splits_of ll) = Some (splits_of (map (filter P) ll)).
Proof.
  apply mapM_by_rd; [rewrite !zlen_splits_of, zlen_map; reflexivity|]. intros k x Hx. pose proof (rd_Some_bound _ _ _ Hx) as B0. rewrite zlen_splits_of in B0.
  rewrite rd_splits_off in Hx by lia. injection Hx as <-. rewrite rd_old2new by (rewrite zlen_map; pose proof (off1_nonneg ll k); pose proof (off1_bound ll k); lia). rewrite rd_splits_off by (rewrite zlen_map; lia). f_equal.
  rewrite firstn_map, firstn_off1. unfold off1. rewrite firstn_map, <- filter_concat. generalize (concat (firstn (Z.to_nat k) ll)). intros l. rewrite map_map.
  induction l as [|y l IH]; [reflexivity|]. cbn [map filter]. change (zsum (b2z (P y) :: map (fun x => b2z (P x)) l)) with (b2z (P y) + zsum (map (fun x => b2z (P x)) l)). rewrite IH. destruct (P y); cbn [b2z]; rewrite ?zlen_cons; lia.
Qed.
Lemma n2o_ids {A} (P : A -> bool) ll : mapM (rd (ids_of ll)) (kept_from 0 (map P (concat ll))) = Some (ids_of (map (filter P) ll)).
Proof. rewrite mapM_kept0 by (unfold ids_of; now rewrite map_length, length_ids_from). unfold ids_of. now rewrite select_ids. Qed.
Lemma n2o_values {A B} (P : A -> bool) (g : A -> B) l : mapM (rd (map g l)) (kept_from 0 (map P l)) = Some (map g (filter P l)).
Proof.
  rewrite mapM_kept0 by now rewrite !map_length. f_equal. induction l as [|x l IH]; [reflexivity|]. cbn [map select filter]. destruct (P x); cbn [map]; now rewrite IH.
Qed.
