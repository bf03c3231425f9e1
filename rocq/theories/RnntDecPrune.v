(** * C61: which lists a pruning of RNN-T decoding keeps: the best ones. *)
From Coq Require Import ZArith List Lia Bool Permutation Sorted.
From Coq Require Import ZifyBool ZifyNat.
From Verif Require Import Base RaggedModel RaggedProofs RaggedOpsModel RaggedOpsProofs RaggedListProofs IDenseModel IDensePaths ReverseModel
  RnntDecModel RnntDecList.
From Verif Require DetInv.
Import ListNotations.
Open Scope Z_scope.

Lemma ge_ole a b : ogt a b = false -> ole a b.
Proof. destruct a, b; cbn; try discriminate; auto. lia. Qed.
Lemma beam_ole beam b x y : in_beam beam b x = true -> ole x y -> in_beam beam b y = true.
Proof. destruct b, x, y; cbn; try discriminate; try easy. lia. Qed.
Lemma prune_best beam mx total subs keep : zlen subs <= total -> prune_axis1 beam mx total subs = Some keep ->
  zlen keep = zlen subs /\ forall j, rd keep j = Some false ->
    (forall i, rd keep i = Some true -> ole (smax subs j) (smax subs i)) /\
    (in_beam beam (sbest subs) (smax subs j) = true -> 0 < mx /\ exists l, NoDup l /\ zlen l = mx /\ forall i, In i l -> rd keep i = Some true).
Proof.
  intros HT. unfold prune_axis1. set (sm := map (fun l => kmax (map Some l)) subs). fold (sbest subs).
  assert (Zsm : forall i, match rd sm i with Some x => x | None => None end = smax subs i) by (intros i; unfold sm, smax; rewrite rd_map; destruct (rd subs i); reflexivity).
  assert (BB : forall x y, in_beam beam (sbest subs) x = false -> in_beam beam (sbest subs) y = true -> ole x y). { intros x y. destruct (sbest subs), x, y; cbn; try discriminate; auto. lia. }
  destruct ((0 <? mx) && (mx <? total)) eqn:E.
  - set (m := fun i => match rd sm i with Some x => x | None => None end). set (n := zlen subs). set (order := stable_sort _ (zrange n)).
    assert (P : Permutation (zrange n) order) by apply stable_sort_perm. assert (Hn : 0 <= n) by apply zlen_nonneg.
    assert (Zo : zlen order = n) by (unfold zlen; rewrite <- (Permutation_length P); change (zlen (zrange n) = n); rewrite zlen_zrange; lia).
    assert (NDo : NoDup order) by (eapply Permutation_NoDup; [exact P|apply SS_lt_NoDup, zrange_SS]).
    assert (Ino : forall i, In i order <-> 0 <= i < n) by (intros i; rewrite <- in_zrange; split; [apply Permutation_in; now apply Permutation_sym|now apply Permutation_in]).
    assert (So : StronglySorted (fun a b => ogt (m b) (m a) = false) order) by (apply sort_sorted; [intros a b; apply ogt_asym|intros a b c; apply ogt_tr]).
    set (pos := fun o => find_idx (Z.eqb o) 0 order).
    set (v := fun o => match pos o with Some i => negb ((mx <=? i) || negb (in_beam beam (sbest subs) (m o))) | None => false end).
    assert (Pos : forall o i, rd order i = Some o -> pos o = Some i).
    { intros o i Ho. unfold pos. destruct (find_idx_ex (Z.eqb o) order 0 o (rd_In _ _ _ Ho) (Z.eqb_refl o)) as (d & Hd). rewrite Hd. apply find_idx_some in Hd as (x & Hx & Ex). rewrite Z.sub_0_r in Hx. assert (x = o) as -> by lia. f_equal. eapply DetInv.NoDup_rd; [exact NDo|exact Hx|exact Ho]. }
    intros HK. assert (EK : keep = tab n v).
    { enough (X : k2_fill n (zrange n) (fun idx1 => o <- rd order idx1;; Some [(o, negb ((mx <=? idx1) || negb (in_beam beam (sbest subs) (m o))))]) = Some (tab n v)) by (pose proof (eq_trans (eq_sym X) HK) as Y; congruence).
      apply k2_fill_spec with (m := n); [exact Hn|apply Permutation_refl| |].
      - intros i Hi. destruct (rd_in_bound order i) as (o & Ho); [lia|]. rewrite Ho. eexists. split; [reflexivity|]. constructor; [|constructor]. unfold agrees. cbn [fst snd]. split; [apply Ino; eapply rd_In; eauto|]. unfold v. rewrite (Pos _ _ Ho). reflexivity.
      - intros j Hj. apply Ino in Hj. apply In_rd in Hj as (i & Hi & Ho). exists i. rewrite Ho. eexists. split; [lia|]. split; [reflexivity|]. cbn. now left. }
    clear HK. subst keep. split; [apply zlen_tab; exact Hn|]. intros j Hj. pose proof (rd_Some_bound _ _ _ Hj) as Bj. rewrite zlen_tab in Bj by exact Hn. rewrite rd_tab in Hj by lia. injection Hj as Hj. destruct (In_rd _ _ (proj2 (Ino j) Bj)) as (dj & Hdj & Hoj). unfold v in Hj. rewrite (Pos _ _ Hoj) in Hj. unfold m in Hj. rewrite Zsm in Hj.
    assert (SO : forall a b x y, rd order a = Some x -> rd order b = Some y -> a < b -> ole (smax subs y) (smax subs x)). { intros a b x y Ha Hb Hab. pose proof (SS_in _ _ So _ _ _ _ Ha Hb Hab) as S'. cbn beta in S'. unfold m in S'. rewrite !Zsm in S'. now apply ge_ole. }
    split.
    + intros i Hi. pose proof (rd_Some_bound _ _ _ Hi) as B. rewrite zlen_tab in B by exact Hn. rewrite rd_tab in Hi by lia. injection Hi as Hi. destruct (In_rd _ _ (proj2 (Ino i) B)) as (di & Hdi & Hoi). unfold v in Hi. rewrite (Pos _ _ Hoi) in Hi. unfold m in Hi. rewrite Zsm in Hi. apply negb_true_iff, orb_false_iff in Hi as (Hi1 & Hi2). apply negb_false_iff in Hj, Hi2. apply orb_true_iff in Hj as [Hj|Hj].
      * eapply SO; [exact Hoi|exact Hoj|lia].
      * apply negb_true_iff in Hj. now apply BB.
    + intros IB. rewrite IB, orb_false_r in Hj. apply negb_false_iff in Hj. split; [lia|]. exists (firstn (Z.to_nat mx) order). pose proof (rd_Some_bound _ _ _ Hoj) as BO. assert (Zf : zlen (firstn (Z.to_nat mx) order) = mx) by (unfold zlen in *; rewrite firstn_length; lia). split; [|split; [exact Zf|]].
      * rewrite <- (firstn_skipn (Z.to_nat mx) order) in NDo. clear -NDo. induction (firstn (Z.to_nat mx) order) as [|x l IH]; [constructor|]. cbn in NDo. inversion NDo as [|? ? N1 N2]. subst. constructor; [|auto]. intros X. apply N1, in_or_app. now left.
      * intros i Hi. apply In_rd in Hi as (d & Bd & Hd). assert (Hd' : rd order d = Some i) by (rewrite <- (firstn_skipn (Z.to_nat mx) order); rewrite rd_app_l by lia; exact Hd). assert (Bi : 0 <= i < n) by (apply Ino; eapply rd_In; eauto). rewrite rd_tab by lia. f_equal. unfold v. rewrite (Pos _ _ Hd'). unfold m. rewrite Zsm. rewrite (beam_ole _ _ _ _ IB (SO d dj i j Hd' Hoj ltac:(lia))). replace (mx <=? d) with false by lia. reflexivity.
  - intros HK. injection HK as <-. assert (R : forall i, rd (map (in_beam beam (sbest subs)) sm) i = option_map (in_beam beam (sbest subs)) (rd sm i)) by (intros; apply rd_map).
    assert (R2 : forall i, 0 <= i < zlen subs -> rd sm i = Some (smax subs i)) by (intros i Hi; rewrite <- Zsm; destruct (rd_in_bound sm i) as (x & ->); [unfold sm; now rewrite zlen_map|reflexivity]).
    assert (R3 : forall i b, rd (map (in_beam beam (sbest subs)) sm) i = Some b -> in_beam beam (sbest subs) (smax subs i) = b). { intros i b Hi. pose proof (rd_Some_bound _ _ _ Hi) as B. unfold sm in B. rewrite !zlen_map in B. rewrite R, R2 in Hi by exact B. cbn in Hi. congruence. }
    split; [unfold sm; now rewrite !zlen_map|]. intros j Hj. apply R3 in Hj. split; [intros i Hi; apply R3 in Hi; now apply BB|congruence].
Qed.

(** A list of scores is dropped only if its best score is beaten: every list that is kept
    has a better or equal score, and either the best score of all is more than the beam
    away or as many lists as allowed are kept. *)
Theorem C61_prune_keeps_best : forall beam mx total subs keep j lj, zlen subs <= total -> (forall l, In l subs -> l <> []) ->
  prune_axis1 beam mx total subs = Some keep -> rd keep j = Some false -> rd subs j = Some lj ->
  (forall i li x, rd keep i = Some true -> rd subs i = Some li -> In x lj -> exists y, In y li /\ x <= y) /\
  ((exists i li y, rd subs i = Some li /\ In y li /\ forall x, In x lj -> x < y - beam) \/
   (0 < mx /\ exists l, NoDup l /\ zlen l = mx /\ forall i, In i l -> rd keep i = Some true)).
Proof.
  intros beam mx total subs keep j lj HT HNE HK Hj Hl. destruct (prune_best _ _ _ _ _ HT HK) as (ZK & H). destruct (H j Hj) as (H1 & H2). split.
  - intros i li x Hi Hli Hx. specialize (H1 i Hi). destruct (smax_ge _ _ _ _ Hl Hx) as (b & Eb & Lb). rewrite Eb in H1. destruct (smax subs i) as [y|] eqn:Ey; [|destruct H1]. apply smax_in in Ey as (li' & El & Hy). rewrite Hli in El. injection El as <-. exists y. split; [exact Hy|]. cbn in H1. lia.
  - destruct (in_beam beam (sbest subs) (smax subs j)) eqn:EB; [right; auto|]. left. destruct (sbest subs) as [b|] eqn:Eb; [|discriminate]. destruct (sbest_at _ _ Eb) as (i & Bi & Ei). apply smax_in in Ei as (li & Hli & Hb). exists i, li, b. split; [exact Hli|]. split; [exact Hb|]. intros x Hx. destruct (smax_ge _ _ _ _ Hl Hx) as (z & Ez & Lz). rewrite Ez in EB. cbn in EB. lia.
Qed.
Example C61_prune_ex : prune_axis1 5 2 4 [[1; 9]; [3]; [8; 2]; [7]] = Some [true; false; true; false].
Proof. reflexivity. Qed.
Print Assumptions C61_prune_keeps_best.
