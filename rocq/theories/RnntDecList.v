(** * Lists: sorting, runs, selections *)
From Coq Require Import ZArith List Lia Bool Permutation Sorted.
From Coq Require Import ZifyBool ZifyNat.
From Verif Require Import Base RaggedModel RaggedSpec RaggedProofs FsaSpec FsaLemmas RaggedOpsModel OpsModel RaggedOpsProofs RaggedListProofs IDenseModel IDensePaths RnntDecModel.
From Verif Require DetInv.
Import ListNotations.
Open Scope Z_scope.

Lemma SS_in {A} (R : A -> A -> Prop) l : StronglySorted R l -> forall i j x y, rd l i = Some x -> rd l j = Some y -> i < j -> R x y.
Proof.
  induction 1 as [|a l HS IH HF]; intros i j x y Hi Hj L; [rewrite rd_nil in Hi; discriminate|].
  pose proof (rd_Some_bound _ _ _ Hi). replace j with (j - 1 + 1) in Hj by lia. rewrite rd_cons_S in Hj by lia.
  destruct (Z.eq_dec i 0) as [->|Hn].
  - rewrite rd_cons_0 in Hi. injection Hi as <-. rewrite Forall_forall in HF. apply HF. eapply rd_In; eauto.
  - replace i with (i - 1 + 1) in Hi by lia. rewrite rd_cons_S in Hi by lia. eapply IH; eauto. lia.
Qed.

(** ** sorting *)
Section Sorting.
Context {A : Type} (lt : A -> A -> bool).
Hypothesis asym : forall a b, lt a b = true -> lt b a = false.
Hypothesis tr : forall a b c, lt a b = false -> lt b c = false -> lt a c = false.
Lemma ins_sorted x l : StronglySorted (fun a b => lt b a = false) l -> StronglySorted (fun a b => lt b a = false) (ins lt x l).
Proof.
  induction 1 as [|y l HS IH HF]; cbn [ins]; [repeat constructor|]. destruct (lt y x) eqn:E.
  - constructor; [exact IH|]. apply Forall_forall. intros z Hz. apply (Permutation_in _ (Permutation_sym (ins_perm _ _ _))) in Hz.
    destruct Hz as [<-|Hz]; [now apply asym|]. rewrite Forall_forall in HF. auto.
  - constructor; [now constructor|]. constructor; [exact E|]. apply Forall_forall. intros z Hz. rewrite Forall_forall in HF. eapply tr; [apply HF; exact Hz|exact E].
Qed.
Lemma sort_sorted l : StronglySorted (fun a b => lt b a = false) (stable_sort lt l).
Proof. induction l as [|x l IH]; cbn [stable_sort]; [constructor|]. now apply ins_sorted. Qed.
End Sorting.

Lemma SS_impl {A} (R R' : A -> A -> Prop) l : (forall a b, R a b -> R' a b) -> StronglySorted R l -> StronglySorted R' l.
Proof. intros H. induction 1 as [|x l HS IH HF]; constructor; auto. eapply Forall_impl; [|exact HF]. intros; auto. Qed.

(** ** runs *)
Section Runs.
Context {A : Type} (key : A -> Z) (same : A -> A -> bool).
Hypothesis Hsame : forall x y, same x y = (key x =? key y).
Definition kof (l : list A) : Z := match l with x :: _ => key x | [] => 0 end.
Lemma runs_concat l : concat (runs same l) = l.
Proof.
  induction l as [|x l IH]; cbn [runs]; [reflexivity|]. destruct (runs same l) as [|[|y r] rs]; cbn in *; [now rewrite <- IH|now rewrite <- IH|].
  destruct (same x y); cbn; now rewrite <- IH.
Qed.
Lemma runs_ne l : forall r, In r (runs same l) -> r <> [].
Proof.
  induction l as [|x l IH]; cbn [runs]; [easy|]. intros r Hr. destruct (runs same l) as [|[|y r'] rs] eqn:E.
  - destruct Hr as [<-|[]]. discriminate.
  - exfalso. apply (IH []); [now left|reflexivity].
  - destruct (same x y).
    + destruct Hr as [<-|Hr]; [discriminate|apply IH; now right].
    + destruct Hr as [<-|Hr]; [discriminate|apply IH; exact Hr].
Qed.
Lemma runs_sorted l : StronglySorted (fun x y => key x <= key y) l ->
  StronglySorted (fun r r' => kof r < kof r') (runs same l) /\ forall r x, In r (runs same l) -> In x r -> key x = kof r.
Proof.
  induction 1 as [|x l HS (IH1 & IH2) HF]; cbn [runs]; [split; [constructor|easy]|]. rewrite Forall_forall in HF.
  pose proof (runs_ne l) as NE. pose proof (runs_concat l) as RC. destruct (runs same l) as [|[|y r'] rs] eqn:E.
  - split; [repeat constructor|]. intros r z [<-|[]] [<-|[]]. reflexivity.
  - exfalso. apply (NE []); [now left|reflexivity].
  - assert (Hy : key x <= key y) by (apply HF; rewrite <- RC; now left).
    inversion IH1 as [|? ? S1 S2]; subst. rewrite Forall_forall in S2. rewrite Hsame. destruct (Z.eqb_spec (key x) (key y)) as [Ek|Ek].
    + split.
      * constructor; [exact S1|]. apply Forall_forall. intros r Hr. cbn [kof]. rewrite Ek. exact (S2 r Hr).
      * intros r z [<-|Hr] Hz.
        -- cbn [kof]. destruct Hz as [<-|Hz]; [reflexivity|]. rewrite Ek. apply (IH2 (y :: r')); [now left|exact Hz].
        -- apply IH2; [now right|exact Hz].
    + split.
      * constructor; [exact IH1|]. apply Forall_forall. intros r [<-|Hr]; cbn [kof]; [lia|]. specialize (S2 r Hr). cbn [kof] in S2. lia.
      * intros r z [<-|Hr] Hz; [destruct Hz as [<-|[]]; reflexivity|]. apply IH2; assumption.
Qed.
End Runs.

(** ** chop *)
Lemma zlen_chop {A B} (ll : list (list A)) : forall fl : list B, zlen (chop ll fl) = zlen ll.
Proof. induction ll as [|l ll IH]; intros fl; cbn [chop]; [reflexivity|]. now rewrite !zlen_cons, IH. Qed.
Lemma concat_chop {A B} (ll : list (list A)) : forall fl : list B, zlen fl = zlen (concat ll) -> concat (chop ll fl) = fl.
Proof.
  induction ll as [|l ll IH]; intros fl H; cbn [chop concat] in *.
  - destruct fl; [reflexivity|]. rewrite zlen_cons, zlen_nil in H. pose proof (zlen_nonneg fl). lia.
  - rewrite IH; [apply firstn_skipn|]. rewrite zlen_app in H. unfold zlen in *. rewrite skipn_length. lia.
Qed.
Lemma chop_zlen {A B} (ll : list (list A)) : forall fl : list B, zlen fl = zlen (concat ll) -> map zlen (chop ll fl) = map zlen ll.
Proof.
  induction ll as [|l ll IH]; intros fl H; cbn [chop concat map] in *; [reflexivity|]. rewrite zlen_app in H. f_equal.
  - unfold zlen in *. rewrite firstn_length. lia.
  - apply IH. unfold zlen in *. rewrite skipn_length. lia.
Qed.
Lemma chop_concat {A B} (ll : list (list A)) (mm : list (list B)) : map zlen ll = map zlen mm -> chop ll (concat mm) = mm.
Proof.
  revert mm. induction ll as [|l ll IH]; intros [|m mm] H; try discriminate; cbn [chop concat]; [reflexivity|]. cbn [map] in H. injection H as H1 H2.
  assert (E : length l = length m) by (unfold zlen in H1; lia). rewrite E, firstn_app, Nat.sub_diag, firstn_all, skipn_app, Nat.sub_diag, skipn_all. cbn. rewrite app_nil_r. f_equal. now apply IH.
Qed.
Lemma chop_imap {A B} (f : Z -> A -> B) (ll : list (list A)) : forall k, chop ll (imap f k (concat ll)) = imap (fun j l => imap f (k + off1 ll j) l) 0 ll.
Proof.
  intros k. assert (E : imap f k (concat ll) = concat (imap (fun j l => imap f (k + off1 ll j) l) 0 ll)).
  { apply list_ext_rd.
    - rewrite zlen_imap, <- !zsum_zlen_concat, map_imap. rewrite (imap_ext _ (fun _ l => zlen l)) by (intros; apply zlen_imap). now rewrite imap_const.
    - intros i Hi. rewrite zlen_imap in Hi. destruct (rd_in_bound _ _ Hi) as (x & Hx). rewrite rd_imap, Hx. cbn [option_map]. pose proof (rd_concat_inv _ _ _ Hx) as (r & l & j & H1 & H2 & H3 & _).
      symmetry. set (mm := imap _ 0 ll). assert (Eo : off1 mm r = off1 ll r). { unfold off1. rewrite <- !zsum_zlen_concat. f_equal. rewrite <- !firstn_map. f_equal. unfold mm. rewrite map_imap. rewrite (imap_ext _ (fun _ l => zlen l)) by (intros; apply zlen_imap). now rewrite imap_const. }
      rewrite H3, <- Eo. replace (f (k + (off1 mm r + j)) x) with (f (k + off1 ll r + j) x) by (f_equal; lia).
      apply (rd_concat_off mm r (imap f (k + off1 ll r) l)); [unfold mm; rewrite rd_imap, H1; reflexivity|]. rewrite rd_imap, H2. reflexivity. }
  rewrite E. apply chop_concat. rewrite map_imap. rewrite (imap_ext _ (fun _ l => zlen l)) by (intros; apply zlen_imap). now rewrite imap_const.
Qed.

(** ** select *)
Lemma select_in {A} (l : list A) keep x : In x (select l keep) <-> exists i, rd l i = Some x /\ rd keep i = Some true.
Proof.
  revert keep. induction l as [|y l IH]; intros [|b keep]; unfold select in *; cbn [combine filter map].
  - split; [easy|]. intros (i & H & _). now rewrite rd_nil in H.
  - split; [easy|]. intros (i & H & _). now rewrite rd_nil in H.
  - split; [easy|]. intros (i & _ & H). now rewrite rd_nil in H.
  - split.
    + intros H. assert (D : (b = true /\ x = y) \/ In x (map fst (filter snd (combine l keep)))) by (destruct b; cbn in H; [destruct H; auto|auto]).
      destruct D as [(-> & ->)|D]; [exists 0; rewrite !rd_cons_0; auto|]. apply IH in D as (i & D1 & D2). pose proof (rd_Some_bound _ _ _ D1). exists (i + 1). rewrite !rd_cons_S by lia. auto.
    + intros (i & H1 & H2). pose proof (rd_Some_bound _ _ _ H1). destruct (Z.eq_dec i 0) as [->|Hn].
      * rewrite rd_cons_0 in H1. rewrite rd_cons_0 in H2. injection H1 as <-. injection H2 as ->. cbn. now left.
      * replace i with (i - 1 + 1) in H1 by lia. replace i with (i - 1 + 1) in H2 by lia. rewrite rd_cons_S in H1 by lia. rewrite rd_cons_S in H2 by lia. assert (In x (map fst (filter snd (combine l keep)))) by (apply IH; eauto). destruct b; cbn; auto.
Qed.
Lemma select_sorted {A} (R : A -> A -> Prop) l : StronglySorted R l -> forall keep, StronglySorted R (select l keep).
Proof.
  induction 1 as [|y l HS IH HF]; intros [|b keep]; unfold select in *; cbn [combine filter map]; try constructor.
  assert (F : Forall (R y) (map fst (filter snd (combine l keep)))). { apply Forall_forall. intros x Hx. apply (select_in l keep x) in Hx as (i & Hi & _). rewrite Forall_forall in HF. apply HF. eapply rd_In; eauto. }
  destruct b; cbn; [constructor; auto|auto].
Qed.
Lemma select_app {A} (l l' : list A) k k' : length l = length k -> select (l ++ l') (k ++ k') = select l k ++ select l' k'.
Proof.
  revert k. induction l as [|x l IH]; intros [|b k] H; try discriminate; [reflexivity|]. injection H as H. specialize (IH _ H). unfold select in *. cbn. destruct b; cbn; rewrite IH; reflexivity.
Qed.
Lemma select_concat {A} (ll : list (list A)) : forall keep, zlen keep = zlen (concat ll) ->
  concat (map (fun p => select (fst p) (snd p)) (combine ll (chop ll keep))) = select (concat ll) keep.
Proof.
  induction ll as [|l ll IH]; intros keep H; cbn [chop concat combine map] in *.
  - unfold select. now destruct keep.
  - rewrite zlen_app in H. pose proof (zlen_nonneg (concat ll)). assert (X : length l = length (firstn (length l) keep)) by (unfold zlen in *; rewrite firstn_length; lia).
    rewrite IH by (unfold zlen in *; rewrite skipn_length; lia). cbn [fst snd]. rewrite <- (firstn_skipn (length l) keep) at 3. now rewrite select_app.
Qed.
Lemma select_len {A B} (l : list A) (m : list B) keep : length l = length m -> zlen (select l keep) = zlen (select m keep).
Proof.
  revert m keep. induction l as [|x l IH]; intros [|y m] [|b keep] H; try discriminate; try reflexivity. injection H as H. specialize (IH m keep H). unfold select in *. cbn. destruct b; cbn; rewrite ?zlen_cons, IH; reflexivity.
Qed.
Lemma zrange_SS n : StronglySorted Z.lt (zrange n).
Proof. pose proof (zrange_sorted 0 n) as H. rewrite (map_ext _ (fun k => k)) in H by (intros; lia). now rewrite map_id in H. Qed.
Lemma SS_lt_NoDup l : StronglySorted Z.lt l -> NoDup l.
Proof. induction 1 as [|x l HS IH HF]; constructor; auto. intros Hx. rewrite Forall_forall in HF. specialize (HF _ Hx). lia. Qed.

(** ** find_idx *)
Lemma find_idx_some {A} (f : A -> bool) l : forall k d, find_idx f k l = Some d -> exists x, rd l (d - k) = Some x /\ f x = true.
Proof.
  induction l as [|x l IH]; intros k d H; cbn [find_idx] in H; [discriminate|]. destruct (f x) eqn:E.
  - injection H as <-. exists x. rewrite Z.sub_diag. split; [apply rd_cons_0|exact E].
  - apply IH in H as (y & H1 & H2). exists y. split; [|exact H2]. pose proof (rd_Some_bound _ _ _ H1). replace (d - k) with (d - (k + 1) + 1) by lia. rewrite rd_cons_S by lia. exact H1.
Qed.
Lemma find_idx_ex {A} (f : A -> bool) l : forall k x, In x l -> f x = true -> exists d, find_idx f k l = Some d.
Proof.
  induction l as [|y l IH]; intros k x Hx Hf; [easy|]. cbn [find_idx]. destruct (f y) eqn:E; [eauto|]. destruct Hx as [->|Hx]; [congruence|]. eapply IH; eauto.
Qed.

Lemma flen {A} (f : A -> bool) l : (length (filter f l) <= length l)%nat.
Proof. induction l as [|x l IH]; cbn; [lia|]. destruct (f x); cbn; lia. Qed.

(** ** PruneRaggedAxis1 *)
Definition smax (subs : list (list Z)) (i : Z) : option Z := match rd subs i with Some l => kmax (map Some l) | None => None end.
Definition sbest (subs : list (list Z)) : option Z := kmax (map (fun l => kmax (map Some l)) subs).
Lemma kmax_None l : kmax (map Some l) = None -> l = [].
Proof. destruct l as [|x l]; [reflexivity|]. intros H. pose proof (kmax_ge (map Some (x :: l)) (Some x) (or_introl eq_refl)) as X. rewrite H in X. destruct X. Qed.
Lemma sbest_ge subs i l x : rd subs i = Some l -> In x l -> exists b, sbest subs = Some b /\ x <= b.
Proof.
  intros H Hx. assert (O1 : ole (Some x) (kmax (map Some l))) by (apply kmax_ge; now apply in_map). assert (O2 : ole (kmax (map Some l)) (sbest subs)) by (apply kmax_ge; apply (in_map (fun l => kmax (map Some l))); eapply rd_In; eauto).
  pose proof (ole_trans _ _ _ O1 O2) as O. destruct (sbest subs) as [b|]; [|destruct O]. exists b. auto.
Qed.
Lemma smax_ge subs i l x : rd subs i = Some l -> In x l -> exists b, smax subs i = Some b /\ x <= b.
Proof.
  intros H Hx. unfold smax. rewrite H. assert (O1 : ole (Some x) (kmax (map Some l))) by (apply kmax_ge; now apply in_map). destruct (kmax (map Some l)) as [b|]; [|destruct O1]. exists b. auto.
Qed.
Lemma smax_in subs i b : smax subs i = Some b -> exists l, rd subs i = Some l /\ In b l.
Proof.
  unfold smax. destruct (rd subs i) as [l|]; [|discriminate]. intros H. apply kmax_in in H. apply in_map_iff in H as (x & E & Hx). injection E as ->. eauto.
Qed.
Lemma sbest_at subs b : sbest subs = Some b -> exists i, 0 <= i < zlen subs /\ smax subs i = Some b.
Proof.
  intros H. apply kmax_in in H. apply in_map_iff in H as (l & E & Hl). apply In_rd in Hl as (i & Hi & Hr). exists i. split; [exact Hi|]. unfold smax. now rewrite Hr.
Qed.
Lemma smax_le_best subs i : 0 <= i < zlen subs -> ole (smax subs i) (sbest subs).
Proof. intros Hi. destruct (rd_in_bound _ _ Hi) as (l & Hl). unfold smax. rewrite Hl. apply kmax_ge. apply (in_map (fun l => kmax (map Some l))). eapply rd_In; eauto. Qed.

Lemma ogt_asym a b : ogt a b = true -> ogt b a = false.
Proof. destruct a, b; cbn; try discriminate; try reflexivity. lia. Qed.
Lemma ogt_tr a b c : ogt a b = false -> ogt b c = false -> ogt a c = false.
Proof. destruct a, b, c; cbn; try discriminate; try reflexivity. lia. Qed.

Lemma prune_axis1_ok beam mx total subs : 0 <= beam -> zlen subs <= total ->
  exists keep, prune_axis1 beam mx total subs = Some keep /\ zlen keep = zlen subs /\
    (forall i, rd keep i = Some true -> in_beam beam (sbest subs) (smax subs i) = true) /\
    (mx <= 0 \/ zlen subs <= mx -> forall i, 0 <= i < zlen subs -> in_beam beam (sbest subs) (smax subs i) = true -> rd keep i = Some true) /\
    (forall b, sbest subs = Some b -> exists i, rd keep i = Some true /\ smax subs i = Some b) /\
    (0 < mx -> forall A (l : list A), zlen l = zlen subs -> zlen (select l keep) <= mx).
Proof.
  intros HB HT. unfold prune_axis1. set (sm := map (fun l => kmax (map Some l)) subs). fold (sbest subs).
  assert (Zsm : forall i, match rd sm i with Some x => x | None => None end = smax subs i) by (intros i; unfold sm, smax; rewrite rd_map; destruct (rd subs i); reflexivity).
  assert (IB : forall b, in_beam beam (Some b) (Some b) = true) by (intros b; cbn; lia).
  destruct ((0 <? mx) && (mx <? total)) eqn:E.
  - set (m := fun i => match rd sm i with Some x => x | None => None end). set (n := zlen subs). set (order := stable_sort _ (zrange n)).
    assert (P : Permutation (zrange n) order) by apply stable_sort_perm. assert (Hn : 0 <= n) by apply zlen_nonneg.
    assert (Zo : zlen order = n) by (unfold zlen; rewrite <- (Permutation_length P); change (zlen (zrange n) = n); rewrite zlen_zrange; lia).
    assert (NDo : NoDup order) by (eapply Permutation_NoDup; [exact P|apply SS_lt_NoDup, zrange_SS]).
    assert (Ino : forall i, In i order <-> 0 <= i < n) by (intros i; rewrite <- in_zrange; split; [apply Permutation_in; now apply Permutation_sym|now apply Permutation_in]).
    assert (So : StronglySorted (fun a b => ogt (m b) (m a) = false) order) by (apply sort_sorted; [intros a b; apply ogt_asym|intros a b c; apply ogt_tr]).
    set (pos := fun o => find_idx (Z.eqb o) 0 order).
    set (v := fun o => match pos o with Some i => negb ((mx <=? i) || negb (in_beam beam (sbest subs) (m o))) | None => false end).
    assert (Pos : forall o i, rd order i = Some o -> pos o = Some i).
    { intros o i Ho. unfold pos. destruct (find_idx_ex (Z.eqb o) order 0 o (rd_In _ _ _ Ho) (Z.eqb_refl o)) as (d & Hd). rewrite Hd. apply find_idx_some in Hd as (x & Hx & Ex). rewrite Z.sub_0_r in Hx. assert (x = o) as -> by lia. f_equal. eapply DetInv.NoDup_rd; [exact NDo|exact Hx|exact Ho]. }
    exists (tab n v). split.
    { apply k2_fill_spec with (m := n); [exact Hn|apply Permutation_refl| |].
      - intros i Hi. destruct (rd_in_bound order i) as (o & Ho); [lia|]. rewrite Ho. eexists. split; [reflexivity|]. constructor; [|constructor]. unfold agrees. cbn [fst snd]. split; [apply Ino; eapply rd_In; eauto|]. unfold v. rewrite (Pos _ _ Ho). reflexivity.
      - intros j Hj. apply Ino in Hj. apply In_rd in Hj as (i & Hi & Ho). exists i. rewrite Ho. eexists. split; [lia|]. split; [reflexivity|]. cbn. now left. }
    split; [apply zlen_tab; exact Hn|]. split; [|split; [|split]].
    + intros i Hi. pose proof (rd_Some_bound _ _ _ Hi) as B. rewrite zlen_tab in B by exact Hn. rewrite rd_tab in Hi by lia. injection Hi as Hi. unfold v in Hi. destruct (pos i); [|discriminate]. unfold m in Hi. rewrite Zsm in Hi. destruct (in_beam beam (sbest subs) (smax subs i)); [reflexivity|]. rewrite orb_true_r in Hi. discriminate.
    + intros Hm i Hi HI. rewrite rd_tab by (fold n in Hi; lia). f_equal. unfold v. pose proof (proj2 (Ino i) Hi) as Hin. apply In_rd in Hin as (d & Hd & Ho). rewrite (Pos _ _ Ho). unfold m. rewrite Zsm, HI. replace (mx <=? d) with false by (fold n in Hm; lia). reflexivity.
    + intros b Hb. destruct (sbest_at _ _ Hb) as (i0 & Hi0 & E0). fold n in Hi0. destruct (rd_in_bound order 0) as (o & Ho); [lia|]. assert (Bo : 0 <= o < n) by (apply Ino; eapply rd_In; eauto).
      assert (Eo : smax subs o = Some b).
      { pose proof (smax_le_best subs o Bo) as L1. rewrite Hb in L1. pose proof (proj2 (Ino i0) Hi0) as Hin. apply In_rd in Hin as (d & Hd & Hod). destruct (Z.eq_dec d 0) as [->|Hnz]; [congruence|].
        pose proof (SS_in _ _ So _ _ _ _ Ho Hod ltac:(lia)) as S'. cbn beta in S'. unfold m in S'. rewrite !Zsm, E0 in S'. destruct (smax subs o) as [z|]; cbn in *; [f_equal; lia|discriminate]. }
      exists o. split; [|exact Eo]. rewrite rd_tab by lia. f_equal. unfold v. rewrite (Pos _ _ Ho). unfold m. rewrite Zsm, Eo, Hb, IB. replace (mx <=? 0) with false by lia. reflexivity.
    + intros Hm A l Hl. rewrite (select_len l (zrange n)) by (unfold n; pose proof (zlen_zrange (zlen subs)); unfold zlen in *; lia).
      assert (ND : NoDup (select (zrange n) (tab n v))) by (apply SS_lt_NoDup, select_sorted, zrange_SS).
      assert (IN : incl (select (zrange n) (tab n v)) (firstn (Z.to_nat mx) order)).
      { intros o Ho. apply select_in in Ho as (i & H1 & H2). pose proof (rd_Some_bound _ _ _ H1) as B. rewrite zlen_zrange in B by lia. rewrite rd_zrange in H1 by lia. injection H1 as <-. rewrite rd_tab in H2 by lia. injection H2 as H2. unfold v in H2. destruct (pos i) as [d|] eqn:Ep; [|discriminate].
        unfold pos in Ep. apply find_idx_some in Ep as (x & Hx & Ex). rewrite Z.sub_0_r in Hx. assert (x = i) as -> by lia. pose proof (rd_Some_bound _ _ _ Hx). eapply rd_In with (i := d). rewrite <- (firstn_skipn (Z.to_nat mx) order) in Hx. rewrite rd_app_l in Hx; [exact Hx|]. unfold zlen in *. rewrite firstn_length. lia. }
      pose proof (NoDup_incl_length ND IN) as L. unfold zlen. rewrite firstn_length in L. lia.
  - exists (map (in_beam beam (sbest subs)) sm). assert (R : forall i, rd (map (in_beam beam (sbest subs)) sm) i = option_map (in_beam beam (sbest subs)) (rd sm i)) by (intros; apply rd_map).
    assert (R2 : forall i, 0 <= i < zlen subs -> rd sm i = Some (smax subs i)) by (intros i Hi; rewrite <- Zsm; destruct (rd_in_bound sm i) as (x & ->); [unfold sm; now rewrite zlen_map|reflexivity]).
    split; [reflexivity|]. split; [unfold sm; now rewrite !zlen_map|]. split; [|split; [|split]].
    + intros i Hi. pose proof (rd_Some_bound _ _ _ Hi) as B. unfold sm in B. rewrite !zlen_map in B. rewrite R, R2 in Hi by exact B. cbn in Hi. now injection Hi.
    + intros _ i Hi HI. rewrite R, R2 by exact Hi. cbn. now rewrite HI.
    + intros b Hb. destruct (sbest_at _ _ Hb) as (i & Hi & E0). exists i. split; [|exact E0]. rewrite R, R2, E0, Hb by exact Hi. cbn [option_map]. now rewrite IB.
    + intros Hm A l Hl. assert (zlen (select l (map (in_beam beam (sbest subs)) sm)) <= zlen l); [|lia]. unfold select, zlen. rewrite map_length. pose proof (flen snd (combine l (map (in_beam beam (sbest subs)) sm))) as F. rewrite combine_length in F. lia.
Qed.
