(** * Proofs about building FSAs from arrays of arcs *)
From Coq Require Import ZArith List Lia Bool Permutation Sorting.Sorted.
From Coq Require Import ZifyBool.
From Verif Require Import Base RaggedModel RaggedSpec RaggedProofs FsaSpec FsaLemmas RaggedOpsProofs OpsModel PropsModel PropsSpec PropsProofs PropsProps SerialModel.
Import ListNotations.
Open Scope Z_scope.

(** ** Sorted arrays *)
Lemma nondecreasing_ok l : exists b, nondecreasing l = Some b /\ (b = true <-> StronglySorted Z.le l).
Proof.
  unfold nondecreasing.
  assert (M : exists r, mapM (fun i => x <- rd l i;; y <- rd l (i + 1);; Some (x <=? y)) (zrange (zlen l - 1)) = Some r /\
    forall i, 0 <= i < zlen l - 1 -> exists x y, rd l i = Some x /\ rd l (i + 1) = Some y /\ rd r i = Some (x <=? y)).
  { exists (map (fun i => match rd l i, rd l (i + 1) with Some x, Some y => x <=? y | _, _ => true end) (zrange (zlen l - 1))). split.
    - apply mapM_Some_map. intros i Hi. apply in_zrange in Hi.
      destruct (rd_in_bound l i) as (x & ->); [lia|]. destruct (rd_in_bound l (i + 1)) as (y & ->); [lia|]. reflexivity.
    - intros i Hi. destruct (rd_in_bound l i) as (x & Hx); [lia|]. destruct (rd_in_bound l (i + 1)) as (y & Hy); [lia|].
      exists x, y. split; auto. split; auto. rewrite rd_map, rd_zrange by lia. cbn. now rewrite Hx, Hy. }
  destruct M as (r & E & R). rewrite E. eexists. split; [reflexivity|].
  rewrite (sorted_adjacent Z.le Z.le_trans). rewrite forallb_forall. split.
  - intros H j x y Hj Hx Hy. pose proof (rd_Some_bound _ _ _ Hy).
    destruct (R (j - 1)) as (x' & y' & H1 & H2 & H3); [lia|]. replace (j - 1 + 1) with j in H2 by lia.
    specialize (H (x' <=? y') (rd_In _ _ _ H3)). assert (x' = x) by congruence. assert (y' = y) by congruence. subst. lia.
  - intros H b Hb. apply In_rd in Hb as (i & Bi & Hi). apply mapM_length in E. 
    assert (El : zlen r = zlen (zrange (zlen l - 1))) by (unfold zlen; now rewrite E).
    destruct (Z_le_gt_dec (zlen l - 1) 0) as [G|G].
    { replace (zrange (zlen l - 1)) with (@nil Z) in El by (unfold zrange; now replace (Z.to_nat (zlen l - 1)) with 0%nat by lia).
      change (zlen (@nil Z)) with 0 in El. lia. }
    rewrite zlen_zrange in El by lia. destruct (R i) as (x & y & H1 & H2 & H3); [lia|].
    assert (b = (x <=? y)) by congruence. subst b. apply Z.leb_le. apply (H (i + 1)); auto; [lia|]. now replace (i + 1 - 1) with i by lia.
Qed.

Lemma validate_row_ids_ok ids : exists b, validate_row_ids ids = Some b /\ (b = true <-> StronglySorted Z.le ids /\ Forall (fun x => 0 <= x) ids).
Proof.
  unfold validate_row_ids. destruct ids as [|x ids].
  - exists true. split; [reflexivity|]. split; [|auto]. split; constructor.
  - replace (zlen (x :: ids) =? 0) with false by (rewrite zlen_cons; pose proof (zlen_nonneg ids); lia).
    rewrite rd_cons_0. destruct (nondecreasing_ok (x :: ids)) as (b & E & B). destruct (x <? 0) eqn:G.
    + exists false. split; auto. split; [discriminate|]. intros (_ & H). inversion H; lia.
    + exists b. split; auto. rewrite B. split; [|tauto]. intros H. split; auto. inversion H as [|? ? _ F]; subst.
      rewrite Forall_forall in *. intros y [<- | Hy]; [lia|]. specialize (F y Hy). lia.
Qed.
Lemma validate_row_splits_ok rs : rs <> [] -> exists b, validate_row_splits rs = Some b /\ (b = true <-> rd rs 0 = Some 0 /\ StronglySorted Z.le rs).
Proof.
  intros N. unfold validate_row_splits. destruct rs as [|x ids]; [congruence|].
  replace (zlen (x :: ids) =? 0) with false by (rewrite zlen_cons; pose proof (zlen_nonneg ids); lia).
  rewrite rd_cons_0. destruct (nondecreasing_ok (x :: ids)) as (b & E & B). destruct (x =? 0) eqn:G; cbn [negb].
  + exists b. split; auto. rewrite B. split; [|tauto]. intros H. split; auto. f_equal. lia.
  + exists false. split; auto. split; [discriminate|]. intros (H & _). injection H as ->. lia.
Qed.

(** ** Grouping *)
Definition keyed {A} (key : A -> Z) (ll : list (list A)) : Prop := forall i st a, rd ll i = Some st -> In a st -> key a = i.

Lemma sorted_split {A} (key : A -> Z) n l : StronglySorted (fun a b => key a <= key b) l -> Forall (fun a => key a <= n) l ->
  l = filter (fun a => key a <? n) l ++ filter (fun a => key a =? n) l.
Proof.
  induction l as [|a l IH]; intros S B; auto. inversion S as [|? ? S1 S2]; subst. inversion B as [|? ? B1 B2]; subst.
  cbn [filter]. destruct (key a <? n) eqn:E.
  - replace (key a =? n) with false by lia. cbn. f_equal. auto.
  - assert (key a = n) by lia. replace (key a =? n) with true by lia.
    assert (N : filter (fun a => key a <? n) l = []).
    { clear -S2 H. induction S2 as [|b l Hb _ IH]; auto. cbn. replace (key b <? n) with false by lia. auto. }
    rewrite N. cbn. f_equal. rewrite IH at 1 by auto. now rewrite N.
Qed.
Lemma sorted_filter_g {A} (R : A -> A -> Prop) (P : A -> bool) l : StronglySorted R l -> StronglySorted R (filter P l).
Proof.
  induction 1 as [|a l S1 IH S2]; cbn; [constructor|]. destruct (P a); auto. constructor; auto.
  rewrite Forall_forall in *. intros x Hx. apply filter_In in Hx. apply S2. tauto.
Qed.
Lemma group_sorted {A} (key : A -> Z) (n : nat) : forall l, StronglySorted (fun a b => key a <= key b) l ->
  Forall (fun a => 0 <= key a < Z.of_nat n) l -> exists ll, zlen ll = Z.of_nat n /\ concat ll = l /\ keyed key ll.
Proof.
  induction n as [|n IH]; intros l S B.
  - exists []. split; auto. split; [|intros i st a H; now rewrite rd_nil in H].
    destruct l as [|a l]; auto. inversion B; lia.
  - assert (B' : Forall (fun a => key a <= Z.of_nat n) l) by (eapply Forall_impl; [|exact B]; cbn; lia).
    pose proof (sorted_split key (Z.of_nat n) l S B') as E.
    destruct (IH (filter (fun a => key a <? Z.of_nat n) l)) as (ll & L1 & L2 & L3).
    + now apply sorted_filter_g.
    + rewrite Forall_forall in *. intros a Ha. apply filter_In in Ha. destruct Ha as (Ha & G). specialize (B a Ha). cbn in B. lia.
    + exists (ll ++ [filter (fun a => key a =? Z.of_nat n) l]). split; [rewrite zlen_app, zlen_cons; change (zlen (@nil (list A))) with 0; lia|].
      split.
      { rewrite concat_app, L2. cbn. now rewrite app_nil_r. }
      intros i st a Hi Ha. pose proof (rd_Some_bound _ _ _ Hi) as Bi. rewrite zlen_app, zlen_cons in Bi.
      change (zlen (@nil (list A))) with 0 in Bi. destruct (Z_lt_ge_dec i (zlen ll)).
      * rewrite rd_app_l in Hi by lia. eapply L3; eauto.
      * rewrite rd_app_r in Hi by lia. replace (i - zlen ll) with 0 in Hi by lia. rewrite rd_cons_0 in Hi. injection Hi as <-.
        apply filter_In in Ha. lia.
Qed.
Lemma keyed_ids {A} (key : A -> Z) ll : keyed key ll -> ids_of ll = map key (concat ll).
Proof.
  unfold ids_of, keyed. assert (G : forall k (ll : list (list A)), (forall i st a, rd ll i = Some st -> In a st -> key a = k + i) ->
    ids_from k ll = map key (concat ll)).
  { clear. intros k ll. revert k. induction ll as [|st ll IH]; intros k H; auto. cbn. rewrite map_app. f_equal.
    - specialize (H 0 st). rewrite rd_cons_0 in H. assert (H' : forall a, In a st -> key a = k) by (intros a Ha; rewrite (H a); auto; lia).
      clear -H'. induction st as [|a st IH]; auto. cbn. rewrite H' by now left. f_equal. apply IH. intros; apply H'; now right.
    - apply IH. intros i st' a Hi Ha. rewrite (H (i + 1) st' a); [lia| |auto].
      pose proof (rd_Some_bound _ _ _ Hi). rewrite rd_cons_S by lia. now replace (i + 1 - 1) with i by lia. }
  intros H. apply G. intros. rewrite (H i st a); auto.
Qed.
Lemma keyed_sorted {A} (key : A -> Z) ll : keyed key ll -> StronglySorted (fun a b => key a <= key b) (concat ll) /\
  Forall (fun a => 0 <= key a < zlen ll) (concat ll).
Proof.
  intros K. split.
  - assert (G : forall (k : Z) (ll : list (list A)), (forall i st a, rd ll i = Some st -> In a st -> key a = k + i) ->
      StronglySorted (fun a b => key a <= key b) (concat ll) /\ Forall (fun a => k <= key a) (concat ll)).
    { clear. intros k ll. revert k. induction ll as [|st ll IH]; intros k H; [split; constructor|]. cbn.
      destruct (IH (k + 1)) as (S & F).
      { intros i st' a Hi Ha. pose proof (rd_Some_bound _ _ _ Hi). rewrite (H (i + 1) st' a); [lia| |auto].
        rewrite rd_cons_S by lia. now replace (i + 1 - 1) with i by lia. }
      assert (H' : forall a, In a st -> key a = k) by (intros a Ha; rewrite (H 0 st a); [lia|apply rd_cons_0|auto]).
      split.
      - clear H. induction st as [|a st IHs]; auto. cbn. constructor.
        + apply IHs. intros; apply H'; now right.
        + rewrite Forall_forall in *. intros b Hb. apply in_app_or in Hb. rewrite (H' a) by now left.
          destruct Hb as [Hb|Hb]; [rewrite (H' b) by (now right); lia|]. specialize (F b Hb). cbn in F. lia.
      - rewrite Forall_forall in *. intros b Hb. apply in_app_or in Hb. destruct Hb as [Hb|Hb]; [rewrite (H' b); auto; lia|].
        specialize (F b Hb). cbn in F. lia. }
    apply (G 0). intros. rewrite (K i st a); auto.
  - rewrite Forall_forall. intros a Ha. apply in_concat in Ha. destruct Ha as (st & Hs & Ha). apply In_rd in Hs as (i & Bi & Hi).
    rewrite (K i st a); auto.
Qed.
Lemma sorted_map {A} (key : A -> Z) l : StronglySorted Z.le (map key l) <-> StronglySorted (fun a b => key a <= key b) l.
Proof.
  induction l as [|a l IH]; cbn; [split; constructor|]. split; intros H; inversion H as [|? ? H1 H2]; subst; constructor;
    try (now apply IH); rewrite Forall_map in *; auto.
Qed.

(** ** RowIdsToRowSplits with row ids out of range *)
Lemma ri2rs_loop_bound ids : forall cur i last out, ri2rs_loop cur i ids = Some (last, out) ->
  zlen out = last - cur /\ Forall (fun x => x < i + zlen ids) out /\ cur <= last /\ (forall x, In x ids -> x <= last).
Proof.
  induction ids as [|r ids IH]; intros cur i last out; cbn [ri2rs_loop].
  - intros [= <- <-]. change (zlen (@nil Z)) with 0. split; [lia|]. split; [constructor|]. split; [lia|intros x []].
  - destruct (cur <=? r) eqn:E; [|discriminate]. destruct (ri2rs_loop r (i + 1) ids) as [[l o]|] eqn:G; [|discriminate].
    intros [= <- <-]. cbn [fst snd]. destruct (IH _ _ _ _ G) as (H1 & H2 & H3 & H4).
    rewrite zlen_app, zlen_repeat, H1, zlen_cons by lia. pose proof (zlen_nonneg ids). split; [lia|]. split.
    + apply Forall_app. split; [|eapply Forall_impl; [|exact H2]; cbn; lia].
      apply Forall_forall. intros x Hx. apply repeat_spec in Hx. lia.
    + split; [lia|]. intros x [<- | Hx]; [lia|auto].
Qed.
Lemma row_splits_back ids n rs back : row_ids_to_row_splits ids n = Some rs -> rd rs n = Some back -> back = zlen ids ->
  forall x, In x ids -> x < n.
Proof.
  unfold row_ids_to_row_splits. destruct (zlen ids =? 0) eqn:E.
  - intros _ _ _ x Hx. assert (ids = []) by (apply zlen_0_nil; lia). subst. destruct Hx.
  - destruct (ri2rs_loop (-1) 0 ids) as [[last out]|] eqn:G; [|discriminate]. cbn [fst snd].
    destruct (ri2rs_loop_bound _ _ _ _ _ G) as (H1 & H2 & H3 & H4).
    destruct (0 <=? last) eqn:L; [|discriminate]. destruct (_ =? n + 1) eqn:Q; [|discriminate]. intros [= <-] Hb Hn x Hx.
    specialize (H4 x Hx). destruct (Z_lt_ge_dec last n); [lia|]. exfalso.
    pose proof (rd_Some_bound _ _ _ Hb) as B. rewrite rd_app_l in Hb.
    + apply rd_In in Hb. rewrite Forall_forall in H2. specialize (H2 _ Hb). lia.
    + replace (Z.to_nat (n - last)) with 0%nat in B by lia. cbn [repeat] in B. rewrite app_nil_r in B. lia.
Qed.

(** ** The race on the final state *)
(** An interleaving: every thread reads once and writes once, in this order. *)
Definition interleaving (n : Z) (ev : list (bool * Z)) : Prop :=
  (forall b i, In (b, i) ev -> 0 <= i < n) /\ (forall i, 0 <= i < n -> In (true, i) ev) /\
  (forall i l1 l2, ev = l1 ++ (true, i) :: l2 -> In (false, i) l1).

Lemma misc_ok arcs ev : interleaving (zlen arcs) ev -> exists fin flag, lambda_misc ev arcs = Some (fin, flag) /\
  ((exists a, In a arcs /\ lab a = -1 /\ fin = dst a) \/ ((forall a, In a arcs -> lab a <> -1) /\ fin = -1)) /\
  ((forall a b, In a arcs -> In b arcs -> lab a = -1 -> lab b = -1 -> dst a = dst b) -> flag = -1).
Proof.
  intros (HB & HW & HO). unfold lambda_misc.
  set (D := fun x => exists a, In a arcs /\ lab a = -1 /\ x = dst a).
  assert (G : forall ev fin flag old, (forall b i, In (b, i) ev -> 0 <= i < zlen arcs) -> zlen old = zlen arcs ->
     (D fin \/ fin = -1) -> (forall i x, rd old i = Some x -> D x \/ x = -1) ->
     ((forall a b, In a arcs -> In b arcs -> lab a = -1 -> lab b = -1 -> dst a = dst b) -> flag = -1) ->
     exists fin' flag' old', foldM (misc_event arcs) ev (fin, flag, old) = Some (fin', flag', old') /\
       (D fin' \/ (fin' = -1 /\ fin' = fin /\ forall i a, In (true, i) ev -> rd arcs i = Some a -> lab a <> -1)) /\
       ((forall a b, In a arcs -> In b arcs -> lab a = -1 -> lab b = -1 -> dst a = dst b) -> flag' = -1)).
  { clear. induction ev as [|[b i] ev IH]; intros fin flag old HB HL HF HOld HFl.
    - exists fin, flag, old. split; [reflexivity|]. split; auto. destruct HF as [HF|HF]; auto.
    - assert (Bi : 0 <= i < zlen arcs) by (apply (HB b); now left). assert (HB' : forall b i, In (b, i) ev -> 0 <= i < zlen arcs) by (intros b' i' H'; apply (HB b'); now right).
      cbn [foldM]. unfold misc_event at 1. cbn [fst snd].
      destruct (rd_in_bound arcs i Bi) as (a & Ha). rewrite Ha. destruct (lab a =? -1) eqn:La.
      + destruct b.
        * destruct (rd_in_bound old i) as (o & Ho); [lia|]. rewrite Ho.
          assert (Da : D (dst a)) by (exists a; split; [eapply rd_In; eauto|split; [lia|auto]]).
          destruct (IH (dst a) (if (0 <=? o) && negb (o =? dst a) then 0 else flag) old) as (f' & g' & o' & E1 & E2 & E3); auto.
          { intros HA. destruct (HOld i o Ho) as [(c & C1 & C2 & C3)|Hm].
            - rewrite (HA c a) in C3; auto; [|eapply rd_In; eauto|lia]. replace (negb (o =? dst a)) with false by lia. rewrite andb_false_r. auto.
            - subst o. auto. }
          exists f', g', o'. split; auto. split; auto. destruct E2 as [E2|(E2 & E4 & E5)]; auto. left. subst f'. now rewrite E4.
        * destruct (wr_Some old i fin) as (old' & Hw & Hl & Hr); [lia|]. rewrite Hw.
          destruct (IH fin flag old') as (f' & g' & o' & E1 & E2 & E3); auto; [lia| |].
          { intros k x Hk. rewrite Hr in Hk. destruct (k =? i); [injection Hk as <-; auto|eauto]. }
          exists f', g', o'. split; auto. split; auto. destruct E2 as [E2|(E2 & E4 & E5)]; auto. right. split; auto. split; auto.
          intros i' a' [H'|H']; [discriminate|eauto].
      + destruct (IH fin flag old) as (f' & g' & o' & E1 & E2 & E3); auto.
        exists f', g', o'. split; auto. split; auto. destruct E2 as [E2|(E2 & E4 & E5)]; auto. right. split; auto. split; auto.
        intros i' a' [H'|H'] Ha'; [injection H' as -> <-; assert (a' = a) by congruence; subst; lia|eauto]. }
  destruct (G ev (-1) (-1) (repeat (-1) (length arcs))) as (fin & flag & old & E1 & E2 & E3); auto.
  - unfold zlen. now rewrite repeat_length.
  - intros i x Hi. right. apply rd_In in Hi. now apply repeat_spec in Hi.
  - rewrite E1. exists fin, flag. split; [reflexivity|]. split; auto. destruct E2 as [E2|(E2 & E4 & E5)]; auto.
    right. split; auto. intros a Ha. apply In_rd in Ha as (i & Bi & Hi). apply (E5 i a); auto.
Qed.
