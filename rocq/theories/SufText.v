(** * The text whose suffixes are the histories of the words. *)
From Coq Require Import ZArith List Bool Lia Sorting.Sorted Sorting.Permutation.
From Verif Require Import Base RaggedModel OpsModel OpsProofs ReverseProofs FsaLemmas ExtractProofs IDenseSpec DetInv SufModel SufSpec RnntDecList RnntDecGroup SufRadix SufDc3 SufDc3Main SufLcp.
Import ListNotations.
Open Scope Z_scope.

Lemma at0_cons_0 x l : at0 (x :: l) 0 = x. Proof. reflexivity. Qed.
Lemma at0_cons_S x l m : 0 <= m -> at0 (x :: l) (m + 1) = at0 l m.
Proof. intros H. unfold at0. replace (m + 1) with (m + 1) by lia. rewrite rd_cons_S by lia. now replace (m + 1 - 1) with m by lia. Qed.
Lemma at0_app_l a b i : 0 <= i < zlen a -> at0 (a ++ b) i = at0 a i.
Proof. intros. unfold at0. now rewrite rd_app_l by lia. Qed.
Lemma at0_app_r a b i : zlen a <= i -> at0 (a ++ b) i = at0 b (i - zlen a).
Proof. intros. unfold at0. now rewrite rd_app_r by lia. Qed.
Lemma at0_map f l i : 0 <= i < zlen l -> at0 (map f l) i = f (at0 l i).
Proof. intros H. unfold at0. rewrite rd_map. destruct (rd_in_bound l i H) as (x & ->). reflexivity. Qed.
Lemma at0_skipn l p m : 0 <= p -> 0 <= m -> at0 (skipn (Z.to_nat p) l) m = at0 l (p + m).
Proof.
  intros Hp Hm. unfold at0, rd. replace (m <? 0) with false by lia. replace (p + m <? 0) with false by lia.
  replace (nth_error (skipn (Z.to_nat p) l) (Z.to_nat m)) with (nth_error l (Z.to_nat (p + m))); [reflexivity|].
  rewrite Z2Nat.inj_add by lia. generalize (Z.to_nat p) (Z.to_nat m). clear. intros p m. revert l. induction p as [|p IH]; intros l; [reflexivity|]. destruct l as [|x l]; cbn [skipn Nat.add]; [now destruct m|apply IH].
Qed.

Lemma match_len_pos a b : 0 <= match_len a b.
Proof. revert b. induction a as [|x a IH]; intros [|y b]; cbn; try lia. destruct (x =? y); [specialize (IH b)|]; lia. Qed.
Lemma match_len_le a b : match_len a b <= zlen a.
Proof. revert b. induction a as [|x a IH]; intros [|y b]; cbn [match_len]; rewrite ?zlen_nil, ?zlen_cons; try lia; try (pose proof (zlen_nonneg a); lia). pose proof (zlen_nonneg a); destruct (x =? y); [specialize (IH b)|]; lia. Qed.
Lemma match_len_refl a : match_len a a = zlen a.
Proof. induction a as [|x a IH]; cbn [match_len]; [reflexivity|]. rewrite Z.eqb_refl, zlen_cons. lia. Qed.

Lemma agree_lists off term a : forall b k, zlen a <> zlen b -> (forall x, In x a -> x + off < term) -> (forall x, In x b -> x + off < term) ->
  ((forall m, 0 <= m < k -> at0 (map (fun x => x + off) a ++ [term]) m = at0 (map (fun x => x + off) b ++ [term]) m) <-> k <= match_len a b).
Proof.
  induction a as [|x a IH]; intros [|y b] k HL HA HB.
  - exfalso. now apply HL.
  - cbn [match_len]. split; [|intros ? m ?; lia]. intros H. destruct (Z.le_gt_cases k 0); [lia|]. specialize (H 0 ltac:(lia)). cbn [map app] in H. rewrite !at0_cons_0 in H. specialize (HB y (or_introl eq_refl)). lia.
  - cbn [match_len]. split; [|intros ? m ?; lia]. intros H. destruct (Z.le_gt_cases k 0); [lia|]. specialize (H 0 ltac:(lia)). cbn [map app] in H. rewrite !at0_cons_0 in H. specialize (HA x (or_introl eq_refl)). lia.
  - cbn [match_len map app]. destruct (Z.eqb_spec x y) as [->|NE].
    + rewrite !zlen_cons in HL. specialize (IH b (k - 1) ltac:(lia) ltac:(intros; apply HA; now right) ltac:(intros; apply HB; now right)). split.
      * intros H. assert (k - 1 <= match_len a b); [|lia]. apply IH. intros m Hm. specialize (H (m + 1) ltac:(lia)). now rewrite !at0_cons_S in H by lia.
      * intros H m Hm. destruct (Z.eq_dec m 0) as [->|]; [now rewrite !at0_cons_0|]. replace m with (m - 1 + 1) by lia. rewrite !at0_cons_S by lia. apply IH; lia.
    + split; [|intros ? m ?; lia]. intros H. destruct (Z.le_gt_cases k 0); [lia|]. specialize (H 0 ltac:(lia)). rewrite !at0_cons_0 in H. lia.
Qed.

Section Text.
Variables (toks : list Z) (eos mn mx : Z).
Hypothesis HT : forall x, In x toks -> mn <= x <= mx.
Hypothesis HE : mn <= eos <= mx.
Let N := zlen toks.
Let off := 1 - mn.
Let term := mx + 1 + off.
Let w := rev toks ++ [eos].
Definition sufx_text : list Z := map (fun x => x + off) (rev toks) ++ [eos + off; term; 0; 0; 0].

Lemma text_w : sufx_text = (map (fun x => x + off) w ++ [term]) ++ [0; 0; 0].
Proof. unfold sufx_text, w. rewrite map_app, <- !app_assoc. reflexivity. Qed.
Lemma zlen_w : zlen w = N + 1.
Proof. unfold w, N. rewrite zlen_app. unfold zlen. rewrite rev_length. reflexivity. Qed.
Lemma in_w x : In x w -> mn <= x <= mx.
Proof. unfold w. rewrite in_app_iff, <- in_rev. intros [H|[<-|[]]]; auto. Qed.

Lemma text_at p : 0 <= p <= N -> at0 sufx_text p = at0 w p + off.
Proof. intros H. pose proof zlen_w as Zw. rewrite text_w, !at0_app_l by (rewrite ?zlen_app, ?zlen_map, ?Zw; change (zlen [term]) with 1; lia). apply at0_map. lia. Qed.
Lemma w_at p : 0 <= p <= N -> mn <= at0 w p <= mx.
Proof. intros H. apply in_w. apply (rd_In w p). apply at0_rd. rewrite zlen_w. lia. Qed.
Lemma text_term : at0 sufx_text (N + 1) = term.
Proof. pose proof zlen_w as Zw. pose proof (zlen_nonneg toks). fold N in H. rewrite text_w, at0_app_l, at0_app_r by (rewrite ?zlen_app, ?zlen_map, ?Zw; change (zlen [term]) with 1; lia). rewrite zlen_map, Zw, Z.sub_diag. reflexivity. Qed.

Lemma text_padded : padded sufx_text (N + 2) term.
Proof.
  pose proof zlen_w as Zw. pose proof (zlen_nonneg toks) as N0. fold N in N0. split; [|split].
  - rewrite text_w, !zlen_app, zlen_map, Zw. change (zlen [term]) with 1. change (zlen [0; 0; 0]) with 3. lia.
  - intros i Hi. destruct (Z.eq_dec i (N + 1)) as [->|]; [rewrite text_term; unfold term, off; lia|]. rewrite text_at by lia. pose proof (w_at i ltac:(lia)). unfold term, off. lia.
  - intros i Hi. rewrite text_w, at0_app_r by (rewrite zlen_app, zlen_map, Zw; change (zlen [term]) with 1; lia). rewrite zlen_app, zlen_map, Zw. change (zlen [term]) with 1.
    destruct (Z.eq_dec i (N + 2)) as [->|]; [now replace (N + 2 - (N + 1 + 1)) with 0 by lia|]. destruct (Z.eq_dec i (N + 3)) as [->|]; [now replace (N + 3 - (N + 1 + 1)) with 1 by lia|]. destruct (Z.eq_dec i (N + 4)) as [->|]; [now replace (N + 4 - (N + 1 + 1)) with 2 by lia|]. apply at0_out. right. change (zlen [0; 0; 0]) with 3. lia.
Qed.

Lemma history_w i : 0 <= i < N -> history eos toks i = skipn (Z.to_nat (N - 1 - i)) w.
Proof.
  intros H. unfold history, w. rewrite skipn_app, skipn_rev. replace (Z.to_nat (N - 1 - i) - length (rev toks))%nat with 0%nat by (rewrite rev_length; unfold N, zlen in *; lia). cbn [skipn]. repeat f_equal. unfold N, zlen in *. lia.
Qed.
Lemma zlen_history i : 0 <= i < N -> zlen (history eos toks i) = i + 2.
Proof. intros H. unfold history. rewrite zlen_app. unfold zlen. rewrite rev_length, firstn_length. cbn [length]. unfold N, zlen in H. lia. Qed.

Lemma text_skip p m : 0 <= p <= N -> 0 <= m <= N + 1 - p -> at0 (map (fun x => x + off) (skipn (Z.to_nat p) w) ++ [term]) m = at0 sufx_text (p + m).
Proof.
  intros Hp Hm. pose proof zlen_w as Zw. assert (Zs : zlen (skipn (Z.to_nat p) w) = N + 1 - p) by (unfold zlen in *; rewrite skipn_length; lia).
  destruct (Z.eq_dec m (N + 1 - p)) as [->|].
  - rewrite at0_app_r by (rewrite zlen_map; lia). rewrite zlen_map, Zs, Z.sub_diag. replace (p + (N + 1 - p)) with (N + 1) by lia. symmetry. exact text_term.
  - rewrite at0_app_l by (rewrite zlen_map; lia). rewrite at0_map, at0_skipn by lia. symmetry. apply text_at. lia.
Qed.

Lemma agree_matched i j k : 0 <= i < N -> 0 <= j < N -> i <> j -> (agree sufx_text (N - 1 - i) (N - 1 - j) k <-> k <= matched eos toks i j).
Proof.
  intros Hi Hj NE. unfold matched.
  pose proof (zlen_history i Hi) as Zi. pose proof (zlen_history j Hj) as Zj.
  assert (BD : forall i x, 0 <= i < N -> In x (history eos toks i) -> x + off < term).
  { intros i0 x Hi0 Hx. assert (mn <= x <= mx); [|unfold term; lia]. apply in_w. rewrite history_w in Hx by auto. rewrite <- (firstn_skipn (Z.to_nat (N - 1 - i0)) w). apply in_or_app. now right. }
  pose proof (agree_lists off term (history eos toks i) (history eos toks j)) as AL.
  assert (TS : forall i m, 0 <= i < N -> 0 <= m <= i + 2 -> at0 (map (fun x => x + off) (history eos toks i) ++ [term]) m = at0 sufx_text (N - 1 - i + m)).
  { intros i0 m Hi0 Hm. rewrite history_w by auto. apply text_skip; lia. }
  split; intros H.
  - destruct (Z.le_gt_cases k (Z.min i j + 3)) as [L|L].
    + apply AL; [lia|intros; now apply (BD i)|intros; now apply (BD j)|]. intros m Hm. rewrite !TS by lia. apply H. lia.
    + (* one of the two would end before the other *)
      exfalso. assert (A : Z.min i j + 3 <= match_len (history eos toks i) (history eos toks j)).
      { apply AL; [lia|intros; now apply (BD i)|intros; now apply (BD j)|]. intros m Hm. rewrite !TS by lia. apply H. lia. }
      pose proof (match_len_le (history eos toks i) (history eos toks j)) as M1. destruct (Z.lt_ge_cases i j); [lia|].
      specialize (H (j + 2) ltac:(lia)). replace (N - 1 - j + (j + 2)) with (N + 1) in H by lia. rewrite text_term in H. rewrite text_at in H by lia. pose proof (w_at (N - 1 - i + (j + 2)) ltac:(lia)). unfold term in H. lia.
  - intros m Hm. pose proof (match_len_le (history eos toks i) (history eos toks j)) as M1.
    assert (M2 : match_len (history eos toks i) (history eos toks j) <= zlen (history eos toks j)).
    { clear. generalize (history eos toks i). generalize (history eos toks j). intros b a. revert b. induction a as [|x a IH]; intros [|y b]; cbn [match_len]; rewrite ?zlen_nil, ?zlen_cons; try lia; try (pose proof (zlen_nonneg b); lia). pose proof (zlen_nonneg b); destruct (x =? y); [specialize (IH b)|]; lia. }
    rewrite <- !TS by lia. revert m Hm. apply AL; auto; [lia|intros; now apply (BD i)|intros; now apply (BD j)].
Qed.

Lemma term_last p : 0 <= p <= N -> suf_lt sufx_text p (N + 1).
Proof. intros H. apply lt_step. left. rewrite text_term, text_at by lia. pose proof (w_at p H). unfold term. lia. Qed.

Lemma lcp_ends sa lcp : suffix_array_of sufx_text (N + 2) sa -> lcp_array_of sufx_text (N + 2) sa lcp ->
  (forall m, 0 <= at0 lcp m) /\ at0 lcp 0 = 0 /\ at0 lcp (N + 2 - 1) = 0.
Proof.
  intros SA LC. pose proof (zlen_nonneg toks) as N0. fold N in N0. pose proof LC as (ZL & L0 & _). assert (H1 : 1 <= N + 2) by lia.
  assert (A0 : at0 lcp 0 = 0) by (unfold at0; now rewrite L0). split; [|split; [exact A0|]].
  - intros m. destruct (Z.le_gt_cases m 0); [destruct (Z.eq_dec m 0) as [->|]; [lia|rewrite at0_out; lia]|]. destruct (Z.lt_ge_cases m (N + 2)); [|rewrite at0_out; lia]. apply (lc_adj _ _ _ SA H1 _ LC m). lia.
  - destruct (lc_adj _ _ _ SA H1 _ LC (N + 2 - 1) ltac:(lia)) as (P1 & P2 & P3). set (k := at0 lcp (N + 2 - 1)) in *.
    assert (LAST : at0 sa (N + 2 - 1) = N + 1).
    { destruct (sa_rank _ _ _ SA H1 (N + 1) ltac:(lia)) as (r & R1 & R2). destruct (Z.eq_dec r (N + 2 - 1)) as [->|]; [exact R2|]. exfalso. destruct (sa_rd _ _ _ SA H1 (N + 2 - 1) ltac:(lia)) as (_ & B).
      assert (at0 sa (N + 2 - 1) <> N + 1) by (intros E; rewrite <- R2 in E; apply (sa_inj _ _ _ SA H1) in E; lia).
      pose proof (term_last (at0 sa (N + 2 - 1)) ltac:(lia)) as L. rewrite <- R2 in L. apply (sa_lt_inv _ _ _ SA H1) in L; lia. }
    rewrite LAST in *. destruct (Z.eq_dec k 0); [auto|]. exfalso. specialize (P2 0 ltac:(lia)). rewrite !Z.add_0_r, text_term in P2.
    destruct (sa_rd _ _ _ SA H1 (N + 2 - 1 - 1) ltac:(lia)) as (_ & B).
    assert (at0 sa (N + 2 - 1 - 1) <> N + 1) by (intros E; rewrite <- LAST in E; apply (sa_inj _ _ _ SA H1) in E; lia).
    rewrite text_at in P2 by lia. pose proof (w_at (at0 sa (N + 2 - 1 - 1)) ltac:(lia)). unfold term in P2. lia.
Qed.
End Text.
