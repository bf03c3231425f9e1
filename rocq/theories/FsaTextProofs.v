(** * Proofs about the text formats. *)
From Coq Require Import ZArith List Lia Bool.
From Verif Require Import Base RaggedModel RaggedSpec FsaSpec FsaLemmas PyBase FsaTextModel FsaTextSpec.
Import ListNotations.
Open Scope Z_scope.

(** ** Reading characters *)

Lemma cws_cases c : cws c = true -> 9 <= c <= 13 \/ c = 32.
Proof. unfold cws. intros H. apply orb_true_iff in H. destruct H as [H|H]; [|lia]. apply andb_true_iff in H. lia. Qed.

Lemma cws_not_digit c : cws c = true -> digit c = false.
Proof. intros H. apply cws_cases in H. unfold digit. apply andb_false_iff. lia. Qed.

Lemma digit_not_cws c : digit c = true -> cws c = false.
Proof. intros H. destruct (cws c) eqn:E; auto. apply cws_not_digit in E. congruence. Qed.

Lemma skip_ws_app w r : Forall (fun c => cws c = true) w -> skip_ws (w ++ r) = skip_ws r.
Proof. induction 1 as [|c w H F IH]; simpl; auto. now rewrite H. Qed.

Lemma skip_ws_id c t : cws c = false -> skip_ws (c :: t) = c :: t.
Proof. intros H. simpl. now rewrite H. Qed.

Lemma span_digits_app ds r : Forall (fun c => digit c = true) ds ->
  match r with c :: _ => digit c = false | [] => True end -> span_digits (ds ++ r) = (ds, r).
Proof.
  induction 1 as [|c ds H F IH]; intros Hr; simpl.
  - destruct r as [|c r]; simpl; auto. now rewrite Hr.
  - rewrite H, IH by auto. reflexivity.
Qed.

Lemma span_digits_all s t : span_digits s = (t, []) -> t = s /\ Forall (fun c => digit c = true) s.
Proof.
  revert t. induction s as [|c s IH]; simpl; intros t H.
  - injection H as <-. auto.
  - destruct (digit c) eqn:E; [|discriminate]. destruct (span_digits s) as [a b] eqn:Es.
    injection H as <- ->. destruct (IH a eq_refl) as [-> F]. auto.
Qed.

Lemma int_tok_prefix t v r : int_tok t v -> sep_end r -> int_prefix (t ++ r) = (t, r).
Proof.
  intros (H & P & _) Hr.
  assert (Hd : match r with c :: _ => digit c = false | [] => True end).
  { destruct r as [|c r]; auto. now apply cws_not_digit. }
  destruct t as [|c t]; [discriminate|]. unfold int_prefix in *. rewrite <- app_comm_cons in *. cbv iota beta in *.
  destruct ((c =? 45) || (c =? 43)).
  - destruct (span_digits t) as [a b] eqn:E. injection H as -> ->.
    apply span_digits_all in E. destruct E as [_ F]. rewrite span_digits_app by auto. reflexivity.
  - apply span_digits_all in H. destruct H as [_ F]. now apply (span_digits_app (c :: t)).
Qed.

Lemma int_tok_head t v : int_tok t v -> exists c u, t = c :: u /\ cws c = false /\ c <> 93 /\ c <> 73.
Proof.
  intros (H & P & _). destruct t as [|c u]; [discriminate|]. exists c, u. split; auto.
  unfold int_prefix in H. destruct ((c =? 45) || (c =? 43)) eqn:E.
  - apply orb_true_iff in E. destruct E as [E|E]; apply Z.eqb_eq in E; subst; repeat split; auto; lia.
  - apply span_digits_all in H. destruct H as [_ F]. inversion F; subst. split; [now apply digit_not_cws|].
    unfold digit in H1. apply andb_true_iff in H1. lia.
Qed.

Lemma print_int_tok v : in32 v = true -> int_tok (print_int v) v.
Proof.
  intros H. split; [|split; [apply parse_print_int|exact H]].
  unfold print_int, int_prefix. pose proof (uint_chars_nonempty v) as NE.
  assert (D : forall u, Forall (fun c => digit c = true) (uint_chars u)).
  { intros u. apply Forall_forall. intros c Hc. apply uint_chars_digit in Hc. unfold digit. apply andb_true_iff. lia. }
  destruct (Z.to_int v) as [u|u]; specialize (D u).
  - destruct (uint_chars u) as [|c t] eqn:E; [congruence|].
    inversion D; subst. unfold digit in H2. apply andb_true_iff in H2.
    replace (c =? 45) with false by lia. replace (c =? 43) with false by lia. cbv [orb].
    rewrite <- (app_nil_r (c :: t)) at 1. now apply span_digits_app.
  - change ((45 =? 45) || (45 =? 43)) with true. cbv iota.
    rewrite <- (app_nil_r (uint_chars u)) at 1. rewrite span_digits_app by auto. reflexivity.
Qed.

Lemma is_nil_app_cons {A} (x : A) l : is_nil (x :: l) = false.
Proof. reflexivity. Qed.

Lemma read_int_tok w t v r : Forall (fun c => cws c = true) w -> int_tok t v -> sep_end r ->
  read_int (open (w ++ t ++ r)) = (v, mkS r (is_nil r) false).
Proof.
  intros Hw Ht Hr. unfold read_int. change (good (open (w ++ t ++ r))) with true. cbv iota.
  change (s_rest (open (w ++ t ++ r))) with (w ++ t ++ r). rewrite skip_ws_app by auto.
  destruct (int_tok_head _ _ Ht) as (c & u & -> & Hc & _).
  rewrite <- app_comm_cons, skip_ws_id by auto. rewrite app_comm_cons.
  destruct ((c :: u) ++ r) eqn:E; [discriminate|]. rewrite <- E.
  rewrite (int_tok_prefix _ _ _ Ht Hr). destruct Ht as (_ & -> & ->). reflexivity.
Qed.

Definition sp1 : Forall (fun c => cws c = true) [32].
Proof. repeat constructor. Qed.

Lemma read_float_tok fl w t v r : Forall (fun c => cws c = true) w -> fl_tok fl t v -> sep_end r ->
  read_float fl (open (w ++ t ++ r)) = (v, mkS r (is_nil r) false).
Proof.
  intros Hw ((c & u & -> & Hc) & Ht) Hr. unfold read_float.
  change (good (open (w ++ (c :: u) ++ r))) with true. cbv iota.
  change (s_rest (open (w ++ (c :: u) ++ r))) with (w ++ (c :: u) ++ r). rewrite skip_ws_app by auto.
  rewrite <- app_comm_cons, skip_ws_id by auto. rewrite app_comm_cons.
  destruct ((c :: u) ++ r) eqn:E; [discriminate|]. rewrite <- E. now rewrite Ht.
Qed.

Lemma read_double_tok dbl w t v r : Forall (fun c => cws c = true) w -> (exists c u, t = c :: u /\ cws c = false) ->
  dbl_tok dbl t v -> sep_end r ->
  read_double dbl (open (w ++ t ++ r)) = (Some v, mkS r (is_nil r) false).
Proof.
  intros Hw (c & u & -> & Hc) Ht Hr. unfold read_double.
  change (good (open (w ++ (c :: u) ++ r))) with true. cbv iota.
  change (s_rest (open (w ++ (c :: u) ++ r))) with (w ++ (c :: u) ++ r). rewrite skip_ws_app by auto.
  rewrite <- app_comm_cons, skip_ws_id by auto. rewrite app_comm_cons.
  destruct ((c :: u) ++ r) eqn:E; [discriminate|]. rewrite <- E. now rewrite Ht.
Qed.

Lemma ws_open wsf w r : Forall (fun c => cws c = true) w -> (match r with c :: _ => cws c = false | [] => True end) ->
  ws wsf (open (w ++ r)) = mkS r (is_nil r) false.
Proof.
  intros Hw Hr. unfold ws. change (good (open (w ++ r))) with true. cbv iota zeta.
  change (s_rest (open (w ++ r))) with (w ++ r). rewrite skip_ws_app by auto.
  destruct r as [|c r]; [reflexivity|]. now rewrite skip_ws_id.
Qed.

(** ** Lines *)
Lemma split_lines_text (ls : list str) : Forall (fun l => ~ In 10 l) ls ->
  split_on 10 (concat (map (fun l => l ++ [10]) ls)) = ls ++ [[]].
Proof.
  induction 1 as [|l ls H F IH]; [reflexivity|]. cbn [map concat].
  rewrite <- app_assoc. change ([10] ++ concat (map (fun l => l ++ [10]) ls)) with (10 :: concat (map (fun l => l ++ [10]) ls)).
  rewrite split_on_line by auto. now rewrite IH.
Qed.

Lemma print_int_no_nl v : ~ In 10 (print_int v).
Proof. apply no_ws_no_nl, print_int_no_ws. Qed.

(** ** Arcs counted by source state *)
Definition cnt (A : list arc) (q : Z) : Z := zlen (filter (fun a => src a <? q) A).

Lemma cnt_app A B q : cnt (A ++ B) q = cnt A q + cnt B q.
Proof. unfold cnt. now rewrite filter_app, zlen_app. Qed.

Lemma cnt_all A q : (forall a, In a A -> src a < q) -> cnt A q = zlen A.
Proof.
  unfold cnt. intros H. f_equal. induction A as [|a A IH]; auto. simpl.
  assert (src a < q) by (apply H; now left). replace (src a <? q) with true by lia.
  f_equal. apply IH. intros; apply H; now right.
Qed.

Lemma cnt_none A q : (forall a, In a A -> q <= src a) -> cnt A q = 0.
Proof.
  unfold cnt. intros H. induction A as [|a A IH]; auto. simpl.
  assert (q <= src a) by (apply H; now left). replace (src a <? q) with false by lia.
  apply IH. intros; apply H; now right.
Qed.

Lemma src_ok_app f row : src_ok (f ++ [row]) <-> src_ok f /\ (forall a, In a row -> src a = zlen f).
Proof.
  split.
  - intros H. split.
    + intros i st a Hi. apply (H i st a). pose proof (rd_Some_bound _ _ _ Hi). rewrite rd_app_l by lia. exact Hi.
    + intros a Ha. apply (H (zlen f) row a); auto. rewrite rd_app_r by lia. replace (zlen f - zlen f) with 0 by lia. reflexivity.
  - intros [H1 H2] i st a Hi Ha. pose proof (rd_Some_bound _ _ _ Hi) as B. rewrite zlen_app in B. change (zlen [row]) with 1 in B.
    destruct (Z.eq_dec i (zlen f)) as [->|N].
    + rewrite rd_app_r in Hi by lia. replace (zlen f - zlen f) with 0 in Hi by lia. injection Hi as ->. auto.
    + rewrite rd_app_l in Hi by lia. eauto.
Qed.

Lemma src_ok_bound f a : src_ok f -> In a (concat f) -> 0 <= src a < zlen f.
Proof.
  intros H Ha. apply in_concat in Ha. destruct Ha as (st & Hs & Ha). apply In_rd in Hs. destruct Hs as (i & B & Hi).
  rewrite (H i st a Hi Ha). exact B.
Qed.

Lemma exsum_from_app l x : forall acc, exsum_from acc (l ++ [x]) = exsum_from acc l ++ [acc + zsum l + x].
Proof.
  induction l as [|y l IH]; intros acc; cbn [app exsum_from zsum].
  - do 2 f_equal. lia.
  - rewrite IH. cbn [app]. do 3 f_equal. lia.
Qed.

Lemma splits_of_snoc {A} (f : list (list A)) row : splits_of (f ++ [row]) = splits_of f ++ [zlen (concat f) + zlen row].
Proof.
  unfold splits_of. rewrite map_app. unfold exsum. cbn [map]. rewrite exsum_from_app. do 2 f_equal.
  rewrite zsum_zlen_concat. lia.
Qed.

Lemma cnt_splits f : src_ok f -> splits_of f = map (cnt (concat f)) (zrange (zlen f + 1)).
Proof.
  induction f as [|row f IH] using rev_ind; intros H; [reflexivity|].
  apply src_ok_app in H. destruct H as [H1 H2]. rewrite splits_of_snoc, zlen_app. change (zlen [row]) with 1.
  pose proof (zlen_nonneg f).
  rewrite zrange_S by lia. rewrite map_app. cbn [map].
  rewrite concat_app. cbn [concat]. rewrite app_nil_r. f_equal.
  - rewrite IH by auto. apply map_ext_in. intros q Hq. apply in_zrange in Hq. rewrite cnt_app.
    rewrite (cnt_none row); [lia|]. intros a Ha. rewrite (H2 a Ha). lia.
  - f_equal. rewrite cnt_app, !cnt_all; auto.
    + intros a Ha. rewrite (H2 a Ha). lia.
    + intros a Ha. apply src_ok_bound in Ha; auto. lia.
Qed.
