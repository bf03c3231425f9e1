(** * C62: best-match statistics. *)
From Coq Require Import ZArith QArith List Bool Lia Sorting.Sorted Sorting.Permutation.
From Verif Require Import Base RaggedModel OpsModel IDenseSpec SufModel SufSpec SufRadix SufDc3Main SufLcp SufTree SufText SufStats.
Import ListNotations.
Open Scope Z_scope.

(** CreateSuffixArray returns the suffix array of any text of [n] positive symbols *)
Theorem C62_suffix_array : forall t n K, padded t n K -> 1 <= n ->
  exists sa, create_suffix_array (Z.to_nat n) t n K = Some sa /\ suffix_array_of t n sa.
Proof. intros t n K W Hn. apply dc3_ok; auto. lia. Qed.
Print Assumptions C62_suffix_array.
Example C62_suffix_array_ex : padded [2; 1; 3; 1; 3; 1; 0; 0; 0] 6 3 /\ create_suffix_array 6 [2; 1; 3; 1; 3; 1; 0; 0; 0] 6 3 = Some [5; 3; 1; 0; 4; 2].
Proof.
  split; [|vm_compute; reflexivity]. split; [reflexivity|]. split.
  - intros i Hi. assert (C : i = 0 \/ i = 1 \/ i = 2 \/ i = 3 \/ i = 4 \/ i = 5) by lia. repeat destruct C as [->|C]; [..|subst i]; vm_compute; split; intro; discriminate.
  - intros i Hi. destruct (Z.lt_ge_cases i 9); [|apply at0_out; right; exact H]. assert (C : i = 6 \/ i = 7 \/ i = 8) by lia. repeat destruct C as [->|C]; [..|subst i]; reflexivity.
Qed.

(** CreateLcpArray returns the lengths of the common prefixes of neighbours *)
Theorem C62_lcp_array : forall t n K sa, padded t n K -> 1 <= n -> suffix_array_of t n sa ->
  exists lcp, create_lcp_array t sa n = Some lcp /\ lcp_array_of t n sa lcp.
Proof. intros t n K sa W Hn SA. now apply (create_lcp_ok t n K W). Qed.
Print Assumptions C62_lcp_array.
Example C62_lcp_array_ex : create_lcp_array [2; 1; 3; 1; 3; 1; 0; 0; 0] [5; 3; 1; 0; 4; 2] 6 = Some [0; 1; 3; 0; 0; 2].
Proof. vm_compute. reflexivity. Qed.

(** The result [r] for one collection: all zeros if there is no key, and otherwise the
    statistics of the best matching keys for every query *)
Definition zero_stat : stat := mkSt 0 0 0 0.
Definition no_keys (tokens : list (list Z)) (counts : list Z) : Prop := forall j, 0 <= j < zlen (concat tokens) -> at0 counts j = 0.
Definition collection_ok (eos max_order : Z) (tokens : list (list Z)) (scores counts : list Z) (r : list stat) : Prop :=
  zlen r = zlen (concat tokens) /\
  (no_keys tokens counts -> forall st, In st r -> st = zero_stat) /\
  (~ no_keys tokens counts -> (forall j, at0 counts j = 0 -> at0 scores j = 0) ->
   forall i st, rd r i = Some st -> at0 counts i = 0 ->
   best_stats eos max_order tokens scores counts i (o_mean st) (o_var st) (o_count st) (o_order st)).

(** what a caller has to provide for a collection *)
Definition input_ok (min_token max_token : Z) (tokens : list (list Z)) (scores counts : list Z) : Prop :=
  (forall x, In x (concat tokens) -> min_token <= x <= max_token) /\
  zlen scores = zlen (concat tokens) /\ zlen counts = zlen (concat tokens) /\ forall x, In x counts -> x = 0 \/ x = 1.

Lemma counts_01 (counts : list Z) : (forall x, In x counts -> x = 0 \/ x = 1) -> forall j, at0 counts j = 0 \/ at0 counts j = 1.
Proof. intros H j. destruct (Z.lt_ge_cases j 0); [left; apply at0_out; lia|]. destruct (Z.lt_ge_cases j (zlen counts)); [|left; apply at0_out; lia]. apply H. apply (rd_In counts j). apply at0_rd. lia. Qed.

Theorem C62_two_axes : forall tokens scores counts eos min_token max_token max_order,
  min_token <= eos <= max_token -> 2 <= max_order -> input_ok min_token max_token tokens scores counts ->
  exists r, stats_checked tokens scores counts eos min_token max_token max_order = Some r /\ collection_ok eos max_order tokens scores counts r.
Proof.
  intros tokens scores counts eos mn mx mo HE HO (HT & ZS & ZC & H01). unfold stats_checked.
  replace ((mn <=? eos) && (eos <=? mx)) with true by lia. replace (2 <=? mo) with true by lia. rewrite ZS, ZC, Z.eqb_refl.
  pose proof (counts_01 counts H01) as C01.
  destruct (Z.eqb_spec (zlen (concat tokens)) 0) as [Z0|Z0].
  { exists []. split; [reflexivity|]. split; [now rewrite Z0|]. split; [intros _ st []|]. intros _ _ i st R. apply rd_In in R. destruct R. }
  assert (C0 : forall j, 0 <= at0 counts j) by (intros j; destruct (C01 j); lia).
  destruct (stats2_ok tokens scores counts eos mn mx mo HT HE ZS ZC C0) as (r & E & ZR & R0 & R1). exists r. split; [exact E|]. split; [exact ZR|].
  assert (TP := total_pos tokens counts C0). split.
  - intros NK st HI. rewrite R0 in HI.
    + apply in_map_iff in HI. destruct HI as (x & <- & _). reflexivity.
    + assert (0 <= total_keys tokens counts) by (apply zsum_nonneg; rewrite Forall_forall; intros z Hz; apply in_map_iff in Hz; destruct Hz as (u & <- & _); apply C0). destruct (Z.eq_dec (total_keys tokens counts) 0); [auto|]. exfalso. destruct (proj1 TP ltac:(lia)) as (j & J1 & J2). specialize (NK j J1). lia.
  - intros NK HQ i st HR Ci. apply query_best.
    + intros j Hj. destruct (C01 j) as [C|C]; [left; auto|now right].
    + apply R1; auto. destruct (Z.lt_ge_cases 0 (total_keys tokens counts)) as [L|L]; [exact L|]. exfalso. apply NK. intros j Hj. destruct (C01 j) as [C|C]; [exact C|]. assert (0 < total_keys tokens counts); [|lia]. apply TP. exists j. split; [exact Hj|lia].
Qed.
Print Assumptions C62_two_axes.
(* eos = 0: keys "1 2 0" and "3 2 0", query "3 1 2 0" *)
Definition ex_tokens := [[1; 2; 0]; [3; 2; 0]; [3; 1; 2; 0]].
Definition ex_scores := [5; 7; 1; 2; 9; 3; 0; 0; 0; 0].
Definition ex_counts := [1; 1; 1; 1; 1; 1; 0; 0; 0; 0].
Definition show (r : option (list stat)) := option_map (map (fun st => (Qred (o_mean st), Qred (o_var st), o_count st, o_order st))) r.
Lemma ex_in : input_ok 0 3 ex_tokens ex_scores ex_counts.
Proof.
  split; [|split; [reflexivity|split; [reflexivity|]]].
  - intros x H. repeat (destruct H as [<-|H]; [lia|]). destruct H.
  - intros x H. repeat (destruct H as [<-|H]; [lia|]). destruct H.
Qed.
Example C62_two_axes_ex : input_ok 0 3 ex_tokens ex_scores ex_counts /\ ~ no_keys ex_tokens ex_counts /\ (forall j, at0 ex_counts j = 0 -> at0 ex_scores j = 0) /\
  show (stats_checked ex_tokens ex_scores ex_counts 0 0 3 10) =
  Some [(5%Q, 0%Q, 1, 10); (7%Q, 0%Q, 1, 10); (1%Q, 0%Q, 1, 10); (2%Q, 0%Q, 1, 10); (8%Q, 1%Q, 2, 1); (2%Q, 1%Q, 2, 2);
        (2%Q, 0%Q, 1, 10); (5%Q, 0%Q, 1, 1); (7%Q, 0%Q, 1, 2); (1%Q, 0%Q, 1, 3)].
Proof.
  split; [exact ex_in|]. split; [intros H; specialize (H 0 ltac:(vm_compute; split; [intro|]; congruence)); discriminate|]. split; [|vm_compute; reflexivity].
  intros j. destruct (Z.lt_ge_cases j 0); [intros _; apply at0_out; now left|]. destruct (Z.lt_ge_cases j 10); [|intros _; apply at0_out; right; exact H0].
  assert (C : j = 0 \/ j = 1 \/ j = 2 \/ j = 3 \/ j = 4 \/ j = 5 \/ j = 6 \/ j = 7 \/ j = 8 \/ j = 9) by lia. repeat destruct C as [->|C]; [..|subst j]; vm_compute; congruence.
Qed.

(** With three axes every collection is treated by itself *)
Theorem C62_three_axes : forall (cs : list (list (list Z) * list Z * list Z)) eos min_token max_token max_order,
  min_token <= eos <= max_token -> 2 <= max_order -> (forall t s c, In (t, s, c) cs -> input_ok min_token max_token t s c) ->
  exists rs, get_best_matching_stats3 (map (fun x => fst (fst x)) cs) (concat (map (fun x => snd (fst x)) cs)) (concat (map snd cs)) eos min_token max_token max_order = Some (concat rs) /\
    Forall2 (fun x r => collection_ok eos max_order (fst (fst x)) (snd (fst x)) (snd x) r) cs rs.
Proof.
  intros cs eos mn mx mo HE HO HI. unfold get_best_matching_stats3. replace ((mn <=? eos) && (eos <=? mx)) with true by lia. replace (2 <=? mo) with true by lia.
  assert (ZZ : zlen (concat (concat (map (fun x => fst (fst x)) cs))) = zlen (concat (map (fun x => snd (fst x)) cs)) /\ zlen (concat (concat (map (fun x => fst (fst x)) cs))) = zlen (concat (map snd cs))).
  { clear - HI. induction cs as [|((t & s) & c) cs IH]; [split; reflexivity|]. cbn [map concat fst snd]. rewrite concat_app, !zlen_app. destruct IH as (I1 & I2); [intros; apply HI; now right|]. destruct (HI t s c (or_introl eq_refl)) as (_ & ZS & ZC & _). lia. }
  destruct ZZ as (Z1 & Z2). rewrite <- Z1, <- Z2, Z.eqb_refl. clear Z1 Z2.
  induction cs as [|((t & s) & c) cs IH]; [exists []; split; [reflexivity|constructor]|]. cbn [map concat fst snd collections].
  destruct (HI t s c (or_introl eq_refl)) as (IT & ZS & ZC & I01).
  assert (F : forall (l l' : list Z), zlen l = zlen (concat t) -> firstn (length (concat t)) (l ++ l') = l /\ skipn (length (concat t)) (l ++ l') = l').
  { intros l l' Zl. assert (El : length (concat t) = length l) by (unfold zlen in Zl; lia). rewrite El, firstn_app, skipn_app, Nat.sub_diag, firstn_all, skipn_all. cbn [firstn skipn]. now rewrite app_nil_r. }
  destruct (F s (concat (map (fun x => snd (fst x)) cs)) ZS) as (-> & ->). destruct (F c (concat (map snd cs)) ZC) as (-> & ->).
  destruct (C62_two_axes t s c eos mn mx mo HE HO (HI t s c (or_introl eq_refl))) as (r & E & OK). rewrite E.
  destruct IH as (rs & E2 & OKS); [intros; apply HI; now right|]. rewrite E2. exists (r :: rs). split; [reflexivity|]. constructor; [exact OK|exact OKS].
Qed.
Print Assumptions C62_three_axes.
Example C62_three_axes_ex : (forall t s c, In (t, s, c) [(ex_tokens, ex_scores, ex_counts); ([], [], []); (ex_tokens, ex_scores, ex_counts)] -> input_ok 0 3 t s c) /\
  option_map zlen (show (get_best_matching_stats3 [ex_tokens; []; ex_tokens] (ex_scores ++ ex_scores) (ex_counts ++ ex_counts) 0 0 3 10)) = Some 20.
Proof.
  split; [|vm_compute; reflexivity]. intros t s c [H|[H|[H|[]]]]; injection H as <- <- <-; try exact ex_in. split; [intros x []|]. split; [reflexivity|]. split; [reflexivity|intros x []].
Qed.

(** ** Where the documentation and the code differ *)
(** The scores of query positions take part in the sums: here the only keys are worth 5
    and 7, no key matches position 2, and the result is a mean of 8 with a negative variance *)
Theorem C62_query_scores_refuted : exists tokens scores counts r st, input_ok 0 3 tokens scores counts /\
  stats_checked tokens scores counts 0 0 3 10 = Some r /\ rd r 2 = Some st /\ at0 counts 2 = 0 /\
  (forall j, at0 counts j = 1 -> at0 scores j = 5 \/ at0 scores j = 7) /\ (o_mean st == 8 /\ o_var st < 0)%Q.
Proof.
  exists [[1; 0]; [2; 0]], [5; 7; 4; 0], [1; 1; 0; 0].
  eexists. eexists. split; [|split; [vm_compute; reflexivity|split; [reflexivity|split; [reflexivity|split]]]].
  - split; [intros x H; repeat (destruct H as [<-|H]; [lia|]); destruct H|]. split; [reflexivity|]. split; [reflexivity|]. intros x H; repeat (destruct H as [<-|H]; [lia|]); destruct H.
  - intros j. destruct (Z.lt_ge_cases j 0); [rewrite (at0_out [1; 1; 0; 0]) by (now left); discriminate|]. destruct (Z.lt_ge_cases j 4); [|rewrite (at0_out [1; 1; 0; 0]) by (right; exact H0); discriminate].
    assert (C : j = 0 \/ j = 1 \/ j = 2 \/ j = 3) by lia. repeat destruct C as [->|C]; [..|subst j]; vm_compute; auto; discriminate.
  - split; vm_compute; reflexivity.
Qed.
Print Assumptions C62_query_scores_refuted.

(** "counts_out should only be zero if counts was all zero": it is also zero for a query
    that matches no key, although the mean of all the keys is returned *)
Theorem C62_count_zero_refuted : exists tokens scores counts r st, input_ok 0 3 tokens scores counts /\
  (forall j, at0 counts j = 0 -> at0 scores j = 0) /\
  stats_checked tokens scores counts 0 0 3 10 = Some r /\ rd r 2 = Some st /\ at0 counts 2 = 0 /\ ~ no_keys tokens counts /\ o_count st = 0 /\ (o_mean st == 6)%Q.
Proof.
  exists [[1; 0]; [2; 0]], [5; 7; 0; 0], [1; 1; 0; 0].
  eexists. eexists. split; [|split; [|split; [vm_compute; reflexivity|split; [reflexivity|split; [reflexivity|split; [|split; [reflexivity|vm_compute; reflexivity]]]]]]].
  - split; [intros x H; repeat (destruct H as [<-|H]; [lia|]); destruct H|]. split; [reflexivity|]. split; [reflexivity|]. intros x H; repeat (destruct H as [<-|H]; [lia|]); destruct H.
  - intros j. destruct (Z.lt_ge_cases j 0); [intros _; apply at0_out; now left|]. destruct (Z.lt_ge_cases j 4); [|intros _; apply at0_out; right; exact H0].
    assert (C : j = 0 \/ j = 1 \/ j = 2 \/ j = 3) by lia. repeat destruct C as [->|C]; [..|subst j]; vm_compute; congruence.
  - intros H. specialize (H 0 ltac:(vm_compute; split; [intro|]; congruence)). discriminate.
Qed.
Print Assumptions C62_count_zero_refuted.

(** "max_order if we matched all the way to the beginning of both sentences": the query "2"
    matches only the last word of the key "1 2", and the order is max_order all the same *)
Theorem C62_order_refuted : exists tokens scores counts r st, input_ok 0 3 tokens scores counts /\
  stats_checked tokens scores counts 0 0 3 10 = Some r /\ rd r 3 = Some st /\ at0 counts 3 = 0 /\
  best_len 0 (concat tokens) counts 3 1 /\ o_order st = 10 /\
  forall j, 0 <= j < zlen (concat tokens) -> 0 < at0 counts j -> matched 0 (concat tokens) 3 j = 1 -> place tokens j 1.
Proof.
  exists [[1; 2; 0]; [2; 0]], [5; 7; 1; 0; 0], [1; 1; 1; 0; 0].
  eexists. eexists. split; [|split; [vm_compute; reflexivity|split; [reflexivity|split; [reflexivity|split; [|split; [reflexivity|]]]]]].
  - split; [intros x H; repeat (destruct H as [<-|H]; [lia|]); destruct H|]. split; [reflexivity|]. split; [reflexivity|]. intros x H; repeat (destruct H as [<-|H]; [lia|]); destruct H.
  - split; [exists 1; vm_compute; repeat split; congruence|]. intros j Hj. change (0 <= j < 5) in Hj. assert (C : j = 0 \/ j = 1 \/ j = 2 \/ j = 3 \/ j = 4) by lia. repeat destruct C as [->|C]; [..|subst j]; vm_compute; congruence.
  - intros j Hj. change (0 <= j < 5) in Hj. assert (C : j = 0 \/ j = 1 \/ j = 2 \/ j = 3 \/ j = 4) by lia. repeat destruct C as [->|C]; [..|subst j]; intros H1 H2; try (vm_compute in H1; discriminate); try (vm_compute in H2; discriminate). exists [], [1; 2; 0], [[2; 0]]. split; [reflexivity|]. split; [reflexivity|]. vm_compute. split; congruence.
Qed.
Print Assumptions C62_order_refuted.
