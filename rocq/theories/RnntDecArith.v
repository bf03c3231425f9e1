(** * Contexts as numbers, and one step of a hypothesis *)
From Coq Require Import ZArith List Lia Bool.
From Coq Require Import ZifyBool ZifyNat.
From Verif Require Import Base RaggedModel RaggedSpec RaggedProofs FsaSpec FsaLemmas RaggedOpsModel OpsModel RaggedOpsProofs IDenseModel IDenseSpec RnntDecModel RnntDecSpec.
Import ListNotations.
Open Scope Z_scope.

Section Arith.
Context (V h : Z).
Hypothesis HV : 1 <= V.
Hypothesis Hh : 1 <= h.
Definition ctxof (code : Z) : list Z := map (fun col => code mod V ^ (h - col) / V ^ (h - col - 1)) (zrange h).
Lemma pw k : 0 <= k -> 1 <= V ^ k.
Proof. intros Hk. pose proof (Z.pow_pos_nonneg V k ltac:(lia) Hk). lia. Qed.
Lemma pwS k : 1 <= k -> V ^ k = V * V ^ (k - 1).
Proof. intros Hk. replace k with (Z.succ (k - 1)) at 1 by lia. apply Z.pow_succ_r. lia. Qed.
Lemma zlen_ctxof code : zlen (ctxof code) = h.
Proof. unfold ctxof. rewrite zlen_map, zlen_zrange; lia. Qed.
Lemma rd_ctxof code col : 0 <= col < h -> rd (ctxof code) col = Some (code mod V ^ (h - col) / V ^ (h - col - 1)).
Proof. intros H. unfold ctxof. rewrite rd_map, rd_zrange by lia. reflexivity. Qed.
Lemma ctxof_dig code d : In d (ctxof code) -> 0 <= d < V.
Proof.
  intros H. unfold ctxof in H. apply in_map_iff in H as (col & <- & Hc). apply in_zrange in Hc. pose proof (pw (h - col) ltac:(lia)) as P1. pose proof (pw (h - col - 1) ltac:(lia)) as P2. pose proof (pwS (h - col) ltac:(lia)) as P3.
  pose proof (Z.mod_pos_bound code (V ^ (h - col)) ltac:(lia)). split; [apply Z.div_pos; lia|]. apply Z.div_lt_upper_bound; [lia|]. rewrite Z.mul_comm, <- P3. lia.
Qed.
Lemma ctxof_0 : ctxof 0 = repeat 0 (Z.to_nat h).
Proof.
  apply list_ext_rd; [rewrite zlen_ctxof; unfold zlen; rewrite repeat_length; lia|]. intros i Hi. rewrite zlen_ctxof in Hi. rewrite rd_ctxof by lia. pose proof (pw (h - i) ltac:(lia)). pose proof (pw (h - i - 1) ltac:(lia)). rewrite Z.mod_0_l, Z.div_0_l by lia.
  symmetry. destruct (rd_in_bound (repeat 0 (Z.to_nat h)) i) as (x & Hx); [unfold zlen; rewrite repeat_length; lia|]. rewrite Hx. f_equal. apply rd_In in Hx. eapply repeat_spec; eauto.
Qed.
Definition code' (code l : Z) : Z := if (l =? 0) || (l =? -1) then code else code mod V ^ (h - 1) * V + l.
Lemma code'_rng code l : 0 <= code < V ^ h -> -1 <= l < V -> 0 <= code' code l < V ^ h.
Proof.
  intros Hc Hl. unfold code'. destruct ((l =? 0) || (l =? -1)) eqn:E; [exact Hc|]. pose proof (pw (h - 1) ltac:(lia)). pose proof (Z.mod_pos_bound code (V ^ (h - 1)) ltac:(lia)). rewrite (pwS h Hh). nia.
Qed.
Lemma rd_tl {A} (l : list A) i : 0 <= i -> rd (tl l) i = rd l (i + 1).
Proof. intros Hi. destruct l as [|x l]; [cbn [tl]; now rewrite !rd_nil|]. cbn [tl]. now rewrite rd_cons_S. Qed.
Lemma ctxof_push code l : 0 <= code < V ^ h -> -1 <= l < V -> ctxof (code' code l) = push (ctxof code) l.
Proof.
  intros Hc Hl. unfold code', push. destruct ((l =? 0) || (l =? -1)) eqn:E; [reflexivity|]. assert (L : 0 < l < V) by lia. clear E.
  assert (Zt : zlen (tl (ctxof code)) = h - 1). { pose proof (zlen_ctxof code). destruct (ctxof code); [rewrite zlen_nil in H; lia|]. rewrite zlen_cons in H. cbn [tl]. lia. }
  apply list_ext_rd; [rewrite zlen_app, Zt, zlen_ctxof, zlen_cons, zlen_nil; lia|]. intros i Hi. rewrite zlen_ctxof in Hi. rewrite rd_ctxof by lia. set (m := code mod V ^ (h - 1)).
  destruct (Z.eq_dec i (h - 1)) as [->|Hn].
  - rewrite rd_app_r by lia. rewrite Zt, Z.sub_diag, rd_cons_0. replace (h - (h - 1)) with 1 by lia. rewrite Z.pow_1_r. change (1 - 1) with 0. rewrite Z.pow_0_r, Z.div_1_r. f_equal. rewrite Z.add_comm, Z_mod_plus_full. apply Z.mod_small. lia.
  - rewrite rd_app_l by lia. rewrite rd_tl, rd_ctxof by lia. f_equal. set (k := h - i - 1). replace (h - i) with (k + 1) by lia. replace (h - (i + 1)) with k by lia. assert (Hk : 1 <= k <= h - 1) by lia.
    pose proof (pw k ltac:(lia)) as P1. pose proof (pw (k - 1) ltac:(lia)) as P2. pose proof (pwS k ltac:(lia)) as P3. rewrite (pwS (k + 1)) by lia. replace (k + 1 - 1) with k by lia.
    assert (M : (m * V + l) mod (V * V ^ k) = m mod V ^ k * V + l).
    { symmetry. apply Z.mod_unique with (q := m / V ^ k); [left; pose proof (Z.mod_pos_bound m (V ^ k) ltac:(lia)); nia|]. pose proof (Z.div_mod m (V ^ k) ltac:(lia)) as D. nia. }
    rewrite M, P3, <- Z.div_div by lia. rewrite (Z.add_comm _ l), Z_div_plus_full by lia. rewrite (Z.div_small l V) by lia. rewrite Z.add_0_l, <- P3. f_equal. unfold m.
    pose proof (pw (h - 1) ltac:(lia)). symmetry. replace (V ^ (h - 1)) with (V ^ k * V ^ (h - 1 - k)) by (rewrite <- Z.pow_add_r by lia; f_equal; lia). pose proof (pw (h - 1 - k) ltac:(lia)). rewrite Z.rem_mul_r by lia. rewrite Z.mul_comm, Z_mod_plus_full. now rewrite Z.mod_mod by lia.
Qed.
Lemma ctxof_inj a b : 0 <= a < V ^ h -> 0 <= b < V ^ h -> ctxof a = ctxof b -> a = b.
Proof.
  intros Ha Hb E. assert (P : forall k, Z.of_nat k <= h -> a / V ^ (h - Z.of_nat k) = b / V ^ (h - Z.of_nat k)).
  { induction k as [|k IH]; intros Hk; [rewrite Z.sub_0_r, !Z.div_small by lia; reflexivity|]. specialize (IH ltac:(lia)). set (m := h - Z.of_nat k) in *. replace (h - Z.of_nat (S k)) with (m - 1) by lia.
    assert (D : forall x, x / V ^ (m - 1) = x / V ^ m * V + x mod V ^ m / V ^ (m - 1)).
    { intros x. pose proof (pw (m - 1) ltac:(lia)). pose proof (pwS m ltac:(lia)). rewrite (Z.div_mod x (V ^ m)) at 1 by lia. replace (V ^ m * (x / V ^ m)) with (x / V ^ m * V * V ^ (m - 1)) by nia. rewrite Z.add_comm, Z_div_plus_full by lia. lia. }
    rewrite (D a), (D b), IH. f_equal. pose proof (rd_ctxof a (Z.of_nat k) ltac:(lia)) as R1. pose proof (rd_ctxof b (Z.of_nat k) ltac:(lia)) as R2. rewrite E, R2 in R1. injection R1 as R1. fold m in R1. now rewrite R1. }
  specialize (P (Z.to_nat h) ltac:(lia)). rewrite Z2Nat.id, Z.sub_diag, Z.pow_0_r, !Z.div_1_r in P by lia. exact P.
Qed.
End Arith.

(** ** steps *)
Section Larc.
Context (f : nfsa) (c : rcfg) (net : Z -> list Z -> list Z).
Hypothesis Hf : valid f.
Hypothesis HV : 1 <= r_vocab c.
Hypothesis Hh : 1 <= r_hist c.
Hypothesis Hlab : forall a, In a (all_arcs f) -> lab a < r_vocab c.
Notation V := (r_vocab c).
Notation h := (r_hist c).
Notation n := (nstates f).
Notation cof := (ctxof V h).
Notation lp := (logp net).
Notation hy := (hyp f h net).
Definition inr (v : Z) : Prop := 0 <= v < V ^ h * n.
Definition larc (t v ja l w v' : Z) : Prop :=
  (ja = -1 /\ l = 0 /\ v mod n <> n - 1 /\ v' = v /\ w = lp t (cof (v / n)) 0) \/
  (exists b, rd (all_arcs f) ja = Some b /\ src b = v mod n /\ l = lab b /\ v' = code' V h (v / n) (lab b) * n + dst b /\
     w = sc b + lp t (cof (v / n)) (if lab b =? -1 then 0 else lab b)).
Lemma n2 : 2 <= n. Proof. apply Hf. Qed.
Lemma inr_code v : inr v -> 0 <= v / n < V ^ h.
Proof. intros H. unfold inr in H. pose proof n2. split; [apply Z.div_pos; lia|apply Z.div_lt_upper_bound; lia]. Qed.
Lemma join code s : 0 <= s < n -> (code * n + s) / n = code /\ (code * n + s) mod n = s.
Proof. intros H. rewrite Z.add_comm. split; [rewrite Z_div_plus_full by lia; rewrite Z.div_small; lia|rewrite Z_mod_plus_full; apply Z.mod_small; lia]. Qed.
Lemma larc_fun t v ja l w v' l2 w2 v2 : larc t v ja l w v' -> larc t v ja l2 w2 v2 -> l2 = l /\ w2 = w /\ v2 = v'.
Proof.
  intros [(-> & -> & _ & -> & ->)|(b & B1 & B2 & -> & -> & ->)] [(E & -> & _ & -> & ->)|(b' & B1' & B2' & -> & -> & ->)]; auto.
  - apply rd_Some_bound in B1'. lia.
  - apply rd_Some_bound in B1. lia.
  - assert (b' = b) as -> by congruence. auto.
Qed.
Lemma larc_hyp t v ja l w v' p x : inr v -> larc t v ja l w v' -> hy p (v mod n) (cof (v / n)) x -> zlen p = t ->
  inr v' /\ hy (p ++ [ja]) (v' mod n) (cof (v' / n)) (x + w) /\ zlen (p ++ [ja]) = t + 1.
Proof.
  intros Hv HL Hp Ht. assert (Zp : zlen (p ++ [ja]) = t + 1) by (rewrite zlen_app, zlen_cons, zlen_nil; lia). destruct HL as [(-> & -> & E & -> & ->)|(b & B1 & B2 & -> & -> & ->)].
  - split; [exact Hv|]. split; [|exact Zp]. rewrite <- Ht. apply hyp_blank; assumption.
  - pose proof (rd_In _ _ _ B1) as Hb. destruct Hf as (_ & _ & VF). destruct (VF b Hb) as (D & Lb & _). specialize (Hlab b Hb). destruct (join (code' V h (v / n) (lab b)) (dst b) D) as (J1 & J2). rewrite J1, J2. pose proof (inr_code v Hv) as Hc. pose proof (code'_rng V h HV Hh (v / n) (lab b) Hc ltac:(lia)) as Hc'.
    split; [unfold inr; nia|]. split; [|exact Zp]. rewrite (ctxof_push V h HV Hh) by (auto; lia). rewrite <- Ht, Z.add_assoc. eapply hyp_arc; eauto.
Qed.
Lemma hyp_snoc p ja s' c' x' : hy (p ++ [ja]) s' c' x' -> exists s ctx x, hy p s ctx x /\
  forall v, inr v -> v mod n = s -> cof (v / n) = ctx -> exists l w v', larc (zlen p) v ja l w v' /\ v' mod n = s' /\ cof (v' / n) = c' /\ x' = x + w.
Proof.
  intros H. inversion H as [E|p0 s ctx x H1 H2 E|p0 s ctx x j a H1 H2 H3 E].
  - destruct p; discriminate.
  - apply app_inj_tail in E as (-> & <-). exists s', c', x. split; [exact H1|]. intros v Hv Es Ec. exists 0, (lp (zlen p) (cof (v / n)) 0), v. split; [left; repeat split; auto; rewrite Es; exact H2|]. rewrite Ec. auto.
  - apply app_inj_tail in E as (-> & ->). exists s, ctx, x. split; [exact H1|]. intros v Hv Es Ec. pose proof (rd_In _ _ _ H2) as Hb. destruct Hf as (_ & _ & VF). destruct (VF a Hb) as (D & Lb & _). specialize (Hlab a Hb). destruct (join (code' V h (v / n) (lab a)) (dst a) D) as (J1 & J2).
    exists (lab a), (sc a + lp (zlen p) (cof (v / n)) (if lab a =? -1 then 0 else lab a)), (code' V h (v / n) (lab a) * n + dst a). split; [right; exists a; repeat split; auto; congruence|]. rewrite J1, J2. split; [reflexivity|]. split; [rewrite (ctxof_push V h HV Hh) by (auto using inr_code; lia); now rewrite Ec|]. rewrite Ec. lia.
Qed.
End Larc.
