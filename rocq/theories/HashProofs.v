(** * Proofs about the concurrent hash *)
From Coq Require Import ZArith List Lia Bool Permutation Znumtheory Zpow_facts.
From Coq Require Import ZifyBool.
From Verif Require Import Base HashModel HashSpec ThreadPoolProofs.
Import ListNotations.
Open Scope Z_scope.

(** ** Bit arithmetic *)
Lemma land_mask x k : 0 <= k -> Z.land x (2 ^ k - 1) = x mod 2 ^ k.
Proof. intros H. rewrite <- Z.land_ones by auto. now rewrite Z.ones_equiv. Qed.
Lemma mod_mod_pow x a b : 0 <= a <= b -> (x mod 2 ^ b) mod 2 ^ a = x mod 2 ^ a.
Proof.
  intros H. replace b with (a + (b - a)) by lia. rewrite Z.pow_add_r by lia.
  pose proof (Z.pow_pos_nonneg 2 a). pose proof (Z.pow_pos_nonneg 2 (b - a)).
  rewrite Z.rem_mul_r by lia. rewrite Z.mul_comm, Z_mod_plus_full. now rewrite Z.mod_mod by lia.
Qed.
Lemma lor_add v k x : 0 <= k -> 0 <= x < 2 ^ k -> Z.lor (Z.shiftl v k) x = v * 2 ^ k + x.
Proof.
  intros Hk Hx. rewrite <- Z.shiftl_mul_pow2 by auto. symmetry. rewrite <- Z.lxor_lor, Z.add_nocarry_lxor; auto.
  all: apply Z.bits_inj'; intros i Hi; rewrite Z.land_spec, Z.bits_0.
  all: destruct (Z_lt_ge_dec i k).
  1,3: rewrite Z.shiftl_spec_low by auto; reflexivity.
  all: replace (Z.testbit x i) with false; [now rewrite andb_false_r|].
  all: replace x with (x mod 2 ^ k) by (apply Z.mod_small; lia); rewrite Z.mod_pow2_bits_high; auto; lia.
Qed.

Section H.
Variable c : cfg.
Hypothesis OK : cfg_ok c.
Let N := num_buckets c.
Let I := impl c.
Let KB := kept c.

Lemma kb_pos : 1 <= KB < 64. Proof. unfold cfg_ok in OK. subst KB. lia. Qed.
Lemma i_pos : 0 <= I /\ I + 5 <= bits c /\ bits c <= 30. Proof. unfold cfg_ok in OK. subst I. lia. Qed.
Lemma N_pos : 0 < N. Proof. unfold N, num_buckets. apply Z.pow_pos_nonneg; [lia|]. pose proof i_pos. lia. Qed.
Lemma G_pos : 0 < 2 ^ I. Proof. apply Z.pow_pos_nonneg; [lia|]. pose proof i_pos. lia. Qed.
Lemma K_pos : 0 < 2 ^ KB. Proof. apply Z.pow_pos_nonneg; [lia|]. pose proof kb_pos. lia. Qed.
Lemma N_split : N = 2 ^ I * group_size c.
Proof. unfold N, num_buckets, group_size. rewrite <- Z.pow_add_r by (pose proof i_pos; fold I; lia). f_equal. fold I. lia. Qed.
Lemma grp_pos : 0 < group_size c. Proof. unfold group_size. apply Z.pow_pos_nonneg; [lia|]. pose proof i_pos. fold I. lia. Qed.

(** The probing sequence of a key. *)
Definition odd_part (k : Z) := Z.lor 1 (Z.lxor (Z.shiftr k (bits c - 1)) k).
Definition probe (k n : Z) : Z := (k + n * (odd_part k * 2 ^ I)) mod N.

Lemma first_probe k : first_bucket c k = probe k 0.
Proof.
  unfold first_bucket, probe. unfold num_buckets. pose proof i_pos. rewrite land_mask by lia.
  rewrite mod_mod_pow by lia. replace (k + 0 * _) with k by lia. reflexivity.
Qed.
Lemma next_probe k n : next_bucket c k (probe k n) = probe k (n + 1).
Proof.
  unfold next_bucket, bucket_inc, probe, N, num_buckets. pose proof i_pos. rewrite land_mask by lia.
  rewrite mod_mod_pow by lia. rewrite Z.shiftl_mul_pow2 by (fold I; lia). fold (odd_part k). fold I.
  rewrite <- Z.add_mod_idemp_r by (pose proof N_pos; unfold N, num_buckets in *; lia).
  rewrite mod_mod_pow by lia.
  rewrite <- Z.add_mod by (pose proof N_pos; unfold N, num_buckets in *; lia).
  f_equal. lia.
Qed.
Lemma probe_bound k n : 0 <= probe k n < N.
Proof. apply Z.mod_pos_bound, N_pos. Qed.
Lemma probe_group k n : probe k n mod 2 ^ I = k mod 2 ^ I.
Proof.
  unfold probe. pose proof G_pos. pose proof i_pos. unfold N, num_buckets. rewrite mod_mod_pow by lia.
  replace (k + n * (odd_part k * 2 ^ I)) with (k + (n * odd_part k) * 2 ^ I) by lia. apply Z_mod_plus_full.
Qed.
Lemma odd_part_odd k : Z.odd (odd_part k) = true.
Proof. unfold odd_part. rewrite <- Z.bit0_odd, Z.lor_spec. reflexivity. Qed.
Lemma odd_coprime x m : Z.odd x = true -> 0 <= m -> rel_prime x (2 ^ m).
Proof.
  intros H Hm. apply rel_prime_Zpower_r; auto. apply rel_prime_sym.
  apply prime_rel_prime; [apply prime_2|]. intros (q & ->). rewrite Z.odd_mul in H. cbn in H. now rewrite andb_false_r in H.
Qed.
Lemma probe_inj k n m : 0 <= n < group_size c -> 0 <= m < group_size c -> probe k n = probe k m -> n = m.
Proof.
  intros Hn Hm E. unfold probe in E. pose proof N_pos. pose proof G_pos. pose proof grp_pos. pose proof i_pos.
  assert (D : (N | (k + n * (odd_part k * 2 ^ I)) - (k + m * (odd_part k * 2 ^ I)))).
  { apply Z.mod_divide; [lia|]. rewrite Zminus_mod, E, Z.sub_diag. apply Z.mod_0_l. lia. }
  destruct D as (q & D). rewrite N_split in D.
  assert (D' : (n - m) * odd_part k = q * group_size c) by nia.
  assert (DD : (group_size c | odd_part k * (n - m))) by (exists q; lia).
  apply Gauss in DD; [|apply rel_prime_sym, odd_coprime; [apply odd_part_odd|fold I; lia]].
  destruct DD as (r & DD). assert (r = 0) by nia. nia.
Qed.

(** ** Words *)
Lemma new_elem_eq k v : key_ok c k -> new_elem c k v = v * 2 ^ KB + k / 2 ^ I.
Proof.
  intros (H1 & H2). unfold new_elem, kept_key. pose proof kb_pos. pose proof i_pos. pose proof G_pos. rewrite Z.shiftr_div_pow2 by (fold I; lia).
  apply lor_add; [fold KB; lia|]. unfold KB, I in H, H0, H3 |- *. split; [apply Z.div_pos; lia|].
  apply Z.div_lt_upper_bound; [lia|]. rewrite <- Z.pow_add_r by lia. rewrite Z.add_comm. lia.
Qed.
Lemma kept_eq k : kept_key c k = k / 2 ^ I.
Proof. unfold kept_key. rewrite Z.shiftr_div_pow2 by (pose proof i_pos; fold I; lia). reflexivity. Qed.
Lemma kept_bound k : key_ok c k -> 0 <= k / 2 ^ I < 2 ^ KB - 1.
Proof.
  intros (H1 & H2). pose proof kb_pos. pose proof i_pos. pose proof G_pos. unfold KB, I in *.
  assert (k / 2 ^ impl c < 2 ^ kept c). { apply Z.div_lt_upper_bound; [lia|]. rewrite <- Z.pow_add_r by lia. rewrite Z.add_comm. lia. }
  assert (0 <= k / 2 ^ impl c) by (apply Z.div_pos; lia). lia.
Qed.
Lemma new_elem_mod k v : key_ok c k -> new_elem c k v mod 2 ^ KB = k / 2 ^ I.
Proof.
  intros H. rewrite new_elem_eq by auto. rewrite Z.add_comm, Z_mod_plus_full. apply Z.mod_small. pose proof (kept_bound k H). lia.
Qed.
Lemma empty_mod : EMPTY mod 2 ^ KB = 2 ^ KB - 1.
Proof.
  unfold EMPTY. pose proof kb_pos. pose proof K_pos.
  replace (2 ^ 64 - 1) with ((2 ^ KB - 1) + (2 ^ (64 - KB) - 1) * 2 ^ KB).
  - rewrite Z_mod_plus_full. apply Z.mod_small. lia.
  - replace (2 ^ 64) with (2 ^ (64 - KB) * 2 ^ KB); [lia|]. rewrite <- Z.pow_add_r by lia. f_equal. lia.
Qed.
Lemma new_elem_nonempty k v : key_ok c k -> new_elem c k v <> EMPTY.
Proof. intros H E. pose proof (new_elem_mod k v H) as M. rewrite E, empty_mod in M. pose proof (kept_bound k H). lia. Qed.
Lemma matches_iff k w : key_matches c k w = true <-> w mod 2 ^ KB = k / 2 ^ I.
Proof. unfold key_matches, kept_mask. rewrite land_mask by (pose proof kb_pos; fold KB; lia). rewrite kept_eq. fold KB. lia. Qed.
Lemma matches_empty k : key_ok c k -> key_matches c k EMPTY = false.
Proof. intros H. destruct (key_matches c k EMPTY) eqn:E; auto. apply matches_iff in E. rewrite empty_mod in E. pose proof (kept_bound k H). lia. Qed.
Lemma matches_elem k k' v : key_ok c k -> key_ok c k' -> k mod 2 ^ I = k' mod 2 ^ I ->
  (key_matches c k (new_elem c k' v) = true <-> k' = k).
Proof.
  intros H H' M. rewrite matches_iff, new_elem_mod by auto. pose proof G_pos. split; [|now intros ->].
  intros E. rewrite (Z.div_mod k' (2 ^ I)), (Z.div_mod k (2 ^ I)) by lia. rewrite E, M. reflexivity.
Qed.
Lemma value_elem k v : key_ok c k -> value_of c (new_elem c k v) = v.
Proof.
  intros H. unfold value_of. rewrite Z.shiftr_div_pow2 by (pose proof kb_pos; fold KB; lia). fold KB. rewrite new_elem_eq by auto.
  pose proof K_pos. rewrite Z.div_add_l by lia. rewrite Z.div_small; [lia|]. pose proof (kept_bound k H). lia.
Qed.
Lemma elem_inj k v k' v' : key_ok c k -> key_ok c k' -> k mod 2 ^ I = k' mod 2 ^ I ->
  new_elem c k v = new_elem c k' v' -> k = k' /\ v = v'.
Proof.
  intros H H' M E. assert (k' = k). { apply (matches_elem k k' v'); auto. rewrite <- E. apply matches_elem; auto. }
  subst. split; auto. rewrite <- (value_elem k v), <- (value_elem k v') by auto. now rewrite E.
Qed.

(** ** The sequential map *)
Lemma lookup_In m k v : lookup m k = Some v -> In (k, v) m.
Proof. induction m as [|[k' v'] m IH]; cbn; [discriminate|]. destruct (k' =? k) eqn:E; [|auto]. intros [= ->]. left. f_equal. lia. Qed.
Lemma In_lookup m k v : NoDup (map fst m) -> In (k, v) m -> lookup m k = Some v.
Proof.
  induction m as [|[k' v'] m IH]; cbn; [intros _ []|]. intros ND. inversion ND; subst. intros [[= -> ->]|Hi]; [now rewrite Z.eqb_refl|].
  destruct (k' =? k) eqn:E; [|auto]. exfalso. apply H1. assert (k' = k) by lia. subst. apply in_map_iff. exists (k, v). auto.
Qed.
Lemma lookup_None m k : lookup m k = None <-> ~ In k (map fst m).
Proof.
  induction m as [|[k' v'] m IH]; cbn; [tauto|]. destruct (k' =? k) eqn:E.
  - split; [discriminate|]. intros H. exfalso. apply H. left. lia.
  - rewrite IH. split; [intros H [H'|H']; [lia|auto]|tauto].
Qed.

(** ** The memory represents a map *)
Definition full (d : list Z) (j : Z) : Prop := exists w, rd d j = Some w /\ w <> EMPTY.
Record rep (d : list Z) (m : list (Z * Z)) : Prop := {
  r_len : zlen d = N;
  r_nd : NoDup (map fst m);
  r_ok : forall k v, In (k, v) m -> key_ok c k /\ value_ok c v;
  r_slot : forall j w, rd d j = Some w -> w <> EMPTY ->
    exists k v, In (k, v) m /\ w = new_elem c k v /\ k mod 2 ^ I = j mod 2 ^ I;
  r_at : forall k v, In (k, v) m -> exists n, 0 <= n /\ rd d (probe k n) = Some (new_elem c k v) /\
    forall i, 0 <= i < n -> full d (probe k i);
  r_uniq : forall k v v' j j', rd d j = Some (new_elem c k v) -> rd d j' = Some (new_elem c k v') ->
    In (k, v) m -> k mod 2 ^ I = j mod 2 ^ I -> k mod 2 ^ I = j' mod 2 ^ I -> j = j'
}.
(** A thread that looked at the first n buckets of key k and moved on. *)
Definition passed (d : list Z) (k n : Z) : Prop :=
  forall i, 0 <= i < n -> exists w, rd d (probe k i) = Some w /\ w <> EMPTY /\ key_matches c k w = false.

Lemma rep_hit d m k n w : rep d m -> key_ok c k -> rd d (probe k n) = Some w -> key_matches c k w = true ->
  w <> EMPTY /\ lookup m k = Some (value_of c w).
Proof.
  intros R Hk Hw Hm. assert (w <> EMPTY) by (intros ->; rewrite matches_empty in Hm by auto; discriminate). split; auto.
  destruct (r_slot _ _ R _ _ Hw H) as (k' & v & Hi & -> & Hg). destruct (r_ok _ _ R _ _ Hi) as (Hk' & _).
  rewrite probe_group in Hg. apply matches_elem in Hm; auto. subst k'. rewrite value_elem by auto. apply In_lookup; auto. apply (r_nd _ _ R).
Qed.
Lemma rep_miss d m k n : rep d m -> key_ok c k -> 0 <= n -> rd d (probe k n) = Some EMPTY -> passed d k n -> lookup m k = None.
Proof.
  intros R Hk Hn Hw P. destruct (lookup m k) as [v|] eqn:L; auto. apply lookup_In in L. exfalso.
  destruct (r_at _ _ R _ _ L) as (n' & Hn' & Ha & Hb). destruct (Z_lt_ge_dec n' n).
  - destruct (P n' ltac:(lia)) as (w & W1 & W2 & W3). assert (w = new_elem c k v) by congruence. subst w.
    assert (key_matches c k (new_elem c k v) = true) by (apply matches_elem; auto). congruence.
  - destruct (Z.eq_dec n n'); [subst n'; apply (new_elem_nonempty k v Hk); congruence|].
    destruct (Hb n ltac:(lia)) as (w & W1 & W2). congruence.
Qed.
Lemma full_mono d d' j cur x : (forall i, rd d' i = if i =? cur then Some x else rd d i) -> x <> EMPTY -> full d j -> full d' j.
Proof. intros E Hx (w & W1 & W2). unfold full. rewrite E. destruct (j =? cur); eauto. Qed.
Lemma passed_mono d d' k n cur x : (forall i, rd d' i = if i =? cur then Some x else rd d i) -> rd d cur = Some EMPTY -> passed d k n -> passed d' k n.
Proof.
  intros E Hc P i Hi. destruct (P i Hi) as (w & W1 & W2 & W3). exists w. split; auto. rewrite E.
  destruct (probe k i =? cur) eqn:Q; auto. assert (probe k i = cur) by lia. congruence.
Qed.
Lemma rep_insert d d' m k v n : rep d m -> key_ok c k -> value_ok c v -> 0 <= n -> rd d (probe k n) = Some EMPTY -> passed d k n ->
  wr d (probe k n) (new_elem c k v) = Some d' -> rep d' ((k, v) :: m).
Proof.
  intros R Hk Hv Hn Hw P W. pose proof (rep_miss _ _ _ _ R Hk Hn Hw P) as L. apply lookup_None in L.
  destruct (wr_sum _ _ _ _ _ Hw W) as (_ & Hl & _ & E). pose proof (new_elem_nonempty k v Hk) as NE.
  split.
  - rewrite Hl. apply R.
  - cbn. constructor; auto. apply R.
  - intros k1 v1 [[= <- <-]|Hi]; auto. now apply (r_ok _ _ R).
  - intros j w Hj Hne. rewrite E in Hj. destruct (j =? probe k n) eqn:Q.
    + injection Hj as <-. exists k, v. repeat split; [now left|]. assert (j = probe k n) by lia. subst. now rewrite probe_group.
    + destruct (r_slot _ _ R _ _ Hj Hne) as (k1 & v1 & H1 & H2 & H3). exists k1, v1. repeat split; auto. now right.
  - intros k1 v1 [[= <- <-]|Hi].
    + exists n. split; auto. split; [rewrite E, Z.eqb_refl; auto|]. intros i Hi. destruct (P i Hi) as (w & W1 & W2 & _).
      eapply full_mono; eauto. exists w; auto.
    + destruct (r_at _ _ R _ _ Hi) as (n1 & H1 & H2 & H3). exists n1. split; auto. split.
      * rewrite E. destruct (probe k1 n1 =? probe k n) eqn:Q; auto. assert (Q' : probe k1 n1 = probe k n) by lia. rewrite Q' in H2.
        destruct (r_ok _ _ R _ _ Hi) as (Hk1 & _). exfalso. apply (new_elem_nonempty k1 v1 Hk1). congruence.
      * intros i Hi'. eapply full_mono; eauto.
  - assert (NS : forall k1 v1 j, rd d j = Some (new_elem c k1 v1) -> key_ok c k1 -> k1 mod 2 ^ I = j mod 2 ^ I -> In k1 (map fst m)).
    { intros k1 v1 j Hj Hk1 Hg. destruct (r_slot _ _ R _ _ Hj (new_elem_nonempty k1 v1 Hk1)) as (k2 & v2 & S1 & S2 & S3).
      destruct (r_ok _ _ R _ _ S1) as (Hk2 & _). apply elem_inj in S2; auto; [|congruence]. destruct S2 as (-> & ->).
      apply in_map_iff. exists (k2, v2). auto. }
    intros k1 v1 v1' j j' Hj Hj' Hi Hg Hg'.
    assert (Hk1 : key_ok c k1) by (destruct Hi as [[= <- <-]|Hi]; auto; now apply (r_ok _ _ R) in Hi).
    rewrite E in Hj, Hj'. destruct (j =? probe k n) eqn:Q; destruct (j' =? probe k n) eqn:Q'; try lia.
    + injection Hj as Hj. apply elem_inj in Hj; auto; [|assert (j = probe k n) by lia; subst; rewrite Hg; now rewrite probe_group].
      destruct Hj as (-> & ->). exfalso. apply L. eapply NS; eauto.
    + injection Hj' as Hj'. apply elem_inj in Hj'; auto; [|assert (j' = probe k n) by lia; subst; rewrite Hg'; now rewrite probe_group].
      destruct Hj' as (-> & ->). exfalso. apply L. eapply NS; eauto.
    + destruct Hi as [[= <- <-]|Hi]; [exfalso; apply L; eapply NS; eauto|]. eapply (r_uniq _ _ R); eauto.
Qed.
Lemma rep_init : rep (repeat EMPTY (Z.to_nat N)) [].
Proof.
  split; try (intros; contradiction).
  - rewrite zlen_repeat. pose proof N_pos. lia.
  - constructor.
  - intros j w Hj Hne. apply rd_In in Hj. apply repeat_spec in Hj. congruence.
Qed.

(** ** Counting the occupied buckets *)
Lemma passed_keys d m k n : rep d m -> 0 <= n <= group_size c -> passed d k n ->
  exists ks, zlen ks = n /\ NoDup ks /\ forall x, In x ks -> x mod 2 ^ I = k mod 2 ^ I /\
    exists i v, 0 <= i < n /\ rd d (probe k i) = Some (new_elem c x v) /\ In (x, v) m.
Proof.
  intros R (Hn & Hle). revert Hle. pattern n. apply natlike_ind; auto; clear n Hn.
  - intros _ _. exists []. repeat split; try contradiction. constructor.
  - intros n Hn IH Hle P. destruct IH as (ks & L & ND & K); [lia|intros i Hi; apply P; lia|].
    destruct (P n ltac:(lia)) as (w & W1 & W2 & _). destruct (r_slot _ _ R _ _ W1 W2) as (x & v & S1 & -> & S3).
    exists (x :: ks). split; [rewrite zlen_cons; lia|]. split.
    + constructor; auto. intros Hx. destruct (K x Hx) as (_ & i & v' & Hi & Ha & Hb).
      assert (probe k i = probe k n).
      { eapply (r_uniq _ _ R x v' v); eauto. rewrite S3, !probe_group. reflexivity. }
      assert (i = n) by (apply (probe_inj k i n); auto; lia). lia.
    + intros y [<-|Hy].
      * split; [rewrite S3; apply probe_group|]. exists n, v. repeat split; auto; lia.
      * destruct (K y Hy) as (G & i & v' & Hi & Ha & Hb). split; auto. exists i, v'. repeat split; auto; lia.
Qed.

(** ** The invariant *)
Lemma sequential_app m l m1 e m2 : sequential m l m1 -> seq_op m1 (e_op e) = (m2, e_res e) -> sequential m (l ++ [e]) m2.
Proof. intros S. induction S; intros H'; cbn; econstructor; eauto. constructor. Qed.
Lemma sequential_In m l m' k v : sequential m l m' -> In (k, v) m' -> In (k, v) m \/ exists e, In e l /\ e_op e = Insert k v.
Proof.
  intros S. induction S; auto. intros Hi. destruct (IHS Hi) as [Hm|(e' & E1 & E2)]; [|right; exists e'; split; auto; now right].
  unfold seq_op in H. destruct (e_op e) as [k' v'|k'] eqn:Eo; destruct (lookup m k'); injection H as <- _; auto.
  destruct Hm as [[= -> ->]|Hm]; auto. right. exists e. split; auto. now left.
Qed.
Lemma calls_app t l e : calls_of t (l ++ [e]) = calls_of t l ++ (if e_thread e =? t then [e_op e] else []).
Proof. unfold calls_of. rewrite filter_app, map_app. cbn. now destruct (e_thread e =? t). Qed.

Definition cnt (t : Z) (l : list Z) : Z := cn t l.
Definition used (a : option (Z * bool)) (n : Z) : Z :=
  match a with None => 0 | Some (_, cas) => 1 + 2 * n + (if cas then 1 else 0) end.
Definition cost : Z := 2 * group_size c + 1.

Record thr (progs : list (list op)) (sched : list Z) (s : st) (t : Z) (th : thread) : Prop := {
  t_ok : Forall (op_ok c) (todo th);
  t_prog : rd progs t = Some (calls_of t (log s) ++ todo th);
  t_at : exists n, 0 <= n /\
    (forall cur cas, at_ th = Some (cur, cas) -> exists o rest, todo th = o :: rest /\ cur = probe (op_key o) n /\ passed (data s) (op_key o) n) /\
    (roomy c progs -> cnt t sched <= cost * zlen (calls_of t (log s)) + used (at_ th) n)
}.
Definition inv (progs : list (list op)) (sched : list Z) (s : st) : Prop :=
  zlen (threads s) = zlen progs /\
  (exists m, rep (data s) m /\ sequential [] (log s) m) /\
  (forall e, In e (log s) -> exists p, rd progs (e_thread e) = Some p /\ In (e_op e) p) /\
  forall t th, rd (threads s) t = Some th -> thr progs sched s t th.

Lemma inv_init progs : Forall (Forall (op_ok c)) progs -> inv progs [] (init c progs).
Proof.
  intros F. unfold init. split; [|split; [|split]]; cbn [threads data log].
  - apply zlen_map.
  - exists []. split; [apply rep_init|constructor].
  - intros e [].
  - intros t th Ht. rewrite rd_map in Ht. destruct (rd progs t) as [p|] eqn:E; [|discriminate]. injection Ht as <-.
    split; cbn.
    + rewrite Forall_forall in F. apply F. eapply rd_In; eauto.
    + exact E.
    + exists 0. split; [lia|]. split; [discriminate|]. intros _. change (cnt t []) with 0. change (zlen (@nil op)) with 0. lia.
Qed.

Lemma key_of_op o : op_ok c o -> key_ok c (op_key o).
Proof. destruct o; cbn; tauto. Qed.

Lemma cnt_app t l t' : cnt t (l ++ [t']) = cnt t l + (if t' =? t then 1 else 0).
Proof. unfold cnt, cn. rewrite sm_app, sm_cons, sm_nil. unfold one. destruct (t' =? t) eqn:?; lia. Qed.

(* other threads are not disturbed *)
Lemma thr_other progs sched s s' t t' th : thr progs sched s t' th -> t <> t' ->
  calls_of t' (log s') = calls_of t' (log s) ->
  (forall k n, passed (data s) k n -> passed (data s') k n) ->
  thr progs (sched ++ [t]) s' t' th.
Proof.
  intros [H1 H2 (n & H3 & H4 & H5)] Hne Hc Hp. split; auto.
  - now rewrite Hc.
  - exists n. split; auto. split.
    + intros cur cas Ha. destruct (H4 cur cas Ha) as (o & rest & E1 & E2 & E3). exists o, rest. auto.
    + intros Ro. rewrite cnt_app, Hc. replace (t =? t') with false by lia. specialize (H5 Ro). lia.
Qed.

Lemma keys_inserted progs l m : sequential [] l m -> (forall e, In e l -> exists p, rd progs (e_thread e) = Some p /\ In (e_op e) p) ->
  forall k v, In (k, v) m -> inserted progs k.
Proof.
  intros S H k v Hi. destruct (sequential_In _ _ _ _ _ S Hi) as [[]|(e & E1 & E2)].
  destruct (H e E1) as (p & P1 & P2). exists p, v. split; [eapply rd_In; eauto|congruence].
Qed.
Lemma room_bound progs d m k n : roomy c progs -> rep d m -> (forall k v, In (k, v) m -> inserted progs k) -> 0 <= n -> passed d k n -> n < group_size c.
Proof.
  intros Ro R K Hn P. destruct (Z_lt_ge_dec n (group_size c)); auto. exfalso.
  destruct (passed_keys d m k (group_size c) R) as (ks & L & ND & HK); [pose proof grp_pos; lia|intros i Hi; apply P; lia|].
  assert (zlen ks < group_size c); [|lia]. apply (Ro (k mod 2 ^ I) ks ND). intros x Hx. destruct (HK x Hx) as (G & i & v & _ & _ & Hi). split; eauto.
Qed.

Lemma step_cases o k n d m elem : op_ok c o -> op_key o = k -> rep d m -> 0 <= n -> rd d (probe k n) = Some elem -> passed d k n ->
  forall cas out w, op_step c o (probe k n) cas elem = (out, w) ->
  match out with
  | Goto b cas' => w = None /\ ((b = probe k n /\ cas' = true /\ cas = false) \/ (b = probe k (n + 1) /\ cas' = false /\ passed d k (n + 1)))
  | Finish r => exists m', seq_op m o = (m', r) /\
      match w with
      | None => m' = m
      | Some x => elem = EMPTY /\ forall d', wr d (probe k n) x = Some d' -> rep d' m'
      end
  end.
Proof.
  intros Ho Hok R Hn Hw P cas out w E.
  assert (Hk : key_ok c k) by (subst k; now apply key_of_op).
  assert (Hit : key_matches c k elem = true -> elem <> EMPTY /\ lookup m k = Some (value_of c elem)) by (intros; eapply rep_hit; eauto).
  assert (Miss : elem = EMPTY -> lookup m k = None) by (intros ->; eapply rep_miss; eauto).
  assert (Adv : elem <> EMPTY -> key_matches c k elem = false -> passed d k (n + 1)).
  { intros N1 N2 i Hi. destruct (Z.eq_dec i n); [subst; eauto|]. apply P. lia. }
  pose proof (next_probe k n) as NP.
  destruct o as [k' v|k']; cbn in Hok; subst k'; unfold op_step in E.
  - destruct Ho as (_ & Hv). unfold insert_step in E. destruct cas.
    + destruct (elem =? EMPTY) eqn:Em.
      * injection E as <- <-. assert (elem = EMPTY) by lia. exists ((k, v) :: m). unfold seq_op. rewrite Miss by auto. split; auto. split; auto.
        intros d' Hd. eapply rep_insert; eauto. congruence.
      * destruct (key_matches c k elem) eqn:Km; injection E as <- <-.
        -- destruct (Hit eq_refl) as (_ & L). exists m. unfold seq_op. rewrite L. auto.
        -- split; auto. right. rewrite NP. split; auto. split; auto. apply Adv; auto. lia.
    + destruct (key_matches c k elem) eqn:Km.
      * injection E as <- <-. destruct (Hit eq_refl) as (_ & L). exists m. unfold seq_op. rewrite L. auto.
      * destruct (elem =? EMPTY) eqn:Em; injection E as <- <-; split; auto.
        right. rewrite NP. split; auto. split; auto. apply Adv; auto. lia.
  - injection E as E <-. unfold find_step in E. destruct (elem =? EMPTY) eqn:Em.
    + subst out. exists m. unfold seq_op. rewrite Miss by lia. auto.
    + destruct (key_matches c k elem) eqn:Km; subst out.
      * destruct (Hit eq_refl) as (_ & L). exists m. unfold seq_op. rewrite L. auto.
      * split; auto. right. rewrite NP. split; auto. split; auto. apply Adv; auto. lia.
Qed.

Lemma step_inv progs sched s t s' : inv progs sched s -> step c t s = Some s' -> inv progs (sched ++ [t]) s'.
Proof.
  intros (HL & (m & R & S) & HE & HT) H. unfold step in H.
  destruct (rd (threads s) t) as [th|] eqn:Et; cbn in H; [|discriminate].
  pose proof (HT t th Et) as [T1 T2 (n & T3 & T4 & T5)].
  destruct (todo th) as [|o rest] eqn:Eo; [discriminate|].
  inversion T1 as [|? ? O1 O2]; subst.
  destruct (at_ th) as [[cur cas]|] eqn:Ea.
  - destruct (T4 cur cas eq_refl) as (o' & rest' & [= <- <-] & Hcur & P). clear T4.
    destruct (rd (data s) cur) as [elem|] eqn:Ed; cbn in H; [|discriminate].
    destruct (op_step c o cur cas elem) as [out w] eqn:Es.
    subst cur. pose proof (step_cases o (op_key o) n (data s) m elem O1 eq_refl R T3 Ed P cas out w Es) as SC.
    assert (RB : roomy c progs -> n < group_size c).
    { intros Ro. eapply room_bound; eauto. eapply keys_inserted; eauto. }
    destruct out as [r|b cas'].
    + destruct SC as (m' & Q & SC).
      assert (D : exists d', (match w with Some x => wr (data s) (probe (op_key o) n) x | None => Some (data s) end) = Some d' /\ rep d' m' /\ (forall k n, passed (data s) k n -> passed d' k n)).
      { destruct w as [x|].
        - destruct SC as (-> & SC). destruct (wr_ok _ _ _ x Ed) as (d' & W). exists d'. split; auto. split; auto.
          destruct (wr_sum _ _ _ _ _ Ed W) as (_ & _ & _ & E). intros k1 n1 P1. eapply passed_mono; eauto.
        - subst m'. exists (data s). auto. }
      destruct D as (d' & D1 & D2 & D3). rewrite D1 in H. cbn in H.
      destruct (wr (threads s) t (mkT rest None)) as [ths|] eqn:Ew; cbn in H; [|discriminate]. injection H as <-.
      destruct (wr_sum _ _ _ _ _ Et Ew) as (_ & W2 & _ & W4). split; [|split; [|split]]; cbn [threads data log].
      * lia.
      * exists m'. split; auto. eapply sequential_app; eauto.
      * intros e He. apply in_app_iff in He. destruct He as [He|[<-|[]]]; auto. cbn. exists (calls_of t (log s) ++ o :: rest). split; auto. apply in_app_iff. right. now left.
      * intros t' th' Ht'. rewrite W4 in Ht'. destruct (t' =? t) eqn:Q'.
        -- injection Ht' as <-. assert (t' = t) by lia. subst t'. split; cbn [todo at_ log data].
           ++ auto.
           ++ rewrite calls_app. cbn [e_thread e_op]. rewrite Z.eqb_refl, <- app_assoc. exact T2.
           ++ exists 0. split; [lia|]. split; [discriminate|]. intros Ro. specialize (T5 Ro). specialize (RB Ro).
              rewrite calls_app. cbn [e_thread e_op]. rewrite Z.eqb_refl, zlen_app. change (zlen [o]) with 1. rewrite cnt_app, Z.eqb_refl.
              unfold used, cost in *. destruct cas; lia.
        -- assert (t <> t') by lia. eapply thr_other; eauto; cbn [log data]; auto. rewrite calls_app. cbn [e_thread]. replace (t =? t') with false by lia. apply app_nil_r.
    + destruct SC as (-> & SC). cbn in H. destruct (wr (threads s) t (mkT (o :: rest) (Some (b, cas')))) as [ths|] eqn:Ew; cbn in H; [|discriminate]. injection H as <-.
      destruct (wr_sum _ _ _ _ _ Et Ew) as (_ & W2 & _ & W4). split; [|split; [|split]]; cbn [threads data log]; auto.
      * lia.
      * exists m. auto.
      * intros t' th' Ht'. rewrite W4 in Ht'. destruct (t' =? t) eqn:Q'.
        -- injection Ht' as <-. assert (t' = t) by lia. subst t'. split; cbn [todo at_ log data]; auto.
           destruct SC as [(-> & -> & ->)|(-> & -> & P')].
           ++ exists n. split; auto. split; [intros cur0 cas0 [= <- <-]; exists o, rest; auto|]. intros Ro. specialize (T5 Ro). rewrite cnt_app, Z.eqb_refl. unfold used in *. lia.
           ++ exists (n + 1). split; [lia|]. split; [intros cur0 cas0 [= <- <-]; exists o, rest; auto|]. intros Ro. specialize (T5 Ro). rewrite cnt_app, Z.eqb_refl. unfold used in *. destruct cas; lia.
        -- assert (t <> t') by lia. eapply thr_other; eauto.
  - destruct (wr (threads s) t (mkT (o :: rest) (Some (first_bucket c (op_key o), false)))) as [ths|] eqn:Ew; cbn in H; [|discriminate]. injection H as <-.
    destruct (wr_sum _ _ _ _ _ Et Ew) as (_ & W2 & _ & W4). split; [|split; [|split]]; cbn [threads data log]; auto.
    + lia.
    + exists m. auto.
    + intros t' th' Ht'. rewrite W4 in Ht'. destruct (t' =? t) eqn:Q'.
      * injection Ht' as <-. assert (t' = t) by lia. subst t'. split; cbn [todo at_ log data]; auto.
        exists 0. split; [lia|]. split.
        -- intros cur0 cas0 [= <- <-]. exists o, rest. split; auto. split; [apply first_probe|]. intros i Hi; lia.
        -- intros Ro. specialize (T5 Ro). rewrite cnt_app, Z.eqb_refl. unfold used in *. lia.
      * assert (t <> t') by lia. eapply thr_other; eauto.
Qed.
Lemma run_inv progs sched : forall done s s', inv progs done s -> run c sched s = Some s' -> inv progs (done ++ sched) s'.
Proof.
  induction sched as [|t sched IH]; intros done s s' Hi H; cbn in H.
  - injection H as <-. now rewrite app_nil_r.
  - destruct (step c t s) as [s1|] eqn:E; cbn in H; [|discriminate]. pose proof (step_inv _ _ _ _ _ Hi E) as Hi1.
    specialize (IH _ _ _ Hi1 H). now rewrite <- app_assoc in IH.
Qed.
Lemma step_some progs sched s t th : inv progs sched s -> rd (threads s) t = Some th -> todo th <> [] -> exists s', step c t s = Some s'.
Proof.
  intros (HL & (m & R & S) & HE & HT) Et Ho. unfold step. rewrite Et. cbn.
  pose proof (HT t th Et) as [T1 T2 (n & T3 & T4 & T5)]. destruct (todo th) as [|o rest] eqn:Eo; [congruence|].
  inversion T1; subst.
  destruct (at_ th) as [[cur cas]|] eqn:Ea.
  - destruct (T4 cur cas eq_refl) as (o' & rest' & [= <- <-] & -> & P).
    destruct (rd_in_bound (data s) (probe (op_key o) n)) as (elem & Ed); [rewrite (r_len _ _ R); apply probe_bound|].
    rewrite Ed. cbn. destruct (op_step c o (probe (op_key o) n) cas elem) as [out w].
    assert (D : exists d', (match w with Some x => wr (data s) (probe (op_key o) n) x | None => Some (data s) end) = Some d').
    { destruct w; eauto. eapply wr_ok; eauto. }
    destruct D as (d' & ->). cbn. destruct out.
    + destruct (wr_ok _ _ _ (mkT rest None) Et) as (l & ->). cbn. eauto.
    + destruct (wr_ok _ _ _ (mkT (o :: rest) (Some (bucket, cas0))) Et) as (l & ->). cbn. eauto.
  - destruct (wr_ok _ _ _ (mkT (o :: rest) (Some (first_bucket c (op_key o), false))) Et) as (l & ->). cbn. eauto.
Qed.
End H.
