(** * Proofs about GetStateBatches. *)
From Coq Require Import ZArith List Lia Bool Permutation.
From Verif Require Import Base RaggedModel RaggedSpec RaggedProofs FsaSpec FsaLemmas FsaOpsModel FsaOpsProofs EpsLoopProofs RaggedOpsModel RaggedOpsSpec
  RaggedOpsProofs OpsModel PropsModel PropsSpec PropsProofs ReverseModel ReverseProofs ConnectSpec ConnectProofs ExtractProofs TopSortProofs TopSortRun
  BatchModel TransposeProofs.
Import ListNotations.
Open Scope Z_scope.

(** ** MonotonicLowerBound *)
Lemma zlen_min_after l : zlen (min_after l) = zlen l.
Proof. induction l as [|x l IH]; [reflexivity|]. cbn [min_after]. rewrite !zlen_cons, IH. reflexivity. Qed.
Lemma min_after_ok l : forall t v, rd (min_after l) t = Some v ->
  v <= int_max /\ (forall u x, t <= u -> rd l u = Some x -> v <= x) /\ (v = int_max \/ exists u, t <= u /\ rd l u = Some v).
Proof.
  induction l as [|x l IH]; intros t v H; [cbn in H; rewrite rd_nil in H; discriminate|].
  cbn [min_after] in H. rewrite rd_cons in H. destruct (t =? 0) eqn:E.
  - injection H as <-. assert (t = 0) by lia. subst t. destruct (min_after l) as [|y m] eqn:Em.
    + assert (l = []) as -> by (apply zlen_0_nil; rewrite <- zlen_min_after, Em; reflexivity). split; [lia|]. split.
      * intros u z Hu Hz. rewrite rd_cons in Hz. destruct (u =? 0); [injection Hz as <-; lia|rewrite rd_nil in Hz; discriminate].
      * destruct (Z_le_gt_dec x int_max); [right; exists 0; split; [lia|]; rewrite rd_cons_0; f_equal; lia|left; lia].
    + destruct (IH 0 y) as (I0 & I1 & I2); [apply rd_cons_0|]. split; [lia|]. split.
      * intros u z Hu Hz. rewrite rd_cons in Hz. destruct (u =? 0) eqn:Eu; [injection Hz as <-; lia|]. pose proof (I1 (u - 1) z ltac:(lia) Hz). lia.
      * destruct (Z_le_gt_dec x y); [right; exists 0; split; [lia|]; rewrite rd_cons_0; f_equal; lia|].
        destruct I2 as [->|(u & U1 & U2)]; [left; lia|]. right. exists (u + 1). split; [lia|]. rewrite rd_cons. replace (u + 1 =? 0) with false by lia.
        replace (u + 1 - 1) with u by lia. rewrite U2. f_equal. lia.
  - destruct (IH (t - 1) v H) as (I0 & I1 & I2). split; auto. split.
    + intros u z Hu Hz. rewrite rd_cons in Hz. pose proof (rd_Some_bound _ _ _ H). replace (u =? 0) with false in Hz by lia. apply (I1 (u - 1)); auto. lia.
    + destruct I2 as [->|(u & U1 & U2)]; [now left|]. right. exists (u + 1). split; [lia|]. pose proof (rd_Some_bound _ _ _ U2). rewrite rd_cons. replace (u + 1 =? 0) with false by lia.
      replace (u + 1 - 1) with u by lia. exact U2.
Qed.

Lemma mapM_fail {A B} (f : A -> option B) l x : In x l -> f x = None -> mapM f l = None.
Proof.
  induction l as [|y l IH]; [intros []|]. intros H E. cbn [mapM]. destruct H as [H|H].
  - subst y. now rewrite E.
  - destruct (f y); auto. rewrite IH; auto.
Qed.

(** ** Following the links *)
Section Chain.
Context (D : Z -> Z) (N : Z) (N0 : 0 <= N <= int_max) (DU : forall s, 0 <= s < N -> s < D s <= int_max).
Definition Dx (d : Z) : Z := if d <? N then D d else int_max.
Definition it (n d : Z) : Z := Nat.iter (Z.to_nat n) Dx d.

Lemma it_0 d : it 0 d = d. Proof. reflexivity. Qed.
Lemma it_1 d : it 1 d = Dx d. Proof. reflexivity. Qed.
Lemma it_add m n d : 0 <= m -> 0 <= n -> it (m + n) d = it n (it m d).
Proof.
  intros Hm Hn. unfold it. rewrite Z2Nat.inj_add by lia. rewrite Nat.add_comm. generalize (Z.to_nat n) (Z.to_nat m). clear.
  intros n m. induction n as [|n IH]; simpl; auto. now rewrite IH.
Qed.
Lemma it_S n d : 0 <= n -> it (n + 1) d = Dx (it n d).
Proof. intros. rewrite it_add by lia. reflexivity. Qed.
Lemma Dx_up d : 0 <= d <= int_max -> d <= Dx d <= int_max.
Proof. intros H. unfold Dx. destruct (d <? N) eqn:E; [|lia]. specialize (DU d ltac:(lia)). lia. Qed.
Lemma it_up n d : 0 <= n -> 0 <= d <= int_max -> d <= it n d <= int_max.
Proof.
  intros Hn Hd. replace n with (Z.of_nat (Z.to_nat n)) by lia. generalize (Z.to_nat n) as k. induction k as [|k IH]; [rewrite it_0; lia|].
  replace (Z.of_nat (S k)) with (Z.of_nat k + 1) by lia. rewrite it_S by lia. pose proof (Dx_up (it (Z.of_nat k) d) ltac:(lia)). lia.
Qed.
Lemma it_mono m n d : 0 <= m <= n -> 0 <= d <= int_max -> it m d <= it n d.
Proof. intros H Hd. replace n with (m + (n - m)) by lia. rewrite it_add by lia. apply it_up; [lia|]. pose proof (it_up m d). lia. Qed.
Lemma it_grow n b e : 0 <= n -> 0 <= b -> e <= N -> it n b < e -> b + n <= it n b.
Proof.
  intros Hn Hb He. replace n with (Z.of_nat (Z.to_nat n)) by lia. generalize (Z.to_nat n) as k. induction k as [|k IH]; intros H; [rewrite it_0; lia|].
  replace (Z.of_nat (S k)) with (Z.of_nat k + 1) in * by lia. rewrite it_S in * by lia.
  destruct (Z_le_gt_dec 0 (it (Z.of_nat k) b)) as [L0|]; [|exfalso; destruct (Z_le_gt_dec b int_max); [pose proof (it_up (Z.of_nat k) b ltac:(lia) ltac:(lia)); lia|]].
  - destruct (Z_lt_le_dec (it (Z.of_nat k) b) e) as [L|L].
    + specialize (IH L). unfold Dx in *. replace (it (Z.of_nat k) b <? N) with true in * by lia. specialize (DU (it (Z.of_nat k) b) ltac:(lia)). lia.
    + exfalso. unfold Dx in H. destruct (it (Z.of_nat k) b <? N) eqn:E; [|lia]. specialize (DU (it (Z.of_nat k) b) ltac:(lia)). lia.
  - clear IH. assert (G : forall k, int_max < it (Z.of_nat k) b \/ it (Z.of_nat k) b = int_max).
    { induction k0 as [|k0 IHk]; [rewrite it_0; lia|]. replace (Z.of_nat (S k0)) with (Z.of_nat k0 + 1) by lia. rewrite it_S by lia. unfold Dx.
      destruct (it (Z.of_nat k0) b <? N) eqn:E; [|now right]. destruct IHk as [IHk|IHk]; [lia|]. lia. }
    destruct (G k); lia.
Qed.

(** the powers of the array of links *)
Lemma square_ok c : 1 <= c -> sb_square N (tab N (it c)) = Some (tab N (it (c + c))).
Proof.
  intros Hc. unfold sb_square. apply (RaggedOpsProofs.mapM_zrange); [lia|now rewrite zlen_tab by lia|].
  intros s Hs. rewrite (rd_tab N (it c) s), (rd_tab N (it (c + c)) s) by lia. pose proof (it_up c s ltac:(lia) ltac:(lia)). rewrite it_add by lia. destruct (it c s <? N) eqn:E.
  - now rewrite rd_tab by lia.
  - f_equal. transitivity (it (1 + (c - 1)) (it c s)); [|f_equal; lia]. rewrite it_add by lia. rewrite it_1. unfold Dx at 1. rewrite E.
    pose proof (it_up (c - 1) int_max). lia.
Qed.
Lemma powers_ok n : forall p, exists ps, sb_powers N n (tab N (it (2 ^ Z.of_nat p))) = Some ps /\
  forall i, 0 <= i <= Z.of_nat n -> rd ps i = Some (tab N (it (2 ^ (Z.of_nat p + i)))).
Proof.
  induction n as [|n IH]; intros p; cbn [sb_powers].
  - eexists. split; [reflexivity|]. intros i Hi. replace i with 0 by lia. rewrite rd_cons_0. now rewrite Z.add_0_r.
  - rewrite square_ok by lia. replace (2 ^ Z.of_nat p + 2 ^ Z.of_nat p) with (2 ^ Z.of_nat (S p)) by (rewrite Nat2Z.inj_succ, Z.pow_succ_r by lia; lia).
    destruct (IH (S p)) as (ps & -> & H). eexists. split; [reflexivity|]. intros i Hi. rewrite rd_cons. destruct (i =? 0) eqn:E.
    + replace i with 0 by lia. now rewrite Z.add_0_r.
    + rewrite H by lia. do 4 f_equal. lia.
Qed.

(** advancing by the bits of the task *)
Fixpoint bits_from (t m : Z) (n : nat) : Z :=
  match n with O => 0 | S n' => (if Z.testbit t m then 2 ^ m else 0) + bits_from t (m + 1) n' end.
Lemma bits_from_ok t n : forall m, 0 <= m -> bits_from t m n = 2 ^ m * ((t / 2 ^ m) mod 2 ^ Z.of_nat n).
Proof using. clear.
  induction n as [|n IH]; intros m Hm; cbn [bits_from]; [rewrite Z.mod_1_r; lia|].
  rewrite IH by lia. replace (2 ^ Z.of_nat (S n)) with (2 * 2 ^ Z.of_nat n) by (rewrite Nat2Z.inj_succ, Z.pow_succ_r by lia; lia).
  rewrite Z.rem_mul_r by lia. rewrite Z.pow_add_r by lia. change (2 ^ 1) with 2. rewrite <- Z.div_div by lia.
  rewrite Z.testbit_odd, Z.shiftr_div_pow2 by lia. rewrite Zmod_odd. destruct (Z.odd (t / 2 ^ m)); lia.
Qed.
Lemma bits_from_nonneg t n : forall m, 0 <= m -> 0 <= bits_from t m n.
Proof using. clear. induction n as [|n IH]; intros m Hm; cbn [bits_from]; [lia|]. specialize (IH (m + 1) ltac:(lia)). assert (0 <= 2 ^ m) by lia. destruct (Z.testbit t m); lia. Qed.

Lemma advance_ok ps lp t b e : (forall i, 0 <= i <= lp -> rd ps i = Some (tab N (it (2 ^ i)))) -> 0 <= b -> e <= N ->
  forall n m i, 0 <= m -> m + Z.of_nat n <= lp -> 0 <= i -> it i b < e ->
  sb_advance ps t e m n i (it i b) = Some (let j := i + bits_from t m n in if it j b <? e then Some (j, it j b) else None).
Proof.
  intros HP Hb He. induction n as [|n IH]; intros m i Hm Hl Hi Hlt; cbn [sb_advance bits_from]; cbv zeta.
  - rewrite Z.add_0_r. now replace (it i b <? e) with true by lia.
  - pose proof (it_grow i b e Hi Hb He Hlt). pose proof (bits_from_nonneg t n (m + 1) ltac:(lia)). assert (0 < 2 ^ m) by lia. destruct (Z.testbit t m).
    + rewrite HP by lia. rewrite rd_tab by lia. rewrite <- it_add by lia. destruct (e <=? it (i + 2 ^ m) b) eqn:E.
      * pose proof (it_mono (i + 2 ^ m) (i + (2 ^ m + bits_from t (m + 1) n)) b ltac:(lia) ltac:(lia)).
        now replace (it (i + (2 ^ m + bits_from t (m + 1) n)) b <? e) with false by lia.
      * rewrite IH by lia. cbv zeta. now rewrite Z.add_assoc.
    + rewrite IH by lia. cbv zeta. now rewrite Z.add_0_l.
Qed.

(** one task *)
Lemma loop_ok p0 pl J b e : p0 = tab N (it 1) -> pl = tab N (it J) -> 1 <= J -> 0 <= b -> e <= N ->
  forall fuel i, 0 <= i -> it i b < e -> e - b - i <= Z.of_nat fuel ->
  exists ws nb, sb_loop p0 pl (e - b) e J fuel i (it i b) = Some (ws, nb) /\
    (forall w, In w ws -> 0 <= fst w /\ snd w = it (fst w) b /\ snd w < e) /\
    (forall c, 0 <= c -> it (i + c * J) b < e -> In (i + c * J, it (i + c * J) b) ws) /\
    (forall x, nb = Some x -> 0 < x /\ it (x - 1) b < e /\ e <= it x b) /\
    (forall c, 0 <= c -> it (i + c * J) b < e -> e <= it (i + c * J + 1) b -> nb = Some (i + c * J + 1)).
Proof.
  intros -> -> HJ Hb He. induction fuel as [|fuel IH]; intros i Hi Hlt Hf; pose proof (it_grow i b e Hi Hb He Hlt); cbn [sb_loop]; replace (e - b <=? i) with false by lia.
  - lia.
  - rewrite !rd_tab by lia. rewrite <- !it_add by lia. destruct (e <=? it (i + J) b) eqn:E.
    + eexists _, _. split; [reflexivity|]. assert (C0 : forall c, 0 <= c -> it (i + c * J) b < e -> c = 0).
      { intros c Hc Hl. destruct (Z.eq_dec c 0); auto. exfalso. pose proof (it_mono (i + J) (i + c * J) b ltac:(nia) ltac:(lia)). lia. }
      split; [|split; [|split]].
      * intros w [<-|[]]. cbn. lia.
      * intros c Hc Hl. rewrite (C0 c Hc Hl). left. now rewrite Z.mul_0_l, Z.add_0_r.
      * intros x Hx. destruct (e <=? it (i + 1) b) eqn:E2; [|discriminate]. injection Hx as <-. replace (i + 1 - 1) with i by lia. lia.
      * intros c Hc Hl Hg. rewrite (C0 c Hc Hl) in *. rewrite Z.mul_0_l, Z.add_0_r in *. now replace (e <=? it (i + 1) b) with true by lia.
    + destruct (IH (i + J) ltac:(lia) ltac:(lia) ltac:(lia)) as (ws & nb & -> & W1 & W2 & W3 & W4). eexists _, _. split; [reflexivity|]. cbn [fst snd].
      split; [|split; [|split]].
      * intros w [<-|Hw]; [cbn; lia|now apply W1].
      * intros c Hc Hl. destruct (Z.eq_dec c 0) as [->|Nc]; [left; now rewrite Z.mul_0_l, Z.add_0_r|]. right.
        replace (i + c * J) with (i + J + (c - 1) * J) in * by lia. apply W2; auto. lia.
      * exact W3.
      * intros c Hc Hl Hg. destruct (Z.eq_dec c 0) as [->|Nc].
        -- exfalso. rewrite Z.mul_0_l, Z.add_0_r in *. pose proof (it_mono (i + 1) (i + J) b ltac:(lia) ltac:(lia)). lia.
        -- replace (i + c * J) with (i + J + (c - 1) * J) in * by lia. apply W4; auto. lia.
Qed.

(** the batches of one FSA as intervals *)
Definition interval (a b : Z) : list Z := map (fun i => a + i) (zrange (b - a)).
Fixpoint ivals (fuel : nat) (cur e : Z) : list (list Z) :=
  if e <=? cur then [] else
  match fuel with O => [] | S f => interval cur (Z.min (Dx cur) e) :: ivals f (Dx cur) e end.

Lemma zlen_interval a b : a <= b -> zlen (interval a b) = b - a.
Proof using. clear. intros. unfold interval. rewrite zlen_map, zlen_zrange; lia. Qed.
Lemma in_interval a b s : In s (interval a b) <-> a <= s < b.
Proof using. clear. unfold interval. rewrite in_map_iff. split; [intros (i & <- & H); apply in_zrange in H; lia|]. intros H. exists (s - a). split; [lia|]. apply in_zrange. lia. Qed.
Lemma interval_app a b c : a <= b -> b <= c -> interval a b ++ interval b c = interval a c.
Proof using. clear.
  intros H1 H2. unfold interval. replace (c - a) with ((b - a) + (c - b)) by lia. rewrite zrange_app by lia. rewrite map_app, map_map. f_equal.
  apply map_ext. intros; lia.
Qed.
Lemma interval_nil a : interval a a = []. Proof. unfold interval. now rewrite Z.sub_diag. Qed.

Lemma ivals_concat e : e <= N -> forall fuel cur, 0 <= cur <= e -> e - cur <= Z.of_nat fuel -> concat (ivals fuel cur e) = interval cur e.
Proof.
  intros He. induction fuel as [|fuel IH]; intros cur Hc Hf; cbn [ivals]; destruct (e <=? cur) eqn:E; try lia; try (replace e with cur by lia; now rewrite interval_nil).
  assert (U : cur < Dx cur) by (unfold Dx; replace (cur <? N) with true by lia; apply DU; lia). cbn [concat].
  destruct (Z_le_gt_dec e (Dx cur)).
  - rewrite Z.min_r by lia. replace (ivals fuel (Dx cur) e) with (@nil (list Z)); [cbn; apply app_nil_r|]. destruct fuel; cbn [ivals]; now replace (e <=? Dx cur) with true by lia.
  - rewrite Z.min_l by lia. rewrite IH by lia. apply interval_app; lia.
Qed.
(** the number of batches and each batch *)
Lemma ivals_len e : e <= N -> forall fuel cur, 0 <= cur <= e -> e - cur <= Z.of_nat fuel ->
  let nb := zlen (ivals fuel cur e) in
  (forall i, 0 <= i < nb -> it i cur < e /\ rd (ivals fuel cur e) i = Some (interval (it i cur) (Z.min (it (i + 1) cur) e)) /\ off1 (ivals fuel cur e) i = it i cur - cur) /\ e <= it nb cur.
Proof.
  intros He. cbv zeta. induction fuel as [|fuel IH]; intros cur Hc Hf; cbn [ivals]; destruct (e <=? cur) eqn:E; try lia;
    try (change (zlen (@nil (list Z))) with 0; rewrite it_0; split; [intros; lia|lia]).
  assert (U : cur < Dx cur) by (unfold Dx; replace (cur <? N) with true by lia; apply DU; lia).
  assert (UI : Dx cur <= int_max) by (apply Dx_up; lia).
  assert (H1 : (forall i, 0 <= i < zlen (ivals fuel (Dx cur) e) -> it i (Dx cur) < e /\
     rd (ivals fuel (Dx cur) e) i = Some (interval (it i (Dx cur)) (Z.min (it (i + 1) (Dx cur)) e)) /\ off1 (ivals fuel (Dx cur) e) i = it i (Dx cur) - Dx cur) /\
     e <= it (zlen (ivals fuel (Dx cur) e)) (Dx cur) /\ (0 < zlen (ivals fuel (Dx cur) e) -> Dx cur < e)).
  { destruct (Z_le_gt_dec e (Dx cur)).
    - replace (ivals fuel (Dx cur) e) with (@nil (list Z)) by (destruct fuel; cbn [ivals]; now replace (e <=? Dx cur) with true by lia).
      change (zlen (@nil (list Z))) with 0. rewrite it_0. split; [intros; lia|lia].
    - destruct (IH (Dx cur)) as (A & B); try lia. split; auto. split; auto. lia. }
  destruct H1 as (A & B & C). rewrite zlen_cons. pose proof (zlen_nonneg (ivals fuel (Dx cur) e)) as Z0. split.
  - intros i Hi. destruct (Z.eq_dec i 0) as [->|Ni].
    + rewrite it_0, rd_cons_0. change (it (0 + 1) cur) with (Dx cur). split; [lia|]. split; [reflexivity|]. unfold off1. change (Z.to_nat 0) with 0%nat. cbn [firstn concat]. change (zlen (@nil Z)) with 0. lia.
    + destruct (A (i - 1) ltac:(lia)) as (A1 & A2 & A3). assert (EI : it i cur = it (i - 1) (Dx cur)) by (transitivity (it (1 + (i - 1)) cur); [f_equal; lia|]; rewrite it_add by lia; reflexivity).
      assert (EJ : it (i + 1) cur = it (i - 1 + 1) (Dx cur)) by (replace (i + 1) with (1 + (i - 1 + 1)) by lia; rewrite it_add by lia; reflexivity).
      rewrite EI, EJ. split; auto. split; [rewrite rd_cons; replace (i =? 0) with false by lia; exact A2|].
      unfold off1 in *. replace (Z.to_nat i) with (S (Z.to_nat (i - 1))) by lia. cbn [firstn concat]. rewrite zlen_app, A3. rewrite zlen_interval by lia. specialize (C ltac:(lia)). lia.
  - rewrite it_add by lia. exact B.
Qed.
End Chain.
