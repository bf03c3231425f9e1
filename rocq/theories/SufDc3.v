(** * CreateSuffixArray: order of suffixes, and the sorted sample. *)
From Coq Require Import ZArith List Bool Lia Sorting.Sorted Sorting.Permutation.
From Verif Require Import Base RaggedModel OpsModel OpsProofs FsaLemmas IDenseSpec SufModel SufSpec RnntDecList RnntDecGroup SufRadix.
Import ListNotations.
Open Scope Z_scope.

Section Order.
Variables (t : list Z).
Lemma lt_irrefl i : ~ suf_lt t i i.
Proof. intros (k & _ & _ & H). lia. Qed.
Lemma lt_trans i j l : suf_lt t i j -> suf_lt t j l -> suf_lt t i l.
Proof.
  intros (k & A & B & C) (k' & A' & B' & C'). destruct (Z.lt_trichotomy k k') as [L|[L|L]].
  - exists k. split; [auto|]. split; [intros m Hm; rewrite B, B' by lia; reflexivity|]. rewrite <- B' by lia. lia.
  - subst k'. exists k. split; [auto|]. split; [intros m Hm; rewrite B, B' by lia; reflexivity|]. lia.
  - exists k'. split; [auto|]. split; [intros m Hm; rewrite B, B' by lia; reflexivity|]. rewrite B by lia. lia.
Qed.
Lemma lt_step i j : suf_lt t i j <-> at0 t i < at0 t j \/ (at0 t i = at0 t j /\ suf_lt t (i + 1) (j + 1)).
Proof.
  split.
  - intros (k & A & B & C). destruct (Z.eq_dec k 0) as [->|N].
    + left. now rewrite !Z.add_0_r in C.
    + right. split; [specialize (B 0 ltac:(lia)); now rewrite !Z.add_0_r in B|]. exists (k - 1). split; [lia|]. split.
      * intros m Hm. specialize (B (m + 1) ltac:(lia)). now rewrite <- !Z.add_assoc, (Z.add_comm 1 m).
      * rewrite <- !Z.add_assoc. replace (1 + (k - 1)) with k by lia. exact C.
  - intros [H|(H & (k & A & B & C))].
    + exists 0. rewrite !Z.add_0_r. repeat split; [lia|intros; lia|lia].
    + exists (k + 1). split; [lia|]. split.
      * intros m Hm. destruct (Z.eq_dec m 0) as [->|N]; [now rewrite !Z.add_0_r|]. specialize (B (m - 1) ltac:(lia)). rewrite <- !Z.add_assoc in B. now replace (1 + (m - 1)) with m in B by lia.
      * rewrite (Z.add_comm k 1), !Z.add_assoc. exact C.
Qed.
Lemma lt_diff (d : nat) : forall i j, at0 t (i + Z.of_nat d) <> at0 t (j + Z.of_nat d) -> suf_lt t i j \/ suf_lt t j i.
Proof.
  induction d as [|d IH]; intros i j H.
  - cbn in H. rewrite !Z.add_0_r in H. rewrite (lt_step i j), (lt_step j i). lia.
  - rewrite (lt_step i j), (lt_step j i). destruct (Z.lt_trichotomy (at0 t i) (at0 t j)) as [L|[L|L]]; [left; now left| |right; now left].
    destruct (IH (i + 1) (j + 1)) as [X|X]; [|left; right; auto|right; right; auto]. rewrite <- !Z.add_assoc. now replace (1 + Z.of_nat d) with (Z.of_nat (Datatypes.S d)) by lia.
Qed.
Variables (n K : Z).
Hypothesis W : padded t n K.
Lemma lt_total i j : 0 <= i <= n -> 0 <= j <= n -> i <> j -> suf_lt t i j \/ suf_lt t j i.
Proof.
  destruct W as (_ & W2 & W3). intros Hi Hj N. destruct (Z.lt_ge_cases i j).
  - apply (lt_diff (Z.to_nat (n - j))). rewrite Z2Nat.id by lia. rewrite (W3 (j + (n - j))) by lia. specialize (W2 (i + (n - j)) ltac:(lia)). lia.
  - apply (lt_diff (Z.to_nat (n - i))). rewrite Z2Nat.id by lia. rewrite (W3 (i + (n - i))) by lia. specialize (W2 (j + (n - i)) ltac:(lia)). lia.
Qed.
Lemma lt_end j : 0 <= j < n -> suf_lt t n j.
Proof. destruct W as (_ & W2 & W3). intros Hj. apply lt_step. left. rewrite W3 by lia. specialize (W2 j Hj). lia. Qed.
(** before the first difference both suffixes are inside the text *)
Lemma lt_inside i j k : 0 <= i -> 0 <= j -> (forall m, 0 <= m < k -> at0 t (i + m) = at0 t (j + m)) -> at0 t (i + k) < at0 t (j + k) ->
  0 <= k -> j + k < n /\ forall m, 0 <= m < k -> i + m < n.
Proof.
  destruct W as (_ & W2 & W3). intros Hi Hj E L Hk. assert (A : j + k < n).
  { destruct (Z.lt_ge_cases (j + k) n); auto. rewrite (W3 (j + k)) in L by lia. destruct (Z.lt_ge_cases (i + k) n); [specialize (W2 (i + k) ltac:(lia)); lia|rewrite (W3 (i + k)) in L; lia]. }
  split; [exact A|]. intros m Hm. destruct (Z.lt_ge_cases (i + m) n); auto. specialize (E m Hm). rewrite (W3 (i + m)) in E by lia. specialize (W2 (j + m) ltac:(lia)). lia.
Qed.
End Order.

Lemma code_lt B a b c a' b' c' : 0 <= a < B -> 0 <= b < B -> 0 <= c < B -> 0 <= a' < B -> 0 <= b' < B -> 0 <= c' < B ->
  ((a * B + b) * B + c < (a' * B + b') * B + c' <-> a < a' \/ (a = a' /\ (b < b' \/ (b = b' /\ c < c')))).
Proof.
  intros. assert (G : forall p q r s, 0 <= q < B -> 0 <= s < B -> (p * B + q < r * B + s <-> p < r \/ (p = r /\ q < s))).
  { intros p q r s Hq Hs. split.
    - intros L. destruct (Z.lt_trichotomy p r) as [X|[X|X]]; [auto|subst; right; lia|]. exfalso. assert ((r + 1) * B <= p * B) by (apply Z.mul_le_mono_nonneg_r; lia). lia.
    - intros [X|(-> & X)]; [|lia]. assert ((p + 1) * B <= r * B) by (apply Z.mul_le_mono_nonneg_r; lia). lia. }
  rewrite G by lia. rewrite G by lia. assert (E : a * B + b = a' * B + b' <-> a = a' /\ b = b').
  { split; [|intros (-> & ->); reflexivity]. intros E. pose proof (G a b a' b'). pose proof (G a' b' a b). lia. }
  rewrite E. tauto.
Qed.

Section Dc3.
Variables (t : list Z) (n K : Z).
Hypothesis W : padded t n K.
Hypothesis Hn : 2 <= n.
Let n0 := (n + 2) / 3.
Let n1 := (n + 1) / 3.
Let n2 := n / 3.
Let n02 := n0 + n2.
Definition idx12 (x : Z) : Z := if x mod 3 =? 1 then x / 3 else x / 3 + n0.
Definition sample (x : Z) : Prop := 0 <= x < n + (n0 - n1) /\ x mod 3 <> 0.

Ltac dm x := let q := fresh "q" in let r := fresh "r" in
  pose proof (Z.div_mod x 3 ltac:(lia)); pose proof (Z.mod_pos_bound x 3 ltac:(lia)).
Ltac nn := unfold n02, n0, n1, n2 in *; dm n; dm (n + 1); dm (n + 2).

Lemma K_pos : 1 <= K.
Proof. destruct W as (_ & W2 & _). specialize (W2 0 ltac:(lia)). lia. Qed.
Lemma n02_lt : 1 <= n02 < n.
Proof. nn. lia. Qed.
Lemma sample_le x : sample x -> x <= n.
Proof. unfold sample. intros (A & B). nn. lia. Qed.
Lemma sample_lt x : 0 <= x < n -> x mod 3 <> 0 -> sample x.
Proof. unfold sample. intros A B. split; [|exact B]. nn. lia. Qed.
Lemma sample_n : n mod 3 = 1 -> sample n.
Proof. unfold sample. intros A. nn. lia. Qed.
Lemma idx_range x : sample x -> 0 <= idx12 x < n02.
Proof. unfold sample, idx12. intros (A & B). dm x. nn. destruct (Z.eqb_spec (x mod 3) 1); lia. Qed.
Lemma idx_inj x y : sample x -> sample y -> idx12 x = idx12 y -> x = y.
Proof. unfold sample, idx12. intros (A & B) (A' & B'). dm x. dm y. nn. destruct (Z.eqb_spec (x mod 3) 1), (Z.eqb_spec (y mod 3) 1); lia. Qed.
Lemma pos_sample s : 0 <= s < n02 -> sample (pos12 n0 s) /\ idx12 (pos12 n0 s) = s.
Proof.
  intros H. unfold pos12, sample, idx12. destruct (Z.ltb_spec s n0).
  - dm (s * 3 + 1). replace ((s * 3 + 1) mod 3) with 1 in * by lia. rewrite Z.eqb_refl. nn. lia.
  - dm ((s - n0) * 3 + 2). assert (M : ((s - n0) * 3 + 2) mod 3 = 2) by lia. rewrite M in *. change (2 =? 1) with false. cbv iota. nn. lia.
Qed.
Lemma pos_idx x : sample x -> pos12 n0 (idx12 x) = x.
Proof. intros H. destruct (pos_sample (idx12 x) (idx_range x H)) as (A & B). now apply idx_inj. Qed.
Lemma idx_add x m : 0 <= m -> idx12 (x + 3 * m) = idx12 x + m.
Proof. intros Hm. unfold idx12. replace (x + 3 * m) with (x + m * 3) by lia. rewrite Z.mod_add, Z.div_add by lia. destruct (x mod 3 =? 1); lia. Qed.
Lemma idx_n : n mod 3 = 2 -> idx12 n = n02.
Proof. intros H. unfold idx12. rewrite H. change (2 =? 1) with false. cbv iota. nn. lia. Qed.

(** the triple at [x], as a number *)
Definition cd (x : Z) : Z := (at0 t x * (K + 1) + at0 t (x + 1)) * (K + 1) + at0 t (x + 2).
Lemma t_range x : 0 <= x -> 0 <= at0 t x < K + 1.
Proof. destruct W as (_ & W2 & W3). intros H. pose proof K_pos. destruct (Z.lt_ge_cases x n); [specialize (W2 x ltac:(lia)); lia|rewrite W3 by lia; lia]. Qed.
Lemma cd_lt x y : 0 <= x -> 0 <= y -> (cd x < cd y <-> at0 t x < at0 t y \/ (at0 t x = at0 t y /\ (at0 t (x + 1) < at0 t (y + 1) \/ (at0 t (x + 1) = at0 t (y + 1) /\ at0 t (x + 2) < at0 t (y + 2))))).
Proof. intros. apply code_lt; apply t_range; lia. Qed.
Lemma cd_eq x y : 0 <= x -> 0 <= y -> cd x = cd y -> at0 t x = at0 t y /\ at0 t (x + 1) = at0 t (y + 1) /\ at0 t (x + 2) = at0 t (y + 2).
Proof. intros Hx Hy E. pose proof (cd_lt x y Hx Hy). pose proof (cd_lt y x Hy Hx). lia. Qed.

(** names that follow the order of the triples give the order of the suffixes *)
Section Names.
Variable (R : list Z).
Hypothesis RW : zlen R = n02 + 3.
Hypothesis Rpos : forall x, sample x -> 1 <= at0 R (idx12 x).
Hypothesis Rend : forall i, n02 <= i -> at0 R i = 0.
Hypothesis Rlt : forall x y, sample x -> sample y -> cd x < cd y -> at0 R (idx12 x) < at0 R (idx12 y).
Hypothesis Req : forall x y, sample x -> sample y -> cd x = cd y -> at0 R (idx12 x) = at0 R (idx12 y).

Lemma names_order x y : sample x -> sample y -> suf_lt t x y -> suf_lt R (idx12 x) (idx12 y).
Proof.
  intros Sx Sy (k & Hk & E & L). assert (X0 : 0 <= x) by apply Sx. assert (Y0 : 0 <= y) by apply Sy.
  destruct (lt_inside t n K W x y k X0 Y0 E L Hk) as (I1 & I2).
  assert (I3 : forall m, 0 <= m < k -> y + m < n) by (intros; lia).
  assert (SX : forall m, 0 <= m -> x + 3 * m < n -> sample (x + 3 * m)) by (intros m H1 H2; apply sample_lt; [lia|]; replace (x + 3 * m) with (x + m * 3) by lia; rewrite Z.mod_add by lia; apply Sx).
  assert (SY : forall m, 0 <= m -> y + 3 * m < n -> sample (y + 3 * m)) by (intros m H1 H2; apply sample_lt; [lia|]; replace (y + 3 * m) with (y + m * 3) by lia; rewrite Z.mod_add by lia; apply Sy).
  dm k. set (q := k / 3) in *. exists q. split; [lia|]. split.
  - intros m Hm. rewrite <- !idx_add by lia. apply Req; [apply SX; [lia|]; specialize (I2 (3 * m)); lia|apply SY; [lia|]; specialize (I3 (3 * m)); lia|].
    unfold cd. rewrite <- !Z.add_assoc. rewrite !E by lia. reflexivity.
  - rewrite <- !idx_add by lia. assert (SY' : sample (y + 3 * q)) by (apply SY; lia).
    assert (X : x + 3 * q < n \/ (x + 3 * q = n /\ 3 * q = k)).
    { destruct (Z.eq_dec (3 * q) k) as [E1|E1]; [|left; apply I2; lia]. destruct (Z.eq_dec k 0) as [E2|E2]; [|specialize (I2 (k - 1)); lia]. pose proof (sample_le x Sx). lia. }
    assert (XM : (x + 3 * q) mod 3 <> 0) by (replace (x + 3 * q) with (x + q * 3) by lia; rewrite Z.mod_add by lia; apply Sx).
    assert (C : cd (x + 3 * q) < cd (y + 3 * q)).
    { apply cd_lt; [lia|lia|]. rewrite <- !Z.add_assoc. assert (k = 3 * q + 0 \/ k = 3 * q + 1 \/ k = 3 * q + 2) as [E1|[E1|E1]] by lia; rewrite E1 in L.
      - left. rewrite !Z.add_0_r in L. exact L.
      - right. split; [apply E; lia|]. left. exact L.
      - right. split; [apply E; lia|]. right. split; [apply E; lia|]. exact L. }
    destruct X as [X|(X & X2)]; [apply Rlt; auto; apply SX; lia|].
    assert (n mod 3 = 1 \/ n mod 3 = 2) as [M|M] by (rewrite X in XM; dm n; lia).
    + apply Rlt; auto. rewrite X. now apply sample_n.
    + rewrite X, idx_n by auto. rewrite Rend by lia. specialize (Rpos _ SY'). lia.
Qed.
Lemma names_iff x y : sample x -> sample y -> (suf_lt t x y <-> suf_lt R (idx12 x) (idx12 y)).
Proof.
  intros Sx Sy. split; [now apply names_order|]. intros L. destruct (Z.eq_dec x y) as [->|N]; [now apply lt_irrefl in L|].
  pose proof (sample_le x Sx). pose proof (sample_le y Sy). destruct Sx as (? & ?), Sy as (? & ?).
  destruct (lt_total t n K W x y) as [A|A]; auto; try lia. exfalso. apply (lt_irrefl R (idx12 x)). eapply lt_trans; [exact L|]. apply names_order; auto; split; auto.
Qed.
End Names.

(** ** the names *)
Definition tri x := (at0 t x, at0 t (x + 1), at0 t (x + 2)).
Lemma sample_rd x m : sample x -> 0 <= m <= 2 -> rd t (x + m) = Some (at0 t (x + m)).
Proof. intros H Hm. pose proof (sample_le x H). destruct H. destruct W as (L & _). apply at0_rd. lia. Qed.

Record ninv (done : list Z) (name : Z) (last : Z * Z * Z) (r : list Z) : Prop := {
  ni_z : zlen r = n02 + 3;
  ni_n : 0 <= name <= zlen done;
  ni_e : forall i, n02 <= i -> at0 r i = 0;
  ni_r : forall x, In x done -> 1 <= at0 r (idx12 x) <= name;
  ni_l : forall x y, In x done -> In y done -> cd x < cd y -> at0 r (idx12 x) < at0 r (idx12 y);
  ni_q : forall x y, In x done -> In y done -> cd x = cd y -> at0 r (idx12 x) = at0 r (idx12 y);
  ni_u : name = zlen done -> forall k x, rd done k = Some x -> at0 r (idx12 x) = k + 1;
  ni_last : (done = [] /\ last = (-1, -1, -1)) \/ (exists y, In y done /\ last = tri y /\ at0 r (idx12 y) = name /\ forall x, In x done -> cd x <= cd y) }.

Lemma name_fold rest : forall done name last r, (forall x, In x (done ++ rest) -> sample x) -> NoDup (done ++ rest) -> StronglySorted (fun x y => cd x <= cd y) (done ++ rest) ->
  ninv done name last r ->
  exists name' last' r', foldM (fun s x => a <- rd t x;; b <- rd t (x + 1);; c <- rd t (x + 2);;
      let '(name, (c0, c1, c2), r) := s in
      let tt := if negb (a =? c0) || negb (b =? c1) || negb (c =? c2) then (name + 1, (a, b, c)) else (name, (c0, c1, c2)) in
      r' <- wr r (if x mod 3 =? 1 then x / 3 else x / 3 + n0) (fst tt);;
      Some (tt, r')) rest (name, last, r) = Some (name', last', r') /\ ninv (done ++ rest) name' last' r'.
Proof.
  induction rest as [|x rest IH]; intros done name last r HS HN HO I; cbn [foldM].
  - exists name, last, r. rewrite app_nil_r. auto.
  - assert (Sx : sample x) by (apply HS, in_app_iff; right; now left).
    pose proof (sample_rd x 0 Sx ltac:(lia)) as E0. rewrite Z.add_0_r in E0. rewrite E0, (sample_rd x 1 Sx ltac:(lia)), (sample_rd x 2 Sx ltac:(lia)).
    destruct last as ((c0, c1), c2). fold (idx12 x). set (df := negb _ || negb _ || negb _).
    assert (NX : ~ In x done). { apply NoDup_remove_2 in HN. intros X. apply HN, in_app_iff. now left. }
    assert (OX : forall y, In y done -> cd y <= cd x) by (intros y Hy; apply SS_app in HO as (_ & _ & HO); apply HO; [auto|now left]).
    assert (SD : forall y, In y done -> sample y) by (intros y Hy; apply HS, in_app_iff; now left).
    pose proof (idx_range x Sx) as IR. pose proof (ni_z _ _ _ _ I) as LZ.
    set (nm := if df then name + 1 else name).
    assert (D : if df then (forall y, In y done -> cd y < cd x) else exists y, In y done /\ at0 r (idx12 y) = name /\ cd y = cd x).
    { destruct (ni_last _ _ _ _ I) as [(-> & EL)|(y & Hy & EL & EN & EM)].
      - replace df with true; [intros y []|]. injection EL as -> -> ->. unfold df. pose proof (t_range x ltac:(apply Sx)). replace (at0 t x =? -1) with false by lia. reflexivity.
      - unfold tri in EL. injection EL as -> -> ->. destruct df eqn:Df.
        + intros z Hz. specialize (EM z Hz). specialize (OX y Hy). assert (cd y <> cd x); [|lia]. intros EC. destruct (SD y Hy) as ((Y0 & _) & _). destruct Sx as ((X0 & _) & _).
          destruct (cd_eq _ _ Y0 X0 EC) as (A1 & A2 & A3). unfold df in Df. rewrite A1, A2, A3, !Z.eqb_refl in Df. discriminate.
        + exists y. repeat split; auto. unfold df in Df. rewrite !orb_false_iff, !negb_false_iff, !Z.eqb_eq in Df. destruct Df as ((A1 & A2) & A3). unfold cd. rewrite A1, A2, A3. reflexivity. }
    replace (fst (if df then (name + 1, (at0 t x, at0 t (x + 1), at0 t (x + 2))) else (name, (c0, c1, c2)))) with nm by (unfold nm; destruct df; reflexivity).
    destruct (wr_Some r (idx12 x) nm ltac:(lia)) as (r' & E1 & L1 & R1). rewrite E1.
    assert (RX : at0 r' (idx12 x) = nm) by (unfold at0; rewrite R1, Z.eqb_refl; reflexivity).
    assert (RO : forall y, In y done -> at0 r' (idx12 y) = at0 r (idx12 y)).
    { intros y Hy. unfold at0. rewrite R1. destruct (Z.eqb_spec (idx12 y) (idx12 x)) as [EE|]; [|reflexivity]. apply idx_inj in EE; auto. subst y. contradiction. }
    set (last' := if df then tri x else (c0, c1, c2)).
    assert (I' : ninv (done ++ [x]) nm last' r').
    { pose proof (ni_n _ _ _ _ I) as NN. constructor.
      - lia.
      - rewrite zlen_app, zlen_cons, zlen_nil. unfold nm. destruct df; lia.
      - intros i Hi. unfold at0. rewrite R1. replace (i =? idx12 x) with false by lia. apply (ni_e _ _ _ _ I). lia.
      - intros y Hy. apply in_app_iff in Hy as [Hy|[<-|[]]].
        + rewrite RO by auto. pose proof (ni_r _ _ _ _ I y Hy). unfold nm. destruct df; lia.
        + rewrite RX. unfold nm in *. destruct df; [lia|]. destruct D as (y & Hy & A & _). pose proof (ni_r _ _ _ _ I y Hy). lia.
      - intros y z Hy Hz L. apply in_app_iff in Hy as [Hy|[<-|[]]]; apply in_app_iff in Hz as [Hz|[<-|[]]]; rewrite ?RX, ?(RO y), ?(RO z) by auto.
        + apply (ni_l _ _ _ _ I); auto.
        + unfold nm. destruct df; [pose proof (ni_r _ _ _ _ I y Hy); lia|]. destruct D as (w & Hw & A & B). rewrite <- A. apply (ni_l _ _ _ _ I); auto. lia.
        + specialize (OX z Hz). lia.
        + lia.
      - intros y z Hy Hz L. apply in_app_iff in Hy as [Hy|[<-|[]]]; apply in_app_iff in Hz as [Hz|[<-|[]]]; rewrite ?RX, ?(RO y), ?(RO z) by auto.
        + apply (ni_q _ _ _ _ I); auto.
        + unfold nm. destruct df; [specialize (D y Hy); lia|]. destruct D as (w & Hw & A & B). rewrite <- A. apply (ni_q _ _ _ _ I); auto. lia.
        + unfold nm. destruct df; [specialize (D z Hz); lia|]. destruct D as (w & Hw & A & B). rewrite <- A. apply (ni_q _ _ _ _ I); auto. lia.
        + reflexivity.
      - rewrite zlen_app, zlen_cons, zlen_nil. intros EN k y Hy. unfold nm in EN. destruct df eqn:Df; [|lia]. destruct (Z.ltb_spec k (zlen done)).
        + rewrite rd_app_l in Hy by auto. rewrite RO by (eapply rd_In; eauto). apply (ni_u _ _ _ _ I); auto. lia.
        + pose proof (rd_Some_bound _ _ _ Hy) as B. rewrite zlen_app, zlen_cons, zlen_nil in B. rewrite rd_app_r in Hy by lia. replace (k - zlen done) with 0 in Hy by lia. rewrite rd_cons_0 in Hy. injection Hy as <-. rewrite RX. unfold nm. lia.
      - right. unfold last', nm in *. destruct df eqn:Df.
        + exists x. repeat split; auto; [apply in_app_iff; right; now left|]. intros y Hy. apply in_app_iff in Hy as [Hy|[<-|[]]]; [specialize (D y Hy)|]; lia.
        + destruct D as (y & Hy & A & B). destruct (ni_last _ _ _ _ I) as [(-> & _)|(z & Hz & EL & EN & EM)]; [destruct Hy|]. exists z. repeat split; auto; [apply in_app_iff; now left|now rewrite RO|].
          intros w Hw. apply in_app_iff in Hw as [Hw|[<-|[]]]; [auto|]. specialize (EM y Hy). lia. }
    replace (if df then (name + 1, (at0 t x, at0 t (x + 1), at0 t (x + 2))) else (name, (c0, c1, c2))) with (nm, last') by (unfold nm, last', tri; destruct df; reflexivity).
    specialize (IH (done ++ [x]) nm last' r'). rewrite <- app_assoc in IH. cbn [app] in IH. apply IH; auto.
Qed.
End Dc3.
