(** * CreateLcpArray returns the LCP array. *)
From Coq Require Import ZArith List Bool Lia Sorting.Sorted Sorting.Permutation.
From Verif Require Import Base RaggedModel OpsModel OpsProofs ReverseProofs FsaLemmas IDenseSpec DetInv SufModel SufSpec RnntDecList RnntDecGroup SufRadix SufDc3 SufDc3Main.
Import ListNotations.
Open Scope Z_scope.

Lemma foldM_zr {S} (I : Z -> S -> Prop) (step : S -> Z -> option S) m s : 0 <= m -> I 0 s ->
  (forall i s, 0 <= i < m -> I i s -> exists s', step s i = Some s' /\ I (i + 1) s') -> exists s', foldM step (zrange m) s = Some s' /\ I m s'.
Proof.
  intros Hm H0 HS. assert (G : forall k, 0 <= k -> k <= m -> exists s', foldM step (zrange k) s = Some s' /\ I k s').
  { apply (natlike_ind (fun k => k <= m -> exists s', foldM step (zrange k) s = Some s' /\ I k s')).
    - intros _. exists s. split; [reflexivity|exact H0].
    - intros k Hk IH L. destruct IH as (s1 & E & I1); [lia|]. change (Z.succ k) with (k + 1) in *. rewrite zrange_S, foldM_app, E by lia. cbn [foldM].
      destruct (HS k s1 ltac:(lia) I1) as (s2 & E2 & I2). rewrite E2. eauto. }
  apply G; lia.
Qed.

Section Lcp.
Variables (t : list Z) (n K : Z).
Hypothesis W : padded t n K.

Lemma agree_sym i j k : agree t i j k -> agree t j i k.
Proof. intros H m Hm. symmetry. auto. Qed.
Lemma agree_trans i j l k : agree t i j k -> agree t j l k -> agree t i l k.
Proof. intros H1 H2 m Hm. rewrite H1, H2 by auto. reflexivity. Qed.
Lemma agree_le i j k k' : agree t i j k -> k' <= k -> agree t i j k'.
Proof. intros H L m Hm. apply H. lia. Qed.
(** a suffix between two suffixes shares what they share *)
Lemma sandwich a b c k : (a = b \/ suf_lt t a b) -> suf_lt t b c -> agree t a c k -> agree t b c k.
Proof.
  intros HA (d & D0 & D1 & D2) HC. destruct (Z.lt_ge_cases d k) as [L|L]; [|intros m Hm; apply D1; lia].
  assert (suf_lt t b a). { exists d. split; [exact D0|]. split; [intros m Hm; rewrite D1, <- HC by lia; reflexivity|]. rewrite HC by lia. exact D2. }
  exfalso. destruct HA as [->|HA]; [now apply (lt_irrefl t b)|]. apply (lt_irrefl t a). eapply lt_trans; eauto.
Qed.
Lemma lcp_ex i j : 0 <= i < n -> 0 <= j < n -> i <> j -> exists k, is_lcp t i j k /\ i + k <= n /\ j + k <= n.
Proof.
  intros Hi Hj N. destruct (lt_total t n K W i j) as [L|L]; try lia; auto; destruct L as (k & A & B & C).
  - destruct (lt_inside t n K W i j k) as (I1 & I2); auto; try lia. exists k. split; [repeat split; auto; lia|]. destruct (Z.eq_dec k 0); [lia|]. specialize (I2 (k - 1)). lia.
  - destruct (lt_inside t n K W j i k) as (I1 & I2); auto; try lia. exists k. split; [split; [auto|]; split; [intros m Hm; symmetry; auto|lia]|]. destruct (Z.eq_dec k 0); [lia|]. specialize (I2 (k - 1)). lia.
Qed.
Lemma lcp_unique i j k k' : is_lcp t i j k -> is_lcp t i j k' -> k = k'.
Proof. intros (A & B & C) (A' & B' & C'). destruct (Z.lt_trichotomy k k') as [L|[L|L]]; auto; exfalso; [apply C, B'|apply C', B]; lia. Qed.
Lemma extend_ok i j h : is_lcp t i j h -> 0 <= i -> 0 <= j -> i + h <= n -> j + h <= n -> forall fuel k, 0 <= k <= h -> h - k < Z.of_nat fuel -> extend fuel t i j k = Some h.
Proof.
  intros (H0 & HA & HN) Hi Hj Bi Bj. destruct W as (ZT & _). induction fuel as [|fuel IH]; intros k Hk HF; [lia|]. cbn [extend]. rewrite (at0_rd t (i + k)), (at0_rd t (j + k)) by lia.
  destruct (Z.eqb_spec (at0 t (i + k)) (at0 t (j + k))) as [E|E].
  - apply IH; [|lia]. destruct (Z.eq_dec k h) as [->|]; [contradiction|lia].
  - f_equal. destruct (Z.eq_dec k h) as [->|]; [reflexivity|]. exfalso. apply E, HA. lia.
Qed.

Variable sa : list Z.
Hypothesis SA : suffix_array_of t n sa.
Hypothesis Hn : 1 <= n.

Lemma sa_zlen : zlen sa = n.
Proof. destruct SA as (P & _). unfold zlen. rewrite (Permutation_length P), zrange_length. lia. Qed.
Lemma sa_rd i : 0 <= i < n -> rd sa i = Some (at0 sa i) /\ 0 <= at0 sa i < n.
Proof.
  intros Hi. assert (E : rd sa i = Some (at0 sa i)) by (apply at0_rd; rewrite sa_zlen; lia). split; [exact E|]. apply in_zrange. destruct SA as (P & _). eapply Permutation_in; [exact P|]. eapply rd_In; eauto.
Qed.
Lemma sa_NoDup : NoDup sa.
Proof. destruct SA as (P & _). eapply Permutation_NoDup; [symmetry; exact P|apply NoDup_zrange]. Qed.
Lemma sa_inj i j : 0 <= i < n -> 0 <= j < n -> at0 sa i = at0 sa j -> i = j.
Proof. intros Hi Hj E. destruct (sa_rd i Hi) as (A & _), (sa_rd j Hj) as (B & _). rewrite <- E in B. eapply NoDup_rd; eauto. apply sa_NoDup. Qed.
Lemma sa_rank x : 0 <= x < n -> exists i, 0 <= i < n /\ at0 sa i = x.
Proof.
  intros Hx. destruct SA as (P & _). assert (I : In x sa) by (eapply Permutation_in; [symmetry; exact P|now apply in_zrange]). destruct (In_rd _ _ I) as (i & B & E). rewrite sa_zlen in B. exists i. split; [exact B|]. unfold at0. now rewrite E.
Qed.
Lemma sa_lt i j : 0 <= i -> i < j -> j < n -> suf_lt t (at0 sa i) (at0 sa j).
Proof. intros H1 H2 H3. destruct SA as (_ & S). destruct (sa_rd i ltac:(lia)) as (A & _), (sa_rd j ltac:(lia)) as (B & _). eapply SS_in; eauto. Qed.
Lemma sa_lt_inv i j : 0 <= i < n -> 0 <= j < n -> suf_lt t (at0 sa i) (at0 sa j) -> i < j.
Proof.
  intros Hi Hj L. destruct (Z.lt_trichotomy i j) as [H|[H|H]]; auto; exfalso.
  - subst j. now apply lt_irrefl in L.
  - apply (lt_irrefl t (at0 sa i)). eapply lt_trans; [exact L|]. apply sa_lt; lia.
Qed.

Lemma create_lcp_ok : exists lcp, create_lcp_array t sa n = Some lcp /\ lcp_array_of t n sa lcp.
Proof.
  unfold create_lcp_array. destruct (sa_rd 0 ltac:(lia)) as (E0 & B0). rewrite E0.
  destruct (wr_Some (repeat 0 (Z.to_nat n)) (at0 sa 0) (-1)) as (phi0 & E1 & L1 & R1); [rewrite zlen_repeat; lia|]. rewrite E1. rewrite zlen_repeat in L1.
  destruct (scat (fun i => at0 sa (i + 1)) (fun i => at0 sa i) (fun p i => x <- rd sa (i + 1);; y <- rd sa i;; wr p x y) phi0 (n - 1)) as (phi & E2 & L2 & R2 & O2).
  - lia.
  - intros i Hi. destruct (sa_rd (i + 1) ltac:(lia)). lia.
  - intros i j Hi Hj E. apply sa_inj in E; lia.
  - intros s i Hi. destruct (sa_rd (i + 1) ltac:(lia)) as (A & _), (sa_rd i ltac:(lia)) as (B & _). now rewrite A, B.
  - rewrite E2. assert (PH0 : rd phi (at0 sa 0) = Some (-1)). { rewrite O2; [rewrite R1, Z.eqb_refl; reflexivity|]. intros i Hi E. apply sa_inj in E; lia. }
    assert (PH : forall i, 1 <= i < n -> rd phi (at0 sa i) = Some (at0 sa (i - 1))) by (intros i Hi; specialize (R2 (i - 1) ltac:(lia)); cbv beta in R2; now replace (i - 1 + 1) with i in R2 by lia).
    set (pl := fun i k => exists r, 0 <= r < n /\ at0 sa r = i /\ (if r =? 0 then k = 0 else is_lcp t i (at0 sa (r - 1)) k)).
    destruct (foldM_zr (fun i (s : Z * list Z) => zlen (snd s) = i /\ 0 <= fst s /\ (forall q k, rd (snd s) q = Some k -> pl q k) /\
        (i < n -> forall r, 1 <= r < n -> at0 sa r = i -> agree t i (at0 sa (r - 1)) (fst s)))
      (fun s i => j <- rd phi i;; k <- (if j =? -1 then Some 0 else extend (length t) t i j (fst s));; Some (if 0 <? k then k - 1 else k, snd s ++ [k])) n (0, [])) as ((k & plcp) & EF & LF & _ & RF & _).
    + lia.
    + cbn [fst snd]. split; [reflexivity|]. split; [lia|]. split; [intros q k H; rewrite rd_nil in H; discriminate|]. intros _ r _ _ m Hm. lia.
    + intros i (k, acc) Hi (Z1 & K0 & P1 & A1). cbn [fst snd] in *. destruct (sa_rank i Hi) as (r & Hr & Er).
      assert (G : exists h, (j <- rd phi i;; k <- (if j =? -1 then Some 0 else extend (length t) t i j k);; Some (if 0 <? k then k - 1 else k, acc ++ [k])) = Some (if 0 <? h then h - 1 else h, acc ++ [h]) /\ 0 <= h /\ pl i h).
      { destruct (Z.eq_dec r 0) as [->|Nr].
        - exists 0. rewrite <- Er, PH0, Z.eqb_refl. split; [reflexivity|]. split; [lia|]. exists 0. split; [lia|]. split; reflexivity.
        - destruct (sa_rd (r - 1) ltac:(lia)) as (_ & Bj). assert (NE : i <> at0 sa (r - 1)) by (intros E; rewrite <- Er in E; apply sa_inj in E; lia).
          destruct (lcp_ex i (at0 sa (r - 1)) Hi Bj NE) as (h & IL & B1 & B2). exists h. rewrite <- Er at 1. rewrite PH by lia. replace (at0 sa (r - 1) =? -1) with false by lia.
          assert (AK : agree t i (at0 sa (r - 1)) k) by (apply A1; lia).
          assert (KH : k <= h). { pose proof IL as (IL0 & _ & N). destruct (Z.lt_ge_cases h k); [|lia]. exfalso. apply N, AK. lia. }
          rewrite (extend_ok i (at0 sa (r - 1)) h IL) by (try lia; destruct W as (ZT & _); unfold zlen in ZT; lia). split; [reflexivity|]. split; [apply IL|]. exists r. split; [lia|]. split; [exact Er|]. replace (r =? 0) with false by lia. exact IL. }
      destruct G as (h & EG & H0 & PL). rewrite EG. eexists. split; [reflexivity|]. cbn [fst snd]. split; [rewrite zlen_app, zlen_cons, zlen_nil; lia|]. split; [destruct (Z.ltb_spec 0 h); lia|]. split.
      * intros q k' Hq. destruct (Z.ltb_spec q (zlen acc)).
        -- rewrite rd_app_l in Hq by auto. auto.
        -- pose proof (rd_Some_bound _ _ _ Hq) as B. rewrite zlen_app, zlen_cons, zlen_nil in B. rewrite rd_app_r in Hq by lia. replace (q - zlen acc) with 0 in Hq by lia. rewrite rd_cons_0 in Hq. injection Hq as <-. now replace q with i by lia.
      * intros L r' Hr' Er'. destruct (Z.ltb_spec 0 h); [|intros m Hm; lia]. destruct PL as (r2 & Hr2 & Er2 & PL). assert (r2 = r) by (apply sa_inj; auto; congruence). subst r2.
        destruct (Z.eqb_spec r 0) as [|Nr]; [lia|]. destruct (Z.eq_dec h 1) as [->|N1]; [intros m Hm; lia|]. destruct PL as (_ & PA & _). set (j := at0 sa (r - 1)) in *.
        destruct (sa_rd (r - 1) ltac:(lia)) as (_ & Bj). fold j in Bj. destruct W as (_ & W2 & W3).
        assert (J1 : j + 1 < n). { destruct (Z.lt_ge_cases (j + 1) n); auto. specialize (PA 1 ltac:(lia)). rewrite (W3 (j + 1)) in PA by lia. specialize (W2 (i + 1) ltac:(lia)). lia. }
        assert (LT : suf_lt t j i) by (rewrite <- Er; apply sa_lt; lia). apply lt_step in LT. specialize (PA 0 ltac:(lia)) as PA0. rewrite !Z.add_0_r in PA0. destruct LT as [LT|(_ & LT)]; [lia|].
        destruct (sa_rank (j + 1) ltac:(lia)) as (rj & Hrj & Erj). assert (rj < r') by (apply sa_lt_inv; [lia|lia|]; now rewrite Erj, Er').
        apply agree_sym. apply (sandwich (j + 1)).
        -- destruct (Z.eq_dec rj (r' - 1)) as [->|]; [left; now rewrite Erj|right]. rewrite <- Erj. apply sa_lt; lia.
        -- rewrite <- Er'. apply sa_lt; lia.
        -- intros m Hm. rewrite <- !Z.add_assoc. symmetry. apply PA. lia.
    + rewrite EF. cbn [snd] in *.
      assert (ME : mapM (fun i => x <- rd sa i;; rd plcp x) (zrange n) = Some (map (fun i => at0 plcp (at0 sa i)) (zrange n))).
      { apply mapM_Some_map. intros i Hi. apply in_zrange in Hi. destruct (sa_rd i Hi) as (A & B). rewrite A. apply at0_rd. lia. }
      rewrite ME. eexists. split; [reflexivity|].
      assert (PF : forall i, 0 <= i < n -> if i =? 0 then at0 plcp (at0 sa i) = 0 else is_lcp t (at0 sa i) (at0 sa (i - 1)) (at0 plcp (at0 sa i))).
      { intros i Hi. destruct (sa_rd i Hi) as (_ & B). assert (X : rd plcp (at0 sa i) = Some (at0 plcp (at0 sa i))) by (apply at0_rd; lia). destruct (RF _ _ X) as (r & Hr & Er & P). apply sa_inj in Er; auto. subst r. exact P. }
      split; [rewrite zlen_map, zlen_zrange; lia|]. split.
      * rewrite rd_map, rd_zrange by lia. cbn [option_map]. f_equal. apply (PF 0). lia.
      * intros i a b Ha Hb. pose proof (rd_Some_bound _ _ _ Ha). pose proof (rd_Some_bound _ _ _ Hb). rewrite sa_zlen in *. rewrite rd_map, rd_zrange by lia. cbn [option_map]. eexists. split; [reflexivity|]. specialize (PF (i + 1) ltac:(lia)). replace (i + 1 =? 0) with false in PF by lia. replace (i + 1 - 1) with i in PF by lia.
        assert (EA : at0 sa i = a) by (unfold at0; now rewrite Ha). assert (EB : at0 sa (i + 1) = b) by (unfold at0; now rewrite Hb). rewrite EA, EB in *. destruct PF as (P1 & P2 & P3). split; [exact P1|]. split; [now apply agree_sym|auto].
Qed.

(** common prefixes of any two suffixes, from the LCP array *)
Section Between.
Variable lcp : list Z.
Hypothesis LC : lcp_array_of t n sa lcp.
Lemma lc_adj m : 1 <= m < n -> is_lcp t (at0 sa (m - 1)) (at0 sa m) (at0 lcp m).
Proof.
  intros Hm. destruct LC as (_ & _ & L). destruct (sa_rd (m - 1) ltac:(lia)) as (A & _), (sa_rd m ltac:(lia)) as (B & _). replace m with (m - 1 + 1) in B at 1 by lia. destruct (L _ _ _ A B) as (k & E & I). replace (m - 1 + 1) with m in E by lia. unfold at0 at 3. now rewrite E.
Qed.
Lemma agree_between x y k : 0 <= x -> x < y -> y < n -> (agree t (at0 sa x) (at0 sa y) k <-> forall m, x < m <= y -> k <= at0 lcp m).
Proof.
  intros Hx L Hy. split.
  - intros A m Hm. assert (B : agree t (at0 sa (m - 1)) (at0 sa m) k).
    { assert (C1 : agree t (at0 sa x) (at0 sa m) k).
      { destruct (Z.eq_dec m y) as [->|]; [exact A|]. assert (agree t (at0 sa m) (at0 sa y) k) by (apply (sandwich (at0 sa x)); [right; apply sa_lt; lia|apply sa_lt; lia|exact A]). eapply agree_trans; [exact A|now apply agree_sym]. }
      apply (sandwich (at0 sa x)); [|apply sa_lt; lia|exact C1]. destruct (Z.eq_dec x (m - 1)) as [->|]; [now left|right; apply sa_lt; lia]. }
    destruct (lc_adj m ltac:(lia)) as (P & Q & R). destruct (Z.lt_ge_cases (at0 lcp m) k); [|lia]. exfalso. apply R, B. lia.
  - assert (G : forall d, 0 <= d -> x + d < n -> (forall m, x < m <= x + d -> k <= at0 lcp m) -> agree t (at0 sa x) (at0 sa (x + d)) k).
    { apply (natlike_ind (fun d => x + d < n -> (forall m, x < m <= x + d -> k <= at0 lcp m) -> agree t (at0 sa x) (at0 sa (x + d)) k)).
      - intros _ _. rewrite Z.add_0_r. intros m _. reflexivity.
      - intros d Hd IH B H. eapply agree_trans; [apply IH; [lia|intros; apply H; lia]|]. replace (x + Z.succ d) with (x + d + 1) by lia. pose proof (lc_adj (x + d + 1) ltac:(lia)) as (_ & Q & _). replace (x + d + 1 - 1) with (x + d) in Q by lia. eapply agree_le; [exact Q|]. apply H. lia. }
    intros H. replace y with (x + (y - x)) by lia. apply G; [lia|lia|]. intros m Hm. apply H. lia.
Qed.
End Between.
End Lcp.
