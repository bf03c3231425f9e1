(** * CreateSuffixArray returns the suffix array. *)
From Coq Require Import ZArith List Bool Lia Sorting.Sorted Sorting.Permutation.
From Verif Require Import Base RaggedModel OpsModel OpsProofs ReverseProofs FsaLemmas IDenseSpec DetInv SufModel SufSpec RnntDecList RnntDecGroup SufRadix SufDc3.
Import ListNotations.
Open Scope Z_scope.

Lemma scat {A} (f : Z -> Z) (g : Z -> A) step (r : list A) : forall m, 0 <= m -> (forall i, 0 <= i < m -> 0 <= f i < zlen r) ->
  (forall i j, 0 <= i < m -> 0 <= j < m -> f i = f j -> i = j) -> (forall s i, 0 <= i < m -> step s i = wr s (f i) (g i)) ->
  exists r', foldM step (zrange m) r = Some r' /\ zlen r' = zlen r /\ (forall i, 0 <= i < m -> rd r' (f i) = Some (g i)) /\
    forall k, (forall i, 0 <= i < m -> f i <> k) -> rd r' k = rd r k.
Proof.
  apply (natlike_ind (fun m => (forall i, 0 <= i < m -> 0 <= f i < zlen r) ->
  (forall i j, 0 <= i < m -> 0 <= j < m -> f i = f j -> i = j) -> (forall s i, 0 <= i < m -> step s i = wr s (f i) (g i)) ->
  exists r', foldM step (zrange m) r = Some r' /\ zlen r' = zlen r /\ (forall i, 0 <= i < m -> rd r' (f i) = Some (g i)) /\
    forall k, (forall i, 0 <= i < m -> f i <> k) -> rd r' k = rd r k)).
  - intros _ _ _. exists r. split; [reflexivity|]. split; [reflexivity|]. split; [intros; lia|reflexivity].
  - intros m Hm IH HB HI HS. change (Z.succ m) with (m + 1) in *. destruct IH as (r1 & E1 & L1 & R1 & O1).
    + intros; apply HB; lia.
    + intros; apply HI; lia.
    + intros; apply HS; lia.
    + rewrite zrange_S, foldM_app, E1 by lia. cbn [foldM]. rewrite HS by lia. destruct (wr_Some r1 (f m) (g m)) as (r2 & E2 & L2 & R2); [rewrite L1; apply HB; lia|]. rewrite E2. exists r2. split; [reflexivity|]. split; [lia|]. split.
      * intros i Hi. rewrite R2. destruct (Z.eqb_spec (f i) (f m)) as [E|E]; [apply HI in E; [now subst i|lia|lia]|]. apply R1. assert (i <> m) by (intros ->; auto). lia.
      * intros k Hk. rewrite R2. replace (k =? f m) with false by (symmetry; apply Z.eqb_neq; intros ->; apply (Hk m); auto; lia). apply O1. intros i Hi. apply Hk. lia.
Qed.
Lemma SS_of_rd {A} (P : A -> A -> Prop) l : (forall i j x y, i < j -> rd l i = Some x -> rd l j = Some y -> P x y) -> StronglySorted P l.
Proof.
  induction l as [|x l IH]; intros H; constructor.
  - apply IH. intros i j a b L Hi Hj. pose proof (rd_Some_bound _ _ _ Hi). apply (H (i + 1) (j + 1)); [lia| |]; rewrite rd_cons_S; auto; lia.
  - apply Forall_forall. intros y Hy. destruct (In_rd _ _ Hy) as (i & B & E). apply (H 0 (i + 1)); [lia|apply rd_cons_0|]. rewrite rd_cons_S; auto. lia.
Qed.
Lemma SS_NoDup {A} (P : A -> A -> Prop) l : (forall x, ~ P x x) -> StronglySorted P l -> NoDup l.
Proof. intros HI. induction 1 as [|x l HS IH HF]; constructor; auto. intros Hx. rewrite Forall_forall in HF. exact (HI x (HF _ Hx)). Qed.
Lemma SS_weaken {A} (P P' : A -> A -> Prop) l : (forall x y, In x l -> In y l -> P x y -> P' x y) -> StronglySorted P l -> StronglySorted P' l.
Proof.
  intros H HS. induction HS as [|x l HS IH HF]; constructor.
  - apply IH. intros a b Ha Hb. apply H; now right.
  - rewrite Forall_forall in *. intros y Hy. apply H; [now left|now right|auto].
Qed.

Section Main.
Variables (t : list Z) (n K : Z).
Hypothesis W : padded t n K.
Hypothesis Hn : 2 <= n.
Let n0 := (n + 2) / 3.
Let n1 := (n + 1) / 3.
Let n2 := n / 3.
Let n02 := n0 + n2.
Let idx := idx12 n.
Let smp := sample n.
Ltac dm x := pose proof (Z.div_mod x 3 ltac:(lia)); pose proof (Z.mod_pos_bound x 3 ltac:(lia)).
Ltac nn := unfold n02, n0, n1, n2 in *; dm n; dm (n + 1); dm (n + 2).

Let r12 := filter (fun i => negb (i mod 3 =? 0)) (zrange (n + (n0 - n1))).
Lemma r12_in x : In x r12 <-> smp x.
Proof. unfold r12, smp, sample. rewrite filter_In, in_zrange, negb_true_iff, Z.eqb_neq. reflexivity. Qed.
Lemma r12_nodup : NoDup r12.
Proof. apply NoDup_filter, NoDup_zrange. Qed.
Lemma map_idx_perm l : Permutation l r12 -> Permutation (map idx l) (zrange n02).
Proof.
  intros P. rewrite (Permutation_map idx P). apply NoDup_Permutation; [|apply NoDup_zrange|].
  - assert (G : forall l, (forall x, In x l -> smp x) -> NoDup l -> NoDup (map idx l)).
    { clear l P. intros l. induction l as [|x l IH]; intros HS HN; cbn; [constructor|]. inversion HN as [|? ? N1 N2]; subst. constructor; [|apply IH; auto; intros; apply HS; now right].
      intros Hx. apply in_map_iff in Hx as (y & E & Hy). apply (idx_inj n Hn) in E; [subst y; contradiction|apply HS; now right|apply HS; now left]. }
    apply G; [intros x Hx; now apply r12_in|apply r12_nodup].
  - intros s. rewrite in_map_iff, in_zrange. split.
    + intros (x & <- & Hx). apply (idx_range n Hn). now apply r12_in.
    + intros Hs. destruct (pos_sample n s Hs) as (A & B). exists (pos12 n0 s). split; [exact B|now apply r12_in].
Qed.
Lemma zlen_r12 : zlen r12 = n02.
Proof. pose proof (Permutation_length (map_idx_perm r12 (Permutation_refl _))) as L. rewrite map_length, zrange_length in L. pose proof (n02_lt n Hn) as B. fold n0 n2 n02 in B. unfold zlen. lia. Qed.

(** the three radix passes *)
Lemma passes : exists s1 s2 sa12, radix_pass r12 t 2 n02 K = Some s1 /\ radix_pass s1 t 1 n02 K = Some s2 /\ radix_pass s2 t 0 n02 K = Some sa12 /\
  Permutation s2 r12 /\ Permutation sa12 r12 /\ StronglySorted (fun x y => cd t K x <= cd t K y) sa12.
Proof.
  pose proof (K_pos t n K W Hn) as KP. pose proof (n02_lt n Hn) as B. fold n0 n2 n02 in B.
  assert (HR : forall m l, 0 <= m <= 2 -> Permutation l r12 -> forall x, In x l -> rd t (x + m) = Some (at0 t (x + m)) /\ 0 <= at0 t (x + m) <= K).
  { intros m l Hm P x Hx. assert (Sx : smp x) by (apply r12_in; eapply Permutation_in; eauto). split; [eapply sample_rd; eauto|]. pose proof (t_range t n K W Hn (x + m)) as T. destruct Sx as ((? & ?) & ?). specialize (T ltac:(lia)). lia. }
  assert (HZ : forall l, Permutation l r12 -> zlen l = n02) by (intros l P; unfold zlen; rewrite (Permutation_length P); apply zlen_r12).
  set (s1 := radix_out r12 K (fun x => at0 t (x + 2))). assert (P1 : Permutation s1 r12) by (apply (radix_perm r12 t 2); [lia|apply HR; [lia|reflexivity]]).
  set (s2 := radix_out s1 K (fun x => at0 t (x + 1))). assert (P2 : Permutation s2 r12) by (eapply Permutation_trans; [|exact P1]; apply (radix_perm s1 t 1); [lia|apply HR; [lia|exact P1]]).
  set (s3 := radix_out s2 K (fun x => at0 t (x + 0))). assert (P3 : Permutation s3 r12) by (eapply Permutation_trans; [|exact P2]; apply (radix_perm s2 t 0); [lia|apply HR; [lia|exact P2]]).
  exists s1, s2, s3. split; [rewrite <- zlen_r12; apply radix_pass_ok; [lia|apply HR; [lia|reflexivity]]|].
  split; [rewrite <- (HZ s1 P1); apply radix_pass_ok; [lia|apply HR; [lia|exact P1]]|].
  split; [rewrite <- (HZ s2 P2); apply radix_pass_ok; [lia|apply HR; [lia|exact P2]]|].
  split; [exact P2|]. split; [exact P3|].
  assert (S0 : StronglySorted (fun _ _ : Z => True) r12) by (apply SS_of_rd; auto).
  pose proof (radix_sorted r12 K (fun x => at0 t (x + 2)) _ S0) as S1. fold s1 in S1.
  pose proof (radix_sorted s1 K (fun x => at0 t (x + 1)) _ S1) as S2. fold s2 in S2.
  pose proof (radix_sorted s2 K (fun x => at0 t (x + 0)) _ S2) as S3. fold s3 in S3.
  revert S3. apply SS_weaken. intros x y Hx Hy H. rewrite !Z.add_0_r in H.
  assert (X : smp x) by (apply r12_in; eapply Permutation_in; eauto). assert (Y : smp y) by (apply r12_in; eapply Permutation_in; eauto).
  destruct X as ((X & _) & _), Y as ((Y & _) & _). pose proof (cd_lt t n K W Hn y x Y X) as C. lia.
Qed.

(** names *)
Lemma named sa12 s2 : Permutation s2 r12 -> Permutation sa12 r12 -> StronglySorted (fun x y => cd t K x <= cd t K y) sa12 ->
  exists name last R, name_triples t sa12 (s2 ++ [0; 0; 0]) n0 n02 = Some (name, last, R) /\ ninv t n K sa12 name last R.
Proof.
  intros P2 P HS. unfold name_triples. assert (Z12 : n02 = zlen sa12) by (rewrite <- zlen_r12; unfold zlen; now rewrite (Permutation_length P)). rewrite Z12.
  rewrite (foldM_rd sa12 (fun s x => a <- rd t x;; b <- rd t (x + 1);; c <- rd t (x + 2);;
      let '(name, (c0, c1, c2), r) := s in
      let tt := if negb (a =? c0) || negb (b =? c1) || negb (c =? c2) then (name + 1, (a, b, c)) else (name, (c0, c1, c2)) in
      r' <- wr r (if x mod 3 =? 1 then x / 3 else x / 3 + n0) (fst tt);;
      Some (tt, r'))).
  destruct (name_fold t n K W Hn sa12 [] 0 (-1, -1, -1) (s2 ++ [0; 0; 0])) as (name & last & R & E & I).
  - intros x Hx. apply r12_in. eapply Permutation_in; eauto.
  - cbn [app]. eapply Permutation_NoDup; [symmetry; exact P|apply r12_nodup].
  - exact HS.
  - assert (Z2 : zlen s2 = n02) by (rewrite <- zlen_r12; unfold zlen; now rewrite (Permutation_length P2)). constructor.
    + rewrite zlen_app, Z2. reflexivity.
    + rewrite zlen_nil. lia.
    + intros i Hi. unfold at0. fold n0 n2 n02 in Hi. rewrite rd_app_r by lia. destruct (rd [0; 0; 0] (i - zlen s2)) as [z|] eqn:Ez; [|reflexivity]. apply rd_In in Ez. cbn in Ez. lia.
    + intros x [].
    + intros x y [].
    + intros x y [].
    + intros _ k x H. rewrite rd_nil in H. discriminate.
    + left. auto.
  - cbn [app] in I. exists name, last, R. split; [exact E|exact I].
Qed.

(** ranks of the sample suffixes *)
Record ranked (sa R' : list Z) : Prop := {
  rk_perm : Permutation sa (zrange n02);
  rk_sorted : StronglySorted (fun s s' => suf_lt t (pos12 n0 s) (pos12 n0 s')) sa;
  rk_zlen : zlen R' = n02 + 3;
  rk_end : forall i, n02 <= i -> at0 R' i = 0;
  rk_inv : forall s, 0 <= s < n02 -> rd sa (at0 R' s - 1) = Some s }.

Section Ranked.
Variables (sa R' : list Z).
Hypothesis RK : ranked sa R'.
Let rk x := at0 R' (idx x).
Lemma sa_in s : In s sa <-> 0 <= s < n02.
Proof. rewrite <- in_zrange. pose proof (rk_perm _ _ RK) as P. split; apply Permutation_in; [auto|now symmetry]. Qed.
Lemma sa_nodup : NoDup sa.
Proof. eapply Permutation_NoDup; [symmetry; apply (rk_perm _ _ RK)|apply NoDup_zrange]. Qed.
Lemma rk_smp x y : smp x -> smp y -> rk x < rk y -> suf_lt t x y.
Proof.
  intros Sx Sy L. pose proof (rk_inv _ _ RK (idx x) (idx_range n Hn x Sx)) as Ex. pose proof (rk_inv _ _ RK (idx y) (idx_range n Hn y Sy)) as Ey.
  pose proof (SS_in _ _ (rk_sorted _ _ RK) _ _ _ _ Ex Ey) as H. unfold rk in L. specialize (H ltac:(lia)). cbv beta in H.
  pose proof (pos_idx n Hn x Sx) as PX. pose proof (pos_idx n Hn y Sy) as PY. fold n0 idx in PX, PY. rewrite PX, PY in H. exact H.
Qed.
Definition ext x := 0 <= x <= n /\ x mod 3 <> 0.
Lemma ext_case x : ext x -> smp x \/ (x = n /\ n mod 3 = 2).
Proof.
  intros (A & B). destruct (Z.eq_dec x n) as [->|N]; [|left; apply sample_lt; auto; lia]. assert (n mod 3 = 1 \/ n mod 3 = 2) as [M|M] by (dm n; lia); [left; now apply sample_n|right; auto].
Qed.
Lemma rk_pos x : smp x -> 1 <= rk x.
Proof. intros Sx. pose proof (rk_inv _ _ RK (idx x) (idx_range n Hn x Sx)) as Ex. apply rd_Some_bound in Ex. unfold rk. lia. Qed.
Lemma rk_n : n mod 3 = 2 -> rk n = 0.
Proof. intros M. unfold rk. pose proof (idx_n n M) as E. fold n0 n2 n02 idx in E. rewrite E. apply (rk_end _ _ RK). lia. Qed.
Lemma rk_lt x y : ext x -> ext y -> rk x < rk y -> suf_lt t x y.
Proof.
  intros Ex Ey L. destruct (ext_case x Ex) as [Sx|(-> & M)], (ext_case y Ey) as [Sy|(E & M')].
  - now apply rk_smp.
  - subst y. rewrite rk_n in L by auto. pose proof (rk_pos x Sx). lia.
  - apply (lt_end t n K W). pose proof (sample_le n y Sy). assert (y <> n) by (intros ->; lia). destruct Ey. lia.
  - subst y. lia.
Qed.
Lemma rk_inj x y : ext x -> ext y -> rk x = rk y -> x = y.
Proof.
  intros Ex Ey L. destruct (ext_case x Ex) as [Sx|(-> & M)], (ext_case y Ey) as [Sy|(E & M')].
  - apply (idx_inj n Hn); auto. pose proof (rk_inv _ _ RK (idx x) (idx_range n Hn x Sx)) as E1. pose proof (rk_inv _ _ RK (idx y) (idx_range n Hn y Sy)) as E2. unfold rk in L. rewrite L in E1. assert (EE : idx x = idx y) by congruence. exact EE.
  - subst y. rewrite rk_n in L by auto. pose proof (rk_pos x Sx). lia.
  - rewrite rk_n in L by auto. pose proof (rk_pos y Sy). lia.
  - auto.
Qed.
Lemma rk_iff x y : ext x -> ext y -> (suf_lt t x y <-> rk x < rk y).
Proof.
  intros Ex Ey. split; [|now apply rk_lt]. intros L. destruct (Z.lt_trichotomy (rk x) (rk y)) as [H|[H|H]]; auto.
  - apply rk_inj in H; auto. subst y. now apply lt_irrefl in L.
  - apply rk_lt in H; auto. exfalso. apply (lt_irrefl t x). eapply lt_trans; eauto.
Qed.

(** the suffixes at multiples of 3 *)
Let r0 := map (fun x => 3 * x) (filter (fun x => x <? n0) sa).
Lemma r0_in j : In j r0 <-> 0 <= j < n /\ j mod 3 = 0.
Proof.
  unfold r0. rewrite in_map_iff. split.
  - intros (s & <- & Hs). apply filter_In in Hs as (H1 & H2). apply sa_in in H1. rewrite Z.mul_comm, Z.mod_mul by lia. nn. lia.
  - intros (A & B). exists (j / 3). dm j. split; [lia|]. apply filter_In. rewrite sa_in. nn. lia.
Qed.
Lemma r0_zlen : zlen r0 = n0.
Proof.
  unfold r0. rewrite zlen_map. assert (P : Permutation (filter (fun x => x <? n0) sa) (zrange n0)).
  { apply NoDup_Permutation; [apply NoDup_filter, sa_nodup|apply NoDup_zrange|]. intros x. rewrite filter_In, sa_in, in_zrange. nn. lia. }
  unfold zlen. rewrite (Permutation_length P), zrange_length. nn. lia.
Qed.
Lemma sa0_ok : exists sa0, radix_pass r0 t 0 n0 K = Some sa0 /\ (forall j, In j sa0 <-> 0 <= j < n /\ j mod 3 = 0) /\ StronglySorted (suf_lt t) sa0 /\ zlen sa0 = n0.
Proof.
  pose proof (K_pos t n K W Hn) as KP.
  assert (HR : forall x, In x r0 -> rd t (x + 0) = Some (at0 t (x + 0)) /\ 0 <= at0 t (x + 0) <= K).
  { intros x Hx. apply r0_in in Hx as (A & _). split; [destruct W as (L & _); apply at0_rd; lia|]. pose proof (t_range t n K W Hn (x + 0) ltac:(lia)). lia. }
  assert (P : Permutation (radix_out r0 K (fun x => at0 t (x + 0))) r0) by (apply (radix_perm r0 t 0); [lia|exact HR]).
  exists (radix_out r0 K (fun x => at0 t (x + 0))). split; [rewrite <- r0_zlen; apply radix_pass_ok; [lia|exact HR]|].
  split; [intros j; rewrite <- r0_in; split; apply Permutation_in; [exact P|now symmetry]|].
  split; [|unfold zlen; rewrite (Permutation_length P); apply r0_zlen].
  assert (S0 : StronglySorted (fun j j' => suf_lt t (j + 1) (j' + 1)) r0).
  { unfold r0. apply SS_map. eapply SS_weaken; [|apply SS_filter, (rk_sorted _ _ RK)]. intros x y Hx Hy H. cbv beta in H. apply filter_In in Hx as (X1 & X2). apply filter_In in Hy as (Y1 & Y2). unfold pos12 in H. rewrite X2, Y2 in H. now rewrite !(Z.mul_comm 3). }
  pose proof (radix_sorted r0 K (fun x => at0 t (x + 0)) _ S0) as S1. revert S1. apply SS_weaken. intros x y _ _ H. rewrite !Z.add_0_r in H. now apply lt_step.
Qed.

(** the merge *)
Definition valid12 s := 0 <= s < n02 /\ pos12 n0 s < n.
Lemma cmp_ok s j : valid12 s -> 0 <= j < n -> j mod 3 = 0 -> exists b,
  (if s <? n0 then ti <- rd t (pos12 n0 s);; ri <- rd R' (s + n0);; tj <- rd t j;; rj <- rd R' (j / 3);; Some (leq2 ti ri tj rj)
   else ti <- rd t (pos12 n0 s);; ti1 <- rd t (pos12 n0 s + 1);; ri <- rd R' (s - n0 + 1);;
        tj <- rd t j;; tj1 <- rd t (j + 1);; rj <- rd R' (j / 3 + n0);; Some (leq3 ti ti1 ri tj tj1 rj)) = Some b /\
  if b then suf_lt t (pos12 n0 s) j else suf_lt t j (pos12 n0 s).
Proof.
  intros (Hs & Hp) Hj M. pose proof (rk_zlen _ _ RK) as ZR. destruct W as (ZT & W2 & W3).
  destruct (pos_sample n s Hs) as (Sp & Ip). fold n0 in Sp, Ip.
  assert (JI : idx (j + 1) = j / 3). { unfold idx, idx12. dm j. dm (j + 1). replace ((j + 1) mod 3) with 1 by lia. cbv iota. rewrite Z.eqb_refl. lia. }
  assert (JI2 : idx (j + 2) = j / 3 + n0). { unfold idx, idx12. dm j. dm (j + 2). replace ((j + 2) mod 3) with 2 by lia. change (2 =? 1) with false. cbv iota. fold n0. lia. }
  assert (EJ : ext (j + 1)) by (split; [lia|]; dm j; dm (j + 1); lia).
  rewrite (at0_rd t (pos12 n0 s)) by (destruct Sp as ((? & ?) & ?); lia). rewrite (at0_rd t j) by lia. set (i := pos12 n0 s) in *.
  assert (I0 : 0 <= i) by (destruct Sp as ((? & ?) & ?); lia). unfold i, pos12 in Ip.
  destruct (Z.ltb_spec s n0) as [L|L].
  - assert (Ei : i = s * 3 + 1) by (unfold i, pos12; apply Z.ltb_lt in L; now rewrite L).
    assert (II : idx (i + 1) = s + n0). { rewrite Ei. replace (s * 3 + 1 + 1) with (2 + s * 3) by lia. unfold idx, idx12. rewrite Z.mod_add, Z.div_add by lia. change (2 mod 3 =? 1) with false. cbv iota. fold n0. change (2 / 3) with 0. lia. }
    assert (EI : ext (i + 1)) by (split; [lia|]; rewrite Ei; replace (s * 3 + 1 + 1) with (2 + s * 3) by lia; rewrite Z.mod_add by lia; discriminate).
    rewrite (at0_rd R' (s + n0)) by (nn; lia). rewrite (at0_rd R' (j / 3)) by (nn; dm j; lia).
    rewrite <- II, <- JI. fold (rk (i + 1)) (rk (j + 1)). eexists. split; [reflexivity|]. unfold leq2.
    pose proof (rk_iff _ _ EI EJ) as F1. pose proof (rk_iff _ _ EJ EI) as F2. pose proof (rk_inj _ _ EI EJ) as F3. assert (i <> j) by (intros E; rewrite <- E in M; rewrite Ei in M; replace (s * 3 + 1) with (1 + s * 3) in M by lia; rewrite Z.mod_add in M by lia; discriminate).
    destruct (Z.ltb_spec (at0 t i) (at0 t j)); [apply lt_step; now left|]. cbn [orb]. destruct (Z.eqb_spec (at0 t i) (at0 t j)); [|apply lt_step; left; lia]. cbn [andb].
    destruct (Z.leb_spec (rk (i + 1)) (rk (j + 1))); apply lt_step; right; (split; [lia|]); [apply F1|apply F2]; lia.
  - assert (Ei : i = (s - n0) * 3 + 2) by (unfold i, pos12; apply Z.ltb_ge in L; now rewrite L).
    assert (II : idx (i + 2) = s - n0 + 1). { rewrite Ei. replace ((s - n0) * 3 + 2 + 2) with (1 + (s - n0 + 1) * 3) by lia. unfold idx, idx12. rewrite Z.mod_add, Z.div_add by lia. change (1 mod 3 =? 1) with true. cbv iota. change (1 / 3) with 0. lia. }
    assert (IM : i mod 3 = 2) by (rewrite Ei; replace ((s - n0) * 3 + 2) with (2 + (s - n0) * 3) by lia; rewrite Z.mod_add by lia; reflexivity).
    rewrite (at0_rd t (i + 1)), (at0_rd t (j + 1)) by lia. rewrite (at0_rd R' (s - n0 + 1)) by (nn; lia). rewrite (at0_rd R' (j / 3 + n0)) by (nn; dm j; lia).
    rewrite <- II, <- JI2. fold (rk (i + 2)) (rk (j + 2)). eexists. split; [reflexivity|]. unfold leq3, leq2.
    destruct (Z.ltb_spec (at0 t i) (at0 t j)); [apply lt_step; now left|]. cbn [orb]. destruct (Z.eqb_spec (at0 t i) (at0 t j)) as [Q|]; [|apply lt_step; left; lia]. cbn [andb].
    destruct (Z.ltb_spec (at0 t (i + 1)) (at0 t (j + 1))); [apply lt_step; right; split; [lia|]; apply lt_step; now left|]. cbn [orb].
    destruct (Z.eqb_spec (at0 t (i + 1)) (at0 t (j + 1))) as [Q2|]; [|apply lt_step; right; split; [lia|]; apply lt_step; left; lia]. cbn [andb].
    assert (I1 : i + 1 < n /\ j + 1 < n).
    { destruct (Z.lt_ge_cases (i + 1) n) as [A|A].
      - split; [exact A|]. destruct (Z.lt_ge_cases (j + 1) n) as [A'|A']; [exact A'|]. rewrite (W3 (j + 1)) in Q2 by lia. specialize (W2 (i + 1) ltac:(lia)). lia.
      - exfalso. assert (n = i + 1) by lia. assert (j + 1 < n) by (dm i; dm j; lia). rewrite (W3 (i + 1)) in Q2 by lia. specialize (W2 (j + 1) ltac:(lia)). lia. }
    assert (EI : ext (i + 2)) by (split; [lia|]; dm i; dm (i + 2); lia).
    assert (EJ2 : ext (j + 2)) by (split; [lia|]; dm j; dm (j + 2); lia).
    pose proof (rk_iff _ _ EI EJ2) as F1. pose proof (rk_iff _ _ EJ2 EI) as F2. pose proof (rk_inj _ _ EI EJ2) as F3. assert (i <> j) by (intros E; rewrite E in IM; lia).
    destruct (Z.leb_spec (rk (i + 2)) (rk (j + 2))); apply lt_step; right; (split; [lia|]); apply lt_step; right; (split; [lia|]); rewrite <- !Z.add_assoc; [apply F1|apply F2]; lia.
Qed.

Lemma merge_ok k : forall l12 l0, l12 <> [] -> l0 <> [] -> (length l12 + length l0 = k)%nat -> (forall s, In s l12 -> valid12 s) -> (forall j, In j l0 -> 0 <= j < n /\ j mod 3 = 0) ->
  StronglySorted (suf_lt t) (map (pos12 n0) l12) -> StronglySorted (suf_lt t) l0 ->
  exists out, merge t R' n0 k l12 l0 = Some out /\ (forall x, In x out <-> In x (map (pos12 n0) l12) \/ In x l0) /\ StronglySorted (suf_lt t) out.
Proof.
  induction k as [|k IH]; intros l12 l0 N1 N0 Ek V12 V0 S12 S0.
  - destruct l12; [contradiction|]. cbn in Ek. lia.
  - destruct l12 as [|s l12]; [contradiction|]. destruct l0 as [|j l0]; [contradiction|]. cbn [merge].
    destruct (V0 j (or_introl eq_refl)) as (J1 & J2). destruct (cmp_ok s j (V12 s (or_introl eq_refl)) J1 J2) as (b & E & B).
    cbv zeta. rewrite E. cbn [map] in S12. pose proof S12 as S12'. pose proof S0 as S0'. apply StronglySorted_inv in S12 as (S12 & F12). apply StronglySorted_inv in S0 as (S0 & F0). rewrite Forall_forall in F12, F0.
    assert (HB : if b then forall y, In y (map (pos12 n0) l12) \/ In y (j :: l0) -> suf_lt t (pos12 n0 s) y else forall y, In y (pos12 n0 s :: map (pos12 n0) l12) \/ In y l0 -> suf_lt t j y).
    { destruct b; intros y [Hy|Hy].
      - auto.
      - destruct Hy as [<-|Hy]; [exact B|]. eapply lt_trans; [exact B|auto].
      - destruct Hy as [<-|Hy]; [exact B|]. eapply lt_trans; [exact B|auto].
      - auto. }
    destruct b.
    + destruct l12 as [|s' l12].
      * eexists. split; [reflexivity|]. split; [intros x; cbn; tauto|]. constructor; [exact S0'|]. apply Forall_forall. intros y Hy. apply HB. now right.
      * assert (LE : (length (s' :: l12) + length (j :: l0))%nat = k) by (cbn [length] in Ek |- *; lia). assert (V12' : forall x, In x (s' :: l12) -> valid12 x) by (intros; apply V12; now right).
        destruct (IH (s' :: l12) (j :: l0) ltac:(discriminate) ltac:(discriminate) LE V12' V0 S12 S0') as (out & E2 & I2 & SS2). rewrite E2. eexists. split; [reflexivity|]. split.
        -- intros x. cbn [In]. rewrite I2. cbn [map In]. tauto.
        -- constructor; [exact SS2|]. apply Forall_forall. intros y Hy. apply HB. now apply I2.
    + destruct l0 as [|j' l0].
      * eexists. split; [reflexivity|]. split; [intros x; cbn; tauto|]. constructor; [exact S12'|]. apply Forall_forall. intros y Hy. apply HB. now left.
      * assert (LE : (length (s :: l12) + length (j' :: l0))%nat = k) by (cbn [length] in Ek |- *; lia). assert (V0' : forall x, In x (j' :: l0) -> 0 <= x < n /\ x mod 3 = 0) by (intros; apply V0; now right).
        destruct (IH (s :: l12) (j' :: l0) ltac:(discriminate) ltac:(discriminate) LE V12 V0' S12' S0) as (out & E2 & I2 & SS2). rewrite E2. eexists. split; [reflexivity|]. split.
        -- intros x. cbn [In]. rewrite I2. cbn [map In]. tauto.
        -- constructor; [exact SS2|]. apply Forall_forall. intros y Hy. apply HB. now apply I2.
Qed.

Lemma zlen_sa : zlen sa = n02.
Proof. unfold zlen. rewrite (Permutation_length (rk_perm _ _ RK)), zrange_length. pose proof (n02_lt n Hn) as B. fold n0 n2 n02 in B. lia. Qed.
(** the dummy suffix comes first *)
Lemma sa_first : n mod 3 = 1 -> rd sa 0 = Some (idx n).
Proof.
  intros M. pose proof (sample_n n Hn M) as Sn. fold smp in Sn. pose proof (rk_inv _ _ RK (idx n) (idx_range n Hn n Sn)) as E.
  pose proof (n02_lt n Hn) as B. fold n0 n2 n02 in B. destruct (rd_in_bound sa 0) as (y & Hy); [rewrite zlen_sa; lia|]. pose proof (rd_Some_bound _ _ _ E) as BE.
  destruct (Z.eq_dec (at0 R' (idx n) - 1) 0) as [Z0|Z0]; [now rewrite Z0 in E|].
  pose proof (SS_in _ _ (rk_sorted _ _ RK) _ _ _ _ Hy E ltac:(lia)) as H. cbv beta in H. pose proof (pos_idx n Hn n Sn) as PN. fold n0 idx in PN. rewrite PN in H.
  assert (Yr : 0 <= y < n02) by (apply sa_in; eapply rd_In; eauto). destruct (pos_sample n y Yr) as (Sy & _). fold n0 in Sy. pose proof (sample_le n _ Sy).
  destruct (Z.eq_dec (pos12 n0 y) n) as [EQ|NE]; [rewrite EQ in H; now apply lt_irrefl in H|]. exfalso. apply (lt_irrefl t n). eapply lt_trans; [|exact H]. apply (lt_end t n K W). destruct Sy as ((? & ?) & ?). lia.
Qed.

Lemma final_ok : exists sa0 out, radix_pass r0 t 0 n0 K = Some sa0 /\ merge t R' n0 (Z.to_nat n) (skipn (Z.to_nat (n0 - n1)) sa) sa0 = Some out /\ suffix_array_of t n out.
Proof.
  destruct sa0_ok as (sa0 & E0 & I0 & S0 & Z0). exists sa0.
  set (l12 := skipn (Z.to_nat (n0 - n1)) sa).
  assert (D : (n mod 3 = 1 /\ n0 - n1 = 1) \/ (n mod 3 <> 1 /\ n0 - n1 = 0)) by (nn; lia).
  assert (V : forall s, In s l12 <-> valid12 s).
  { intros s. destruct D as [(M & D)|(M & D)].
    - pose proof (sa_first M) as F. pose proof sa_nodup as ND. pose proof (sa_in s) as I. pose proof (sample_n n Hn M) as Sn. unfold l12. rewrite D. change (Z.to_nat 1) with 1%nat. destruct sa as [|y l]; [rewrite rd_nil in F; discriminate|]. rewrite rd_cons_0 in F. injection F as ->. cbn [skipn]. inversion ND as [|? ? N1 N2]; subst. split.
      + intros Hs. assert (Hs' : 0 <= s < n02) by (apply I; now right). split; [exact Hs'|]. destruct (pos_sample n s Hs') as (Sp & Ip). fold n0 idx in Sp, Ip. pose proof (sample_le n _ Sp). destruct (Z.eq_dec (pos12 n0 s) n) as [EQ|]; [|lia]. rewrite EQ in Ip. subst s. contradiction.
      + intros (H1 & H2). apply I in H1 as H1'. destruct H1' as [<-|H1']; [|exact H1']. pose proof (pos_idx n Hn n Sn) as PN. fold n0 idx in PN. lia.
    - unfold l12. rewrite D. change (Z.to_nat 0) with 0%nat. cbn [skipn]. rewrite sa_in. split; [|intros (A & _); exact A]. intros Hs. split; [exact Hs|]. destruct (pos_sample n s Hs) as (((_ & Sp) & _) & _). fold n0 n1 in Sp. rewrite D in Sp. lia. }
  assert (L12 : length l12 = (Z.to_nat n02 - Z.to_nat (n0 - n1))%nat) by (unfold l12; rewrite skipn_length; pose proof zlen_sa; unfold zlen in *; lia).
  assert (S12 : StronglySorted (suf_lt t) (map (pos12 n0) l12)).
  { apply SS_map. pose proof (rk_sorted _ _ RK) as S. unfold l12. rewrite <- (firstn_skipn (Z.to_nat (n0 - n1)) sa) in S. now apply SS_app in S as (_ & S & _). }
  destruct (merge_ok (Z.to_nat n) l12 sa0) as (out & E & I & S); auto.
  - intros X. rewrite X in L12. cbn in L12. nn. lia.
  - intros ->. rewrite zlen_nil in Z0. nn. lia.
  - rewrite L12. unfold zlen in Z0. nn. lia.
  - intros s Hs. now apply V.
  - intros j Hj. now apply I0.
  - exists out. split; [exact E0|]. split; [exact E|]. split; [|exact S]. apply NoDup_Permutation; [eapply SS_NoDup; [|exact S]; intros x; apply lt_irrefl|apply NoDup_zrange|].
    intros x. rewrite I, in_zrange, I0, in_map_iff. split.
    + intros [(s & <- & Hs)|(A & _)]; [|exact A]. apply V in Hs as (H1 & H2). destruct (pos_sample n s H1) as (((H3 & _) & _) & _). fold n0 in H3. lia.
    + intros Hx. destruct (Z.eq_dec (x mod 3) 0) as [M|M]; [right; auto|left]. pose proof (sample_lt n x Hx M) as Sx. exists (idx x). pose proof (pos_idx n Hn x Sx) as PX. fold n0 idx in PX. split; [exact PX|]. apply V. split; [apply (idx_range n Hn x Sx)|lia].
Qed.
End Ranked.
End Main.

Theorem dc3_ok fuel : forall t n K, padded t n K -> 1 <= n -> n <= Z.of_nat fuel ->
  exists sa, create_suffix_array fuel t n K = Some sa /\ suffix_array_of t n sa.
Proof.
  induction fuel as [|fuel IH]; intros t n K W H1 HF; [lia|]. cbn [create_suffix_array]. destruct (Z.eqb_spec n 1) as [->|N1].
  - exists [0]. split; [reflexivity|]. split; [reflexivity|]. repeat constructor.
  - assert (Hn : 2 <= n) by lia. set (n0 := (n + 2) / 3). set (n1 := (n + 1) / 3). set (n2 := n / 3). set (n02 := n0 + n2). cbv zeta.
    destruct (passes t n K W Hn) as (s1 & s2 & sa12 & E1 & E2 & E3 & P2 & P & HS). fold n0 n1 n2 n02 in E1, E2, E3. rewrite E1, E2, E3.
    destruct (named t n K W Hn sa12 s2 P2 P HS) as (name & last & R & E4 & I). fold n0 n2 n02 in E4. rewrite E4. cbn [fst snd].
    pose proof (n02_lt n Hn) as B02. fold n0 n2 n02 in B02.
    assert (SI : forall x, In x sa12 <-> sample n x) by (intros x; rewrite <- (r12_in n x); split; apply Permutation_in; [exact P|now symmetry]).
    assert (ZS : zlen sa12 = n02) by (pose proof (zlen_r12 n Hn) as Z; unfold zlen in *; rewrite (Permutation_length P); exact Z).
    assert (PI : forall s, 0 <= s < n02 -> In (pos12 n0 s) sa12 /\ idx12 n (pos12 n0 s) = s) by (intros s Hs; destruct (pos_sample n s Hs) as (A & B); split; [now apply SI|exact B]).
    assert (NI : forall x y, sample n x -> sample n y -> (suf_lt t x y <-> suf_lt R (idx12 n x) (idx12 n y))).
    { apply (names_iff t n K W Hn R).
      - intros x Hx. apply SI in Hx. apply (ni_r _ _ _ _ _ _ _ I x Hx).
      - apply (ni_e _ _ _ _ _ _ _ I).
      - intros x y Hx Hy. apply (ni_l _ _ _ _ _ _ _ I); now apply SI.
      - intros x y Hx Hy. apply (ni_q _ _ _ _ _ _ _ I); now apply SI. }
    assert (G : exists sa R', (if name <? n02 then sa <- create_suffix_array fuel R n02 name;; R' <- foldM (fun r i => x <- rd sa i;; wr r x (i + 1)) (zrange n02) R;; Some (sa, R')
              else sa <- foldM (fun s i => x <- rd R i;; wr s (x - 1) i) (zrange n02) sa12;; Some (sa, R)) = Some (sa, R') /\ ranked t n sa R').
    { destruct (Z.ltb_spec name n02) as [L|L].
      - assert (WR : padded R n02 name).
        { split; [apply (ni_z _ _ _ _ _ _ _ I)|]. split; [|apply (ni_e _ _ _ _ _ _ _ I)]. intros i Hi. destruct (PI i Hi) as (A & B). rewrite <- B. apply (ni_r _ _ _ _ _ _ _ I _ A). }
        destruct (IH R n02 name WR ltac:(lia) ltac:(lia)) as (sa & E5 & PS & SS). rewrite E5.
        assert (ND : NoDup sa) by (eapply Permutation_NoDup; [symmetry; exact PS|apply NoDup_zrange]).
        assert (ZA : zlen sa = n02) by (unfold zlen; rewrite (Permutation_length PS), zrange_length; lia).
        assert (AR : forall i, 0 <= i < n02 -> rd sa i = Some (at0 sa i) /\ 0 <= at0 sa i < n02).
        { intros i Hi. assert (X : rd sa i = Some (at0 sa i)) by (apply at0_rd; lia). split; [exact X|]. apply in_zrange. eapply Permutation_in; [exact PS|]. eapply rd_In; exact X. }
        destruct (scat (fun i => at0 sa i) (fun i => i + 1) (fun r i => x <- rd sa i;; wr r x (i + 1)) R n02) as (R' & E6 & Z6 & R6 & O6).
        + lia.
        + intros i Hi. pose proof (ni_z _ _ _ _ _ _ _ I) as Z. fold n0 n2 n02 in Z. rewrite Z. destruct (AR i Hi). lia.
        + intros i j Hi Hj E. destruct (AR i Hi) as (A1 & _), (AR j Hj) as (A2 & _). rewrite <- E in A2. eapply NoDup_rd; eauto.
        + intros s i Hi. destruct (AR i Hi) as (A1 & _). now rewrite A1.
        + rewrite E6. exists sa, R'. split; [reflexivity|]. constructor.
          * exact PS.
          * revert SS. apply SS_weaken. intros x y Hx Hy H. assert (X : 0 <= x < n02) by (apply in_zrange; eapply Permutation_in; eauto). assert (Y : 0 <= y < n02) by (apply in_zrange; eapply Permutation_in; eauto).
            destruct (PI x X) as (A & A'), (PI y Y) as (C & C'). fold n0. apply NI; [now apply SI|now apply SI|]. now rewrite A', C'.
          * rewrite Z6. apply (ni_z _ _ _ _ _ _ _ I).
          * intros i Hi. unfold at0. rewrite O6; [apply (ni_e _ _ _ _ _ _ _ I); exact Hi|]. intros j Hj. destruct (AR j Hj). fold n0 n2 n02 in Hi. lia.
          * intros s Hs. fold n0 n2 n02 in Hs. assert (X : In s sa) by (eapply Permutation_in; [symmetry; exact PS|now apply in_zrange]). destruct (In_rd _ _ X) as (i & Bi & Ei). rewrite ZA in Bi. destruct (AR i Bi) as (A1 & _). assert (at0 sa i = s) by congruence.
            assert (Q : at0 R' s = i + 1) by (unfold at0 at 1; rewrite <- H, (R6 i Bi); reflexivity). rewrite Q. now replace (i + 1 - 1) with i by lia.
      - assert (EN : name = zlen sa12) by (pose proof (ni_n _ _ _ _ _ _ _ I); lia). pose proof (ni_u _ _ _ _ _ _ _ I EN) as U. pose proof (ni_z _ _ _ _ _ _ _ I) as ZR. fold n0 n2 n02 in ZR.
        assert (KE : forall i, 0 <= i < n02 -> exists k x, rd sa12 k = Some x /\ idx12 n x = i /\ at0 R i = k + 1).
        { intros i Hi. destruct (PI i Hi) as (A & B). destruct (In_rd _ _ A) as (k & Bk & Ek). exists k, (pos12 n0 i). split; [exact Ek|]. split; [exact B|]. rewrite <- B at 1. now apply U. }
        destruct (scat (fun i => at0 R i - 1) (fun i => i) (fun s i => x <- rd R i;; wr s (x - 1) i) sa12 n02) as (sa & E6 & Z6 & R6 & _).
        + lia.
        + intros i Hi. destruct (KE i Hi) as (k & x & A & _ & C). apply rd_Some_bound in A. lia.
        + intros i j Hi Hj E. destruct (KE i Hi) as (k & x & A & B & C), (KE j Hj) as (k' & x' & A' & B' & C'). assert (k = k') by lia. subst k'. congruence.
        + intros s i Hi. rewrite (at0_rd R i) by lia. reflexivity.
        + rewrite E6. exists sa, R. split; [reflexivity|].
          assert (EA : sa = map (idx12 n) sa12).
          { apply list_ext_rd; [rewrite zlen_map; lia|]. intros k Hk. destruct (rd_in_bound sa12 k ltac:(lia)) as (x & Hx). rewrite rd_map, Hx. cbn [option_map]. assert (Sx : sample n x) by (apply SI; eapply rd_In; eauto). specialize (R6 (idx12 n x) (idx_range n Hn x Sx)). cbv beta in R6. rewrite (U k x Hx) in R6. now replace (k + 1 - 1) with k in R6 by lia. }
          constructor.
          * rewrite EA. apply map_idx_perm; auto.
          * apply SS_of_rd. intros i j x y L2 Hi Hj. rewrite EA, rd_map in Hi, Hj. destruct (rd sa12 i) as [p|] eqn:Ep; [|discriminate]. destruct (rd sa12 j) as [q|] eqn:Eq; [|discriminate]. injection Hi as <-. injection Hj as <-.
            assert (Sp : sample n p) by (apply SI; eapply rd_In; eauto). assert (Sq : sample n q) by (apply SI; eapply rd_In; eauto). rewrite (pos_idx n Hn p Sp), (pos_idx n Hn q Sq). apply NI; auto. apply lt_step. left. rewrite (U _ _ Ep), (U _ _ Eq). lia.
          * exact ZR.
          * apply (ni_e _ _ _ _ _ _ _ I).
          * intros s Hs. fold n0 n2 n02 in Hs. apply (R6 s Hs). }
    destruct G as (sa & R' & EG & RK). rewrite EG. cbn [fst snd]. destruct (final_ok t n K W Hn sa R' RK) as (sa0 & out & F1 & F2 & F3). fold n0 n1 in F1, F2. rewrite F1. exists out. split; [exact F2|exact F3].
Qed.
