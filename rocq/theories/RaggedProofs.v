From Coq Require Import ZArith List Lia Bool Permutation.
From Coq Require Import ZifyBool ZifyNat.
From Verif Require Import Base RaggedModel RaggedSpec.
Import ListNotations.
Open Scope Z_scope.

(** Every legal row_splits vector is the exclusive sum of non-negative sizes. *)
Lemma splits_chain_sizes rs : forall a,
  rd rs 0 = Some a ->
  (forall i x y, rd rs i = Some x -> rd rs (i + 1) = Some y -> x <= y) ->
  exists sizes, Forall (fun x => 0 <= x) sizes /\ rs = exsum_from a sizes.
Proof.
  induction rs as [|x rs IH]; intros a H0 Hm; [discriminate|].
  cbn in H0; injection H0 as ->.
  destruct rs as [|y rs].
  - exists []; split; [constructor|reflexivity].
  - destruct (IH y eq_refl) as (sizes & Hs & E).
    { intros i p q Hp Hq. apply (Hm (i + 1)).
      - rewrite rd_cons_S; auto. apply rd_Some_bound in Hp; lia.
      - rewrite rd_cons_S; auto. apply rd_Some_bound in Hp; lia. }
    assert (a <= y) by (apply (Hm 0); reflexivity).
    exists ((y - a) :: sizes); split; [constructor; [lia|auto]|].
    simpl. replace (a + (y - a)) with y by lia. now rewrite <- E.
Qed.

Lemma row_splits_ok_sizes rs n : row_splits_ok rs n ->
  exists sizes, Forall (fun x => 0 <= x) sizes /\ rs = exsum sizes /\ zsum sizes = n.
Proof.
  intros (HL & H0 & Hn & Hm).
  destruct (splits_chain_sizes rs 0 H0 Hm) as (sizes & Hs & E).
  exists sizes; repeat split; auto.
  change (exsum_from 0 sizes) with (exsum sizes) in E; subst rs.
  rewrite zlen_exsum in Hn. rewrite rd_exsum in Hn by (unfold zlen; lia).
  injection Hn as <-. unfold zlen. rewrite firstn_all2 by lia. reflexivity.
Qed.

Lemma exsum_mono sizes i j a b : Forall (fun x => 0 <= x) sizes ->
  rd (exsum sizes) i = Some a -> rd (exsum sizes) j = Some b -> i <= j -> a <= b.
Proof.
  intros Hs Ha Hb Hij.
  pose proof (rd_Some_bound _ _ _ Ha). pose proof (rd_Some_bound _ _ _ Hb).
  rewrite zlen_exsum in *.
  rewrite rd_exsum in Ha, Hb by lia. injection Ha as <-; injection Hb as <-.
  replace (Z.to_nat j) with (Z.to_nat i + (Z.to_nat j - Z.to_nat i))%nat by lia.
  rewrite <- (firstn_skipn (Z.to_nat i) sizes) at 2.
  rewrite firstn_app.
  rewrite zsum_app, firstn_firstn.
  replace (Nat.min (Z.to_nat i + (Z.to_nat j - Z.to_nat i)) (Z.to_nat i)) with (Z.to_nat i) by lia.
  assert (G : forall k, 0 <= zsum (firstn k (skipn (Z.to_nat i) sizes))).
  { intros k; apply zsum_nonneg, Forall_firstn.
    rewrite <- (firstn_skipn (Z.to_nat i) sizes) in Hs. now apply Forall_app in Hs. }
  match goal with |- _ <= _ + zsum (firstn ?k _) => specialize (G k) end. lia.
Qed.

Lemma exsum_row_splits_ok sizes : Forall (fun x => 0 <= x) sizes ->
  row_splits_ok (exsum sizes) (zsum sizes).
Proof.
  intros Hs. pose proof (zlen_nonneg sizes). repeat split.
  - rewrite zlen_exsum; lia.
  - rewrite rd_exsum by lia. reflexivity.
  - rewrite zlen_exsum, rd_exsum by lia. f_equal. unfold zlen. now rewrite firstn_all2 by lia.
  - intros i a b Ha Hb. eapply exsum_mono; eauto; lia.
Qed.

(** row_splits_to_row_ids on sizes. *)
Fixpoint ids_sizes (r : Z) (sizes : list Z) : list Z :=
  match sizes with
  | [] => []
  | s :: t => repeat r (Z.to_nat s) ++ ids_sizes (r + 1) t
  end.

Lemma rs2ri_loop_sizes sizes : forall cur row, Forall (fun x => 0 <= x) sizes ->
  rs2ri_loop cur row (tl (exsum_from cur sizes)) = ids_sizes row sizes.
Proof.
  induction sizes as [|s t IH]; intros cur row H; simpl; auto.
  inversion H; subst.
  destruct t as [|s' t'].
  - simpl. replace (cur + s - cur) with s by lia. reflexivity.
  - simpl exsum_from in *. simpl rs2ri_loop at 1.
    replace (cur + s - cur) with s by lia. f_equal.
    replace (Z.max cur (cur + s)) with (cur + s) by lia.
    rewrite <- (IH (cur + s) (row + 1)) by auto. reflexivity.
Qed.

Lemma zlen_ids_sizes sizes : forall r, Forall (fun x => 0 <= x) sizes ->
  zlen (ids_sizes r sizes) = zsum sizes.
Proof.
  induction sizes as [|s t IH]; intros r H; simpl; auto.
  inversion H; subst. rewrite zlen_app, zlen_repeat, IH by auto. lia.
Qed.

Lemma zsum_0_ids sizes : forall r, Forall (fun x => 0 <= x) sizes -> zsum sizes = 0 ->
  ids_sizes r sizes = [].
Proof.
  intros r H E. pose proof (zlen_ids_sizes sizes r H) as HH. rewrite E in HH.
  destruct (ids_sizes r sizes); auto. rewrite zlen_cons in HH. pose proof (zlen_nonneg l). lia.
Qed.

Lemma row_splits_to_row_ids_sizes sizes n : Forall (fun x => 0 <= x) sizes ->
  zsum sizes = n ->
  row_splits_to_row_ids (exsum sizes) n = Some (ids_sizes 0 sizes).
Proof.
  intros H Hn. unfold row_splits_to_row_ids. rewrite zlen_exsum.
  replace (zlen sizes + 1 - 1) with (zlen sizes) by lia.
  pose proof (zsum_nonneg sizes H). pose proof (zlen_nonneg sizes) as Hz.
  destruct (n <=? 0) eqn:En.
  - rewrite orb_true_r. rewrite zsum_0_ids; auto; lia.
  - destruct (zlen sizes <=? 0) eqn:El.
    + destruct sizes; [simpl in *; lia|]. rewrite zlen_cons in El. pose proof (zlen_nonneg sizes). lia.
    + simpl orb. cbv beta iota.
      rewrite !rd_exsum by lia. simpl firstn at 1.
      replace (firstn (Z.to_nat (zlen sizes)) sizes) with sizes
        by (unfold zlen; rewrite firstn_all2 by lia; reflexivity).
      replace (zsum [] =? 0) with true by reflexivity.
      replace (zsum sizes =? n) with true by lia.
      f_equal. apply rs2ri_loop_sizes; auto.
Qed.

(** The row of an element. *)
Lemma rd_ids_sizes sizes : Forall (fun x => 0 <= x) sizes -> forall r acc i,
  0 <= i < zsum sizes ->
  exists k, 0 <= k < zlen sizes /\ rd (ids_sizes r sizes) i = Some (r + k) /\
    exists a b, rd (exsum_from acc sizes) k = Some a /\
                rd (exsum_from acc sizes) (k + 1) = Some b /\ a <= acc + i < b.
Proof.
  induction 1 as [|s t Hs Ht IH]; intros r acc i Hi; simpl in Hi; [lia|].
  rewrite zlen_cons. pose proof (zlen_nonneg t).
  simpl. rewrite rd_app, zlen_repeat. rewrite Z2Nat.id by lia.
  destruct (i <? s) eqn:E.
  - exists 0. repeat split; try lia.
    + rewrite rd_repeat by lia. f_equal; lia.
    + exists acc, (acc + s). rewrite rd_cons_0. split; auto. split; [|lia].
      change (0 + 1) with 1. rewrite rd_cons. simpl.
      destruct t; simpl; reflexivity.
  - destruct (IH (r + 1) (acc + s) (i - s)) as (k & Hk & H1 & a & b & H2 & H3 & H4); [lia|].
    exists (k + 1). repeat split; try lia.
    + rewrite H1. f_equal; lia.
    + exists a, b. rewrite !rd_cons_S by lia. split; auto. split; auto. lia.
Qed.

Lemma in_row_unique rs n i r r' : row_splits_ok rs n -> in_row rs i r -> in_row rs i r' -> r = r'.
Proof.
  intros H (a & b & Ha & Hb & Hi) (a' & b' & Ha' & Hb' & Hi').
  destruct (row_splits_ok_sizes _ _ H) as (sizes & Hs & -> & _).
  destruct (Z.lt_trichotomy r r') as [L|[L|L]]; auto.
  - assert (b <= a') by (eapply (exsum_mono sizes (r + 1) r'); eauto; lia). lia.
  - assert (b' <= a) by (eapply (exsum_mono sizes (r' + 1) r); eauto; lia). lia.
Qed.

Lemma row_splits_to_row_ids_correct rs n :
  row_splits_ok rs n ->
  exists ids, row_splits_to_row_ids rs n = Some ids /\ zlen ids = n /\
    (forall i, 0 <= i < n -> exists r, rd ids i = Some r /\ in_row rs i r /\ 0 <= r < zlen rs - 1) /\
    row_ids_ok ids (zlen rs - 1).
Proof.
  intros H. destruct (row_splits_ok_sizes _ _ H) as (sizes & Hs & -> & Hn).
  exists (ids_sizes 0 sizes).
  assert (HL : zlen (ids_sizes 0 sizes) = n) by (rewrite zlen_ids_sizes; auto).
  assert (HR : forall i, 0 <= i < n -> exists r, rd (ids_sizes 0 sizes) i = Some r /\
     in_row (exsum sizes) i r /\ 0 <= r < zlen (exsum sizes) - 1).
  { intros i Hi. destruct (rd_ids_sizes sizes Hs 0 0 i ltac:(lia)) as (k & Hk & H1 & a & b & H2 & H3 & H4).
    exists k. rewrite zlen_exsum. split; [exact H1|]. split; [|lia].
    exists a, b. auto. }
  repeat split; auto.
  - apply row_splits_to_row_ids_sizes; auto.
  - pose proof (rd_Some_bound _ _ _ H0). destruct (HR i ltac:(lia)) as (r' & E & _ & ?).
    rewrite E in H0; injection H0 as <-. lia.
  - pose proof (rd_Some_bound _ _ _ H0). destruct (HR i ltac:(lia)) as (r' & E & _ & ?).
    rewrite E in H0; injection H0 as <-. lia.
  - intros i a b Ha Hb.
    pose proof (rd_Some_bound _ _ _ Ha). pose proof (rd_Some_bound _ _ _ Hb).
    destruct (HR i ltac:(lia)) as (r & E & (p & q & Hp & Hq & Hi) & ?).
    destruct (HR (i + 1) ltac:(lia)) as (r' & E' & (p' & q' & Hp' & Hq' & Hi') & ?).
    rewrite E in Ha; injection Ha as <-. rewrite E' in Hb; injection Hb as <-.
    destruct (Z_le_gt_dec r r'); auto.
    assert (q' <= p) by (eapply (exsum_mono sizes (r' + 1) r); eauto; lia). lia.
Qed.

(** row_ids_to_row_splits *)

Lemma ri2rs_loop_cons cur i row t : ri2rs_loop cur i (row :: t) =
  if cur <=? row then
    (r <- ri2rs_loop row (i + 1) t;; Some (fst r, repeat i (Z.to_nat (row - cur)) ++ snd r))
  else None.
Proof. reflexivity. Qed.

Lemma ri2rs_loop_repeat k r i rest : (0 < k)%nat -> forall cur, cur <= r ->
  ri2rs_loop cur i (repeat r k ++ rest) =
  (x <- ri2rs_loop r (i + Z.of_nat k) rest;;
   Some (fst x, repeat i (Z.to_nat (r - cur)) ++ snd x)).
Proof.
  intros Hk. revert i. induction k as [|k IH]; [lia|]. intros i cur Hc.
  destruct k as [|k].
  - simpl. replace (cur <=? r) with true by lia. reflexivity.
  - change (repeat r (S (S k)) ++ rest) with (r :: (repeat r (S k) ++ rest)).
    rewrite ri2rs_loop_cons. replace (cur <=? r) with true by lia.
    rewrite IH by lia.
    replace (i + 1 + Z.of_nat (S k)) with (i + Z.of_nat (S (S k))) by lia.
    destruct (ri2rs_loop r (i + Z.of_nat (S (S k))) rest) as [[c o]|]; auto.
    simpl. replace (r - r) with 0 by lia. reflexivity.
Qed.

(* The loop starting at row r0 having already written up to [cur]; the total
   of what is written, padded by the trailing loop, is the exclusive sum. *)

Lemma ri2rs_total sizes : Forall (fun x => 0 <= x) sizes -> forall cur i r,
  cur < r ->
  exists cur' out, ri2rs_loop cur i (ids_sizes r sizes) = Some (cur', out) /\
    cur <= cur' < Z.max (r + zlen sizes) (cur + 1) /\
    (0 < zsum sizes -> r <= cur') /\
    out ++ repeat (i + zsum sizes) (Z.to_nat (r + zlen sizes - cur'))
    = repeat i (Z.to_nat (r - 1 - cur)) ++ exsum_from i sizes.
Proof.
  induction 1 as [|s t Hs Ht IH]; intros cur i r Hc.
  - exists cur, []. simpl. repeat split; try lia.
    rewrite zlen_nil. replace (i + 0) with i by lia.
    replace (Z.to_nat (r + 0 - cur)) with (Z.to_nat (r - 1 - cur) + 1)%nat by lia.
    rewrite repeat_app. reflexivity.
  - rewrite zlen_cons. pose proof (zlen_nonneg t). simpl ids_sizes. simpl zsum.
    destruct (Z.eq_dec s 0) as [->|Hnz].
    + simpl repeat. simpl app.
      destruct (IH cur i (r + 1) ltac:(lia)) as (c' & o & H1 & H2 & H3 & H4).
      exists c', o. repeat split; try lia.
      * rewrite H1; reflexivity.
      * replace (r + (1 + zlen t) - c') with (r + 1 + zlen t - c') by lia.
        replace (i + (0 + zsum t)) with (i + zsum t) by lia. rewrite H4.
        replace (Z.to_nat (r + 1 - 1 - cur)) with (Z.to_nat (r - 1 - cur) + 1)%nat by lia.
        rewrite repeat_app, <- app_assoc. simpl. replace (i + 0) with i by lia. reflexivity.
    + rewrite ri2rs_loop_repeat by lia.
      rewrite Z2Nat.id by lia.
      destruct (IH r (i + s) (r + 1) ltac:(lia)) as (c' & o & H1 & H2 & H3 & H4).
      rewrite H1. exists c'. eexists. split; [reflexivity|]. simpl fst; simpl snd.
      repeat split; try lia.
      rewrite <- app_assoc.
      replace (r + (1 + zlen t) - c') with (r + 1 + zlen t - c') by lia.
      replace (i + (s + zsum t)) with (i + s + zsum t) by lia.
      rewrite H4. replace (Z.to_nat (r + 1 - 1 - r)) with 0%nat by lia. simpl repeat at 2.
      replace (Z.to_nat (r - cur)) with (Z.to_nat (r - 1 - cur) + 1)%nat by lia.
      rewrite repeat_app, <- app_assoc. reflexivity.
Qed.

Lemma exsum_zeros sizes : Forall (fun x => 0 <= x) sizes -> zsum sizes = 0 -> forall acc,
  exsum_from acc sizes = repeat acc (S (length sizes)).
Proof.
  induction 1 as [|s t Hs Ht IH]; intros Hz acc; simpl in *; auto.
  pose proof (zsum_nonneg t Ht). replace s with 0 by lia.
  rewrite IH by lia. simpl. repeat f_equal; lia.
Qed.

Lemma row_ids_to_row_splits_sizes sizes : Forall (fun x => 0 <= x) sizes ->
  row_ids_to_row_splits (ids_sizes 0 sizes) (zlen sizes) = Some (exsum sizes).
Proof.
  intros H. unfold row_ids_to_row_splits. rewrite zlen_ids_sizes by auto.
  pose proof (zsum_nonneg sizes H).
  destruct (zsum sizes =? 0) eqn:E.
  - unfold exsum. rewrite exsum_zeros by (auto; lia). do 2 f_equal. unfold zlen; lia.
  - destruct (ri2rs_total sizes H (-1) 0 0 ltac:(lia)) as (c' & o & H1 & H2 & H3 & H4).
    rewrite H1. cbn [fst snd]. replace (0 <=? c') with true by lia.
    replace (Z.to_nat (0 - 1 - -1)) with 0%nat in H4 by lia. simpl repeat at 2 in H4.
    simpl app at 2 in H4. rewrite !Z.add_0_l in H4. rewrite H4. fold (exsum sizes).
    rewrite zlen_exsum. replace (zlen sizes + 1 =? zlen sizes + 1) with true by lia. reflexivity.
Qed.

Lemma splits_ids_roundtrip rs n : row_splits_ok rs n ->
  exists ids, row_splits_to_row_ids rs n = Some ids /\
              row_ids_to_row_splits ids (zlen rs - 1) = Some rs.
Proof.
  intros H. destruct (row_splits_ok_sizes _ _ H) as (sizes & Hs & -> & Hn).
  exists (ids_sizes 0 sizes). split.
  - apply row_splits_to_row_ids_sizes; auto.
  - rewrite zlen_exsum. replace (zlen sizes + 1 - 1) with (zlen sizes) by lia.
    apply row_ids_to_row_splits_sizes; auto.
Qed.

(** every legal row_ids vector comes from sizes *)
Lemma ids_split ids r :
  (forall i x, rd ids i = Some x -> r <= x) ->
  (forall i a b, rd ids i = Some a -> rd ids (i + 1) = Some b -> a <= b) ->
  exists k rest, ids = repeat r k ++ rest /\
    (forall i x, rd rest i = Some x -> r + 1 <= x) /\
    (forall i a b, rd rest i = Some a -> rd rest (i + 1) = Some b -> a <= b).
Proof.
  induction ids as [|x t IH]; intros Hr Hm.
  - exists 0%nat, []. simpl. repeat split; auto; intros; rewrite rd_nil in *; discriminate.
  - assert (Hx : r <= x) by (apply (Hr 0); reflexivity).
    assert (Hr' : forall i y, rd t i = Some y -> r <= y).
    { intros i y Hy. apply (Hr (i + 1)). rewrite rd_cons_S; auto. apply rd_Some_bound in Hy; lia. }
    assert (Hm' : forall i a b, rd t i = Some a -> rd t (i + 1) = Some b -> a <= b).
    { intros i a b Ha Hb. pose proof (rd_Some_bound _ _ _ Ha).
      apply (Hm (i + 1)); rewrite rd_cons_S; auto; lia. }
    destruct (Z.eq_dec x r) as [->|Hne].
    + destruct (IH Hr' Hm') as (k & rest & -> & H1 & H2).
      exists (S k), rest. simpl. auto.
    + exists 0%nat, (x :: t). simpl. split; auto. split; [|exact Hm].
      assert (G : forall (l : list Z) y, y :: l = y :: l ->
        (forall i a b, rd (y :: l) i = Some a -> rd (y :: l) (i + 1) = Some b -> a <= b) ->
        forall i z, rd (y :: l) i = Some z -> y <= z).
      { clear. intros l y _ Hm i z Hz.
        pose proof (rd_Some_bound _ _ _ Hz) as Hb.
        assert (G : forall k, 0 <= k -> k < zlen (y :: l) -> forall w, rd (y :: l) k = Some w -> y <= w).
        { intros k Hk. pattern k. apply natlike_ind; auto.
          - intros _ w Hw. cbn in Hw. injection Hw as ->. lia.
          - intros j Hj IH Hjl w Hw.
            destruct (rd_in_bound (y :: l) j ltac:(lia)) as (v & Hv).
            specialize (IH ltac:(lia) v Hv).
            assert (v <= w) by (apply (Hm j); auto; now replace (j + 1) with (Z.succ j) by lia).
            lia. }
        apply (G i); auto; lia. }
      intros i y Hy. assert (x <= y) by (apply (G t x eq_refl Hm i); auto). lia.
Qed.

Lemma row_ids_ok_sizes (rows : nat) : forall ids r,
  (forall i x, rd ids i = Some x -> r <= x < r + Z.of_nat rows) ->
  (forall i a b, rd ids i = Some a -> rd ids (i + 1) = Some b -> a <= b) ->
  exists sizes, Forall (fun x => 0 <= x) sizes /\ length sizes = rows /\ ids = ids_sizes r sizes.
Proof.
  induction rows as [|rows IH]; intros ids r Hr Hm.
  - exists []. simpl. destruct ids as [|x t]; auto.
    specialize (Hr 0 x eq_refl). lia.
  - destruct (ids_split ids r) as (k & rest & -> & H1 & H2); auto.
    { intros i x Hx. apply Hr in Hx. lia. }
    destruct (IH rest (r + 1)) as (sizes & Hs & HL & ->); auto.
    { intros i x Hx. split; [now apply (H1 i)|].
      pose proof (rd_Some_bound _ _ _ Hx).
      specialize (Hr (Z.of_nat k + i) x).
      rewrite rd_app_r in Hr by (rewrite zlen_repeat; lia).
      rewrite zlen_repeat in Hr. replace (Z.of_nat k + i - Z.of_nat k) with i in Hr by lia.
      specialize (Hr Hx). lia. }
    exists (Z.of_nat k :: sizes). repeat split.
    + constructor; auto; lia.
    + simpl; lia.
    + simpl. now rewrite Nat2Z.id.
Qed.

Lemma ids_splits_roundtrip ids rows : 0 <= rows -> row_ids_ok ids rows ->
  exists rs, row_ids_to_row_splits ids rows = Some rs /\ row_splits_ok rs (zlen ids) /\
             zlen rs = rows + 1 /\ row_splits_to_row_ids rs (zlen ids) = Some ids.
Proof.
  intros H0 [H1 H2].
  destruct (row_ids_ok_sizes (Z.to_nat rows) ids 0) as (sizes & Hs & HL & ->); auto.
  { intros i x Hx. apply H1 in Hx. lia. }
  exists (exsum sizes). assert (zlen sizes = rows) by (unfold zlen; lia).
  rewrite zlen_ids_sizes by auto. repeat split.
  - subst rows. apply row_ids_to_row_splits_sizes; auto.
  - now apply exsum_row_splits_ok.
  - now apply exsum_row_splits_ok.
  - now apply exsum_row_splits_ok.
  - now apply exsum_row_splits_ok.
  - rewrite zlen_exsum; lia.
  - apply row_splits_to_row_ids_sizes; auto.
Qed.

(** Renumbering *)
Lemma count_bound keep k : 0 <= zsum (firstn k (map b2z keep)) <= zsum (map b2z keep).
Proof.
  assert (F : forall l, Forall (fun x => 0 <= x) (map b2z l)).
  { intros l; induction l; simpl; constructor; auto. destruct a; simpl; lia. }
  split.
  - apply zsum_nonneg, Forall_firstn, F.
  - rewrite <- (firstn_skipn k (map b2z keep)) at 2. rewrite zsum_app.
    enough (0 <= zsum (skipn k (map b2z keep))) by lia.
    apply zsum_nonneg. pose proof (F keep) as G.
    rewrite <- (firstn_skipn k (map b2z keep)) in G. now apply Forall_app in G.
Qed.

Lemma rd_old2new keep i : 0 <= i <= zlen keep ->
  rd (old2new keep) i = Some (zsum (map b2z (firstn (Z.to_nat i) keep))).
Proof.
  intros H; unfold old2new. rewrite rd_exsum by (rewrite zlen_map; auto).
  now rewrite firstn_map.
Qed.

Fixpoint kept_from (i : Z) (keep : list bool) : list Z :=
  match keep with
  | [] => []
  | b :: t => (if b then [i] else []) ++ kept_from (i + 1) t
  end.

Lemma firstn_snoc {A} (l : list A) k x : nth_error l k = Some x ->
  firstn (S k) l = firstn k l ++ [x].
Proof.
  revert k; induction l as [|y l IH]; intros [|k] H; simpl in *; try discriminate.
  - now injection H as ->.
  - f_equal. auto.
Qed.

Lemma count_step keep i b : rd keep i = Some b ->
  zsum (map b2z (firstn (Z.to_nat (i + 1)) keep)) =
  zsum (map b2z (firstn (Z.to_nat i) keep)) + b2z b.
Proof.
  intros H. pose proof (rd_Some_bound _ _ _ H).
  replace (Z.to_nat (i + 1)) with (S (Z.to_nat i)) by lia.
  rewrite (firstn_snoc keep (Z.to_nat i) b).
  - rewrite map_app, zsum_app. simpl. lia.
  - unfold rd in H. replace (i <? 0) with false in H by lia. auto.
Qed.

Lemma rd_kept_from keep : forall off i, rd keep i = Some true ->
  rd (kept_from off keep) (zsum (map b2z (firstn (Z.to_nat i) keep))) = Some (off + i).
Proof.
  induction keep as [|b t IH]; intros off i Hi; [now rewrite rd_nil in Hi|].
  pose proof (rd_Some_bound _ _ _ Hi). rewrite rd_cons in Hi.
  destruct (i =? 0) eqn:E.
  - injection Hi as ->. replace i with 0 by lia. change (Z.to_nat 0) with 0%nat. simpl. rewrite rd_cons_0. f_equal; lia.
  - replace (Z.to_nat i) with (S (Z.to_nat (i - 1))) by lia. simpl.
    specialize (IH (off + 1) (i - 1) Hi).
    pose proof (rd_Some_bound _ _ _ IH).
    destruct b; simpl b2z.
    + simpl app. rewrite (Z.add_comm 1), rd_cons_S by lia. rewrite IH. f_equal; lia.
    + simpl app. rewrite Z.add_0_l. rewrite IH. f_equal; lia.
Qed.

Lemma zlen_kept_from keep : forall off, zlen (kept_from off keep) = zsum (map b2z keep).
Proof.
  induction keep as [|b t IH]; intros; simpl; auto.
  rewrite zlen_app, IH. destruct b; reflexivity.
Qed.

Lemma rd_kept_from_inv keep : forall off k j, rd (kept_from off keep) k = Some j ->
  exists i, j = off + i /\ rd keep i = Some true /\
            zsum (map b2z (firstn (Z.to_nat i) keep)) = k.
Proof.
  induction keep as [|b t IH]; intros off k j H; simpl in H; [now rewrite rd_nil in H|].
  pose proof (rd_Some_bound _ _ _ H). destruct b; simpl app in H.
  - rewrite rd_cons in H. destruct (k =? 0) eqn:E.
    + injection H as <-. exists 0. change (Z.to_nat 0) with 0%nat. repeat split; simpl; lia.
    + destruct (IH _ _ _ H) as (i & -> & Hi & Hk). pose proof (rd_Some_bound _ _ _ Hi).
      exists (i + 1). repeat split; try lia. { rewrite rd_cons_S by lia; auto. }
      replace (Z.to_nat (i + 1)) with (S (Z.to_nat i)) by lia. simpl. lia.
  - destruct (IH _ _ _ H) as (i & -> & Hi & Hk). pose proof (rd_Some_bound _ _ _ Hi).
    exists (i + 1). repeat split; try lia. { rewrite rd_cons_S by lia; auto. }
    replace (Z.to_nat (i + 1)) with (S (Z.to_nat i)) by lia. simpl. lia.
Qed.

Lemma new2old_kept keep sched : is_sched (zlen keep + 1) sched ->
  new2old sched keep = Some (kept_from 0 keep).
Proof.
  intros Hs. unfold new2old. pose proof (zlen_nonneg keep).
  rewrite rd_old2new by lia.
  replace (firstn (Z.to_nat (zlen keep)) keep) with keep by (unfold zlen; rewrite firstn_all2 by lia; auto).
  set (N := zsum (map b2z keep)).
  assert (HN : 0 <= N) by (destruct (count_bound keep 0); unfold N; lia).
  assert (HLk : zlen (kept_from 0 keep) = N) by apply zlen_kept_from.
  set (arr := kept_from 0 keep ++ [zlen keep]).
  set (v := fun j => match rd arr j with Some x => x | None => 0 end).
  rewrite (k2_fill_spec (N + 1) (zlen keep + 1) v); auto; try lia.
  - f_equal. assert (E : tab (N + 1) v = arr).
    { symmetry. replace (N + 1) with (zlen arr) by (unfold arr; rewrite zlen_app, HLk; reflexivity).
      apply tab_rd. intros i Hi. unfold v. destruct (rd_in_bound arr i Hi) as (x & ->). auto. }
    rewrite E. unfold arr. rewrite firstn_app.
    replace (Z.to_nat N) with (length (kept_from 0 keep)) by (unfold zlen in HLk; lia).
    rewrite firstn_all, Nat.sub_diag. simpl. now rewrite app_nil_r.
  - intros i Hi. unfold new2old_body. rewrite rd_old2new by lia.
    destruct (i =? zlen keep) eqn:E.
    + eexists; split; eauto. constructor; [|constructor]. unfold agrees; simpl.
      replace i with (zlen keep) by lia.
      replace (firstn (Z.to_nat (zlen keep)) keep) with keep by (unfold zlen; rewrite firstn_all2 by lia; auto).
      fold N. split; [lia|]. unfold v, arr. rewrite rd_app_r by lia. rewrite HLk, Z.sub_diag. reflexivity.
    + rewrite rd_old2new by lia. eexists; split; eauto.
      destruct (rd_in_bound keep i ltac:(lia)) as (b & Hb).
      rewrite (count_step keep i b Hb).
      destruct b; simpl b2z.
      * match goal with |- context [?a <? ?b] => replace (a <? b) with true by lia end.
        constructor; [|constructor]. unfold agrees; simpl.
        pose proof (rd_kept_from keep 0 i Hb) as Hk. pose proof (rd_Some_bound _ _ _ Hk).
        split; [lia|]. unfold v, arr. rewrite rd_app_l by lia. rewrite Hk. lia.
      * match goal with |- context [?a <? ?b] => replace (a <? b) with false by lia end. constructor.
  - intros j Hj. destruct (Z.eq_dec j N) as [->|Hne].
    + exists (zlen keep), [(N, zlen keep)]. split; [lia|]. split; [|now left].
      unfold new2old_body. rewrite rd_old2new by lia.
      replace (firstn (Z.to_nat (zlen keep)) keep) with keep by (unfold zlen; rewrite firstn_all2 by lia; auto).
      replace (zlen keep =? zlen keep) with true by lia. reflexivity.
    + destruct (rd_in_bound (kept_from 0 keep) j ltac:(lia)) as (x & Hx).
      destruct (rd_kept_from_inv keep 0 j x Hx) as (i & -> & Hi & Hk).
      pose proof (rd_Some_bound _ _ _ Hi).
      exists i, [(j, i)]. split; [lia|]. split; [|now left].
      unfold new2old_body. rewrite !rd_old2new by lia.
      replace (i =? zlen keep) with false by lia.
      rewrite (count_step keep i true Hi), Hk. simpl b2z.
      replace (j <? j + 1) with true by lia. reflexivity.
Qed.
