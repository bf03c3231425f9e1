(** * RadixPass sorts stably. *)
From Coq Require Import ZArith List Bool Lia Sorting.Sorted Sorting.Permutation.
From Verif Require Import Base RaggedModel OpsModel OpsProofs FsaLemmas SufModel RnntDecList RnntDecGroup IDenseSpec.
Import ListNotations.
Open Scope Z_scope.

Lemma foldM_rd {A S} (a : list A) (g : S -> A -> option S) s :
  foldM (fun s i => x <- rd a i;; g s x) (zrange (zlen a)) s = foldM g a s.
Proof.
  assert (G : forall b c s, a = b ++ c -> foldM (fun s i => x <- rd a i;; g s x) (map (fun i => zlen b + i) (zrange (zlen c))) s = foldM g c s).
  { intros b c. revert b. induction c as [|x c IH]; intros b t E; [reflexivity|]. rewrite zlen_cons. pose proof (zlen_nonneg c).
    rewrite zrange_cons by lia. cbn [map foldM]. replace (zlen b + 0) with (zlen b) by lia. subst a. rewrite rd_app_r by lia. rewrite Z.sub_diag, rd_cons_0.
    destruct (g t x) as [t'|]; [|reflexivity]. specialize (IH (b ++ [x]) t'). rewrite <- app_assoc in IH. specialize (IH eq_refl). rewrite <- IH. f_equal.
    rewrite map_map. replace (1 + zlen c - 1) with (zlen c) by lia. apply map_ext. intros i. rewrite zlen_app, zlen_cons, zlen_nil. lia. }
  specialize (G [] a s eq_refl). rewrite <- G. f_equal. symmetry. erewrite map_ext; [apply map_id|]. intros i. rewrite zlen_nil. lia.
Qed.
Lemma at0_rd l i : 0 <= i < zlen l -> rd l i = Some (at0 l i).
Proof. intros H. unfold at0. destruct (rd_in_bound l i H) as (x & E). now rewrite E. Qed.
Lemma at0_out l i : i < 0 \/ zlen l <= i -> at0 l i = 0.
Proof. intros H. unfold at0. apply rd_None in H. now rewrite H. Qed.
Lemma SS_filter {A} (R : A -> A -> Prop) f l : StronglySorted R l -> StronglySorted R (filter f l).
Proof. induction 1 as [|x l HS IH HF]; cbn; [constructor|]. destruct (f x); [|auto]. constructor; auto. rewrite Forall_forall in *. intros y Hy. apply filter_In in Hy. now apply HF. Qed.

Section Radix.
Variables (a r : list Z) (off K : Z) (key : Z -> Z).
Hypothesis HK : 0 <= K.
Hypothesis Hkey : forall x, In x a -> rd r (x + off) = Some (key x) /\ 0 <= key x <= K.
Let isk v x := key x =? v.
Let ls : list (list Z) := map (fun v => filter (isk v) a) (zrange (K + 1)).
Definition radix_out : list Z := concat (map (fun v => filter (fun x => key x =? v) a) (zrange (K + 1))).

Lemma count_ok l : incl l a -> forall c, zlen c = K + 1 ->
  exists c', foldM (fun c x => k <- rd r (x + off);; v <- rd c k;; wr c k (v + 1)) l c = Some c' /\ zlen c' = K + 1 /\
    forall v, 0 <= v <= K -> at0 c' v = at0 c v + zlen (filter (isk v) l).
Proof.
  induction l as [|x l IH]; intros HI c Hc; cbn [foldM].
  - exists c. repeat split; auto. intros v Hv. cbn [filter]. rewrite zlen_nil. lia.
  - destruct (Hkey x (HI x (or_introl eq_refl))) as (E & B). rewrite E. rewrite (at0_rd c) by lia.
    destruct (wr_Some c (key x) (at0 c (key x) + 1) ltac:(lia)) as (c1 & E1 & L1 & R1). rewrite E1.
    destruct (IH ltac:(intros y Hy; apply HI; now right) c1 ltac:(lia)) as (c' & E2 & L2 & R2). exists c'. repeat split; auto.
    intros v Hv. rewrite R2 by auto. cbn [filter]. unfold isk at 2. unfold at0 at 1. rewrite R1. destruct (Z.eqb_spec v (key x)) as [->|N].
    + rewrite Z.eqb_refl, zlen_cons. lia.
    + replace (key x =? v) with false by (symmetry; apply Z.eqb_neq; congruence). reflexivity.
Qed.

Lemma rd_ls v : 0 <= v <= K -> rd ls v = Some (filter (isk v) a).
Proof. intros H. unfold ls. rewrite rd_map, rd_zrange by lia. reflexivity. Qed.
Lemma zlen_ls : zlen ls = K + 1.
Proof. unfold ls. rewrite zlen_map, zlen_zrange; lia. Qed.

Lemma radix_perm : Permutation radix_out a.
Proof.
  unfold radix_out. assert (G : forall m l, 0 <= m -> (forall x, In x l -> 0 <= key x < m) -> Permutation (concat (map (fun v => filter (fun x => key x =? v) l) (zrange m))) l).
  { intros m l Hm. induction l as [|x l IH]; intros HB.
    - assert (E : concat (map (fun _ : Z => @nil Z) (zrange m)) = []) by (induction (zrange m); auto). cbn [filter]. rewrite E. constructor.
    - specialize (IH (fun y Hy => HB y (or_intror Hy))). specialize (HB x (or_introl eq_refl)).
      replace m with (key x + (m - key x)) by lia. rewrite zrange_app by lia. replace (m - key x) with (1 + (m - key x - 1)) by lia. rewrite (zrange_app 1) by lia.
      replace m with (key x + (1 + (m - key x - 1))) in IH by lia. rewrite zrange_app, (zrange_app 1) in IH by lia. change (zrange 1) with [0] in *. cbn [map app] in *. rewrite map_app, concat_app in *. cbn [map concat filter] in *.
      replace (key x + 0) with (key x) in * by lia. rewrite Z.eqb_refl.
      match goal with |- Permutation (?A ++ (x :: ?B) ++ ?C) _ => set (A' := A) in *; set (C' := C) in * end.
      assert (EA : A' = concat (map (fun v => filter (fun x0 => key x0 =? v) l) (zrange (key x)))).
      { unfold A'. f_equal. apply map_ext_in. intros v Hv. apply in_zrange in Hv. replace (key x =? v) with false by lia. reflexivity. }
      rewrite EA. apply Permutation_sym. apply Permutation_cons_app. apply Permutation_sym. eapply Permutation_trans; [|exact IH]. apply Permutation_app_head.
      apply Permutation_app_head. unfold C'. match goal with |- Permutation ?X ?Y => replace X with Y; [reflexivity|] end.
      f_equal. apply map_ext_in. intros v Hv. apply in_map_iff in Hv as (w & <- & Hw). apply in_map_iff in Hw as (u & <- & Hu). apply in_zrange in Hu.
      replace (key x =? key x + (1 + u)) with false by lia. reflexivity. }
  apply G; [lia|]. intros x Hx. destruct (Hkey x Hx). lia.
Qed.

Lemma radix_sorted (P : Z -> Z -> Prop) : StronglySorted P a -> StronglySorted (fun x y => key x < key y \/ (key x = key y /\ P x y)) radix_out.
Proof.
  clear HK Hkey. intros HS. unfold radix_out. pose proof (zrange_SS (K + 1)) as Z0. induction Z0 as [|v vs _ IH HF]; cbn [map concat]; [constructor|].
  apply SS_app. repeat split; auto.
  - pose proof (SS_filter P (fun x => key x =? v) a HS) as S1. assert (I : forall x, In x (filter (fun x => key x =? v) a) -> key x = v) by (intros x Hx; apply filter_In in Hx; lia).
    induction S1 as [|x l S2 IH2 F2]; constructor; [apply IH2; intros; apply I; now right|]. rewrite Forall_forall in *. intros y Hy. right. split; [rewrite (I x), (I y); auto; [now right|now left]|auto].
  - intros x y Hx Hy. apply filter_In in Hx. apply in_concat in Hy as (l & H1 & H2). apply in_map_iff in H1 as (w & <- & Hw). apply filter_In in H2. rewrite Forall_forall in HF. specialize (HF _ Hw). left. lia.
Qed.

Lemma scatter_ok rest : forall done c b, a = done ++ rest -> zlen c = K + 1 -> zlen b = zlen a ->
  (forall v, 0 <= v <= K -> at0 c v = off1 ls v + zlen (filter (isk v) done)) ->
  (forall v q x, 0 <= v <= K -> rd (filter (isk v) done) q = Some x -> rd b (off1 ls v + q) = Some x) ->
  exists c' b', foldM (fun s x => k <- rd r (x + off);; v <- rd (fst s) k;; b <- wr (snd s) v x;; c <- wr (fst s) k (v + 1);; Some (c, b)) rest (c, b) = Some (c', b') /\
    zlen b' = zlen a /\ (forall v q x, 0 <= v <= K -> rd (filter (isk v) a) q = Some x -> rd b' (off1 ls v + q) = Some x).
Proof.
  assert (LT : zlen (concat ls) = zlen a) by (pose proof (Permutation_length radix_perm) as L; unfold radix_out in L; unfold zlen, ls, isk; lia).
  induction rest as [|x rest IH]; intros done c b Ea Hc Hb H1 H2; cbn [foldM].
  - exists c, b. rewrite app_nil_r in Ea. subst done. repeat split; auto.
  - destruct (Hkey x) as (E & B); [subst a; apply in_app_iff; right; now left|]. rewrite E. cbn [fst snd]. rewrite (at0_rd c) by lia. rewrite H1 by lia.
    set (k := key x) in *. assert (D : zlen (filter (isk k) done) < zlen (filter (isk k) a)).
    { rewrite Ea, filter_app. cbn [filter]. replace (isk k x) with true by (unfold isk, k; lia). rewrite zlen_app, zlen_cons. pose proof (zlen_nonneg (filter (isk k) rest)). lia. }
    pose proof (off1_next ls k _ (rd_ls k B)) as O1. pose proof (off1_bound ls (k + 1)) as O2. pose proof (off1_nonneg ls k) as O3. pose proof (zlen_nonneg (filter (isk k) done)) as O4.
    destruct (wr_Some b (off1 ls k + zlen (filter (isk k) done)) x ltac:(lia)) as (b1 & E1 & L1 & R1). rewrite E1.
    destruct (wr_Some c k (off1 ls k + zlen (filter (isk k) done) + 1) ltac:(lia)) as (c1 & E2 & L2 & R2). rewrite E2.
    apply (IH (done ++ [x])).
    + rewrite <- app_assoc. exact Ea.
    + lia.
    + lia.
    + intros v Hv. rewrite filter_app, zlen_app. cbn [filter]. unfold at0. rewrite R2. change (isk v x) with (k =? v). destruct (Z.eqb_spec v k) as [->|N].
      * rewrite Z.eqb_refl, zlen_cons, zlen_nil. lia.
      * replace (k =? v) with false by lia. rewrite zlen_nil. fold (at0 c v). rewrite H1 by auto. lia.
    + intros v q y Hv Hq. rewrite filter_app in Hq. cbn [filter] in Hq. rewrite R1. change (isk v x) with (k =? v) in Hq. destruct (Z.eqb_spec v k) as [->|N].
      * rewrite Z.eqb_refl in Hq. destruct (Z.ltb_spec q (zlen (filter (isk k) done))) as [L|L].
        -- rewrite rd_app_l in Hq by auto. replace (off1 ls k + q =? off1 ls k + zlen (filter (isk k) done)) with false by lia. auto.
        -- pose proof (rd_Some_bound _ _ _ Hq) as Q. rewrite zlen_app, zlen_cons, zlen_nil in Q. assert (q = zlen (filter (isk k) done)) by lia. subst q. rewrite rd_app_r, Z.sub_diag, rd_cons_0 in Hq by lia. now rewrite Z.eqb_refl.
      * replace (k =? v) with false in Hq by lia. rewrite app_nil_r in Hq. pose proof (rd_Some_bound _ _ _ Hq) as Q.
        replace (off1 ls v + q =? off1 ls k + zlen (filter (isk k) done)) with false; [auto|]. symmetry. apply Z.eqb_neq.
        assert (QA : zlen (filter (isk v) done) <= zlen (filter (isk v) a)) by (rewrite Ea, filter_app, zlen_app; pose proof (zlen_nonneg (filter (isk v) (x :: rest))); lia).
        pose proof (off1_next ls v _ (rd_ls v Hv)) as O5. destruct (Z.lt_ge_cases v k).
        -- pose proof (off1_mono ls (v + 1) k). lia.
        -- pose proof (off1_mono ls (k + 1) v). lia.
Qed.

Lemma radix_pass_ok : radix_pass a r off (zlen a) K = Some radix_out.
Proof.
  unfold radix_pass.
  rewrite (foldM_rd a (fun c x => k <- rd r (x + off);; v <- rd c k;; wr c k (v + 1))).
  destruct (count_ok a (incl_refl a) (repeat 0 (Z.to_nat (K + 1)))) as (c & E & L & C); [rewrite zlen_repeat; lia|]. rewrite E.
  rewrite (foldM_rd a (fun s x => k <- rd r (x + off);; v <- rd (fst s) k;; b <- wr (snd s) v x;; c <- wr (fst s) k (v + 1);; Some (c, b))).
  assert (EC : c = map zlen ls).
  { apply list_ext_rd; [rewrite zlen_map, zlen_ls; lia|]. intros i Hi. rewrite (at0_rd c) by lia. rewrite C by lia. rewrite rd_map, rd_ls by lia. cbn. unfold at0. rewrite rd_repeat by lia. f_equal. }
  assert (LT : zlen (concat ls) = zlen a) by (pose proof (Permutation_length radix_perm) as L'; unfold radix_out in L'; unfold zlen, ls, isk; lia).
  destruct (scatter_ok a [] (firstn (length c) (exsum c)) (repeat 0 (Z.to_nat (zlen a)))) as (c' & b & E1 & L1 & R1).
  - reflexivity.
  - unfold zlen. rewrite firstn_length_le; [exact L|]. pose proof (zlen_exsum c). unfold zlen in *. lia.
  - rewrite zlen_repeat. pose proof (zlen_nonneg a). lia.
  - intros v Hv. cbn [filter]. rewrite zlen_nil, Z.add_0_r. unfold at0.
    assert (R : rd (firstn (length c) (exsum c)) v = rd (exsum c) v).
    { rewrite <- (firstn_skipn (length c) (exsum c)) at 2. rewrite rd_app_l; [reflexivity|]. unfold zlen. rewrite firstn_length_le; [unfold zlen in L; lia|]. pose proof (zlen_exsum c). unfold zlen in *. lia. }
    rewrite R, rd_exsum by lia. subst c. unfold off1. rewrite firstn_map. generalize (firstn (Z.to_nat v) ls). intros m. induction m as [|x m IH]; cbn; [reflexivity|]. rewrite IH, zlen_app. reflexivity.
  - intros v q x _ H. cbn in H. rewrite rd_nil in H. discriminate.
  - rewrite E1. cbn [snd]. f_equal. change radix_out with (concat ls). apply list_ext_rd; [lia|]. intros i Hi. destruct (rd_in_bound (concat ls) i ltac:(lia)) as (x & Hx). rewrite Hx.
    destruct (rd_concat_inv _ _ _ Hx) as (v & l & q & A1 & A2 & A3 & _). pose proof (rd_Some_bound _ _ _ A1) as B. rewrite zlen_ls in B. rewrite rd_ls in A1 by lia. injection A1 as <-. subst i. apply R1; auto. lia.
Qed.
End Radix.
