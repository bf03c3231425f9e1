From Coq Require Import ZArith List Lia Bool Permutation Sorting.Sorted Btauto.
From Coq Require Import ZifyBool ZifyNat.
From Verif Require Import Base RaggedModel RaggedSpec RaggedProofs FsaSpec FsaLemmas FsaOpsModel
  RaggedOpsModel RaggedOpsProofs RaggedListProofs OpsModel PropsModel PropsSpec.
Import ListNotations.
Open Scope Z_scope.

(** ** bits *)
Lemma has_pow p k : 0 <= k -> has p (2 ^ k) <-> Z.testbit p k = true.
Proof.
  intros Hk. unfold has. split.
  - intros H. destruct (Z.testbit p k) eqn:E; auto. exfalso; apply H.
    apply Z.bits_inj'. intros n Hn. rewrite Z.land_spec, Z.bits_0.
    destruct (Z.eqb_spec k n) as [<-|N]; [now rewrite E|].
    rewrite (Z.pow2_bits_false k n) by congruence. apply andb_false_r.
  - intros H C. assert (E : Z.testbit (Z.land p (2 ^ k)) k = true).
    { rewrite Z.land_spec, H, Z.pow2_bits_true by auto. reflexivity. }
    rewrite C, Z.bits_0 in E. discriminate.
Qed.

Lemma testbit_orif b m neg k : Z.testbit (orif b m neg) k = Z.testbit neg k || (b && Z.testbit m k).
Proof. unfold orif. destruct b; [now rewrite Z.lor_spec|]. now rewrite orb_false_r. Qed.

Lemma testbit_fold_land l : forall init k,
  Z.testbit (fold_left Z.land l init) k = Z.testbit init k && forallb (fun x => Z.testbit x k) l.
Proof.
  induction l as [|x l IH]; intros; simpl; [now rewrite andb_true_r|].
  rewrite IH, Z.land_spec. now rewrite andb_assoc.
Qed.

Lemma fold_land_01 l : Forall (fun x => x = 0 \/ x = 1) l ->
  fold_left Z.land l 1 = if forallb (fun x => x =? 1) l then 1 else 0.
Proof.
  assert (Z0 : forall l, fold_left Z.land l 0 = 0) by (induction l0; simpl; auto).
  induction 1 as [|x l Hx Hl IH]; [reflexivity|]. destruct Hx; subst x; simpl; auto.
Qed.

Lemma land_bound p q k : 0 <= k -> 0 <= q < 2 ^ k -> 0 <= Z.land p q < 2 ^ k.
Proof.
  intros Hk Hq.
  assert (E : Z.land p q = Z.land p q mod 2 ^ k).
  { apply Z.bits_inj'. intros n Hn. destruct (Z_lt_ge_dec n k).
    - now rewrite Z.mod_pow2_bits_low by lia.
    - rewrite Z.mod_pow2_bits_high by lia. rewrite Z.land_spec.
      replace q with (q mod 2 ^ k) by (apply Z.mod_small; lia).
      rewrite (Z.mod_pow2_bits_high q) by lia. apply andb_false_r. }
  rewrite E. apply Z.mod_pos_bound. lia.
Qed.

Lemma u32_key a : - 2 ^ 31 <= lab a < 2 ^ 31 -> u32 (lab a) = label_key a.
Proof.
  intros H. unfold u32, label_key. destruct (lab a <? 0) eqn:E.
  - symmetry. apply (Z.mod_unique _ _ (-1)); lia.
  - apply Z.mod_small. lia.
Qed.

(** ** slices *)
Lemma slice_in {A} (l : list A) b e : 0 <= b <= e -> e <= zlen l ->
  exists seg, slice l b e = Some seg /\ zlen seg = e - b /\
    (forall i, 0 <= i < e - b -> rd seg i = rd l (b + i)) /\
    forall x, In x seg <-> exists i, b <= i < e /\ rd l i = Some x.
Proof.
  intros H1 H2. unfold slice.
  assert (G : exists seg, mapM (fun i => rd l (b + i)) (zrange (e - b)) = Some seg).
  { assert (G : forall n, (forall i, In i n -> 0 <= i < e - b) -> exists seg, mapM (fun i => rd l (b + i)) n = Some seg).
    { induction n as [|x n IH]; intros Hn; simpl; eauto.
      destruct (rd_in_bound l (b + x)) as (y & Hy); [specialize (Hn x (or_introl eq_refl)); lia|].
      rewrite Hy. destruct IH as (s & Hs); [intros; apply Hn; now right|]. rewrite Hs. eauto. }
    apply G. intros i Hi. now apply in_zrange. }
  destruct G as (seg & G). exists seg. split; auto.
  assert (L : zlen seg = e - b). { apply mapM_length in G. unfold zlen. rewrite G, zrange_length. lia. }
  assert (R : forall i, 0 <= i < e - b -> rd seg i = rd l (b + i)).
  { intros i Hi. destruct (rd_in_bound seg i) as (x & Hx); [lia|]. rewrite Hx.
    destruct (mapM_rd _ _ _ _ _ G Hx) as (j & J1 & J2). rewrite rd_zrange in J1 by lia. injection J1 as <-. auto. }
  split; auto. split; auto. intros x. split.
  - intros Hx. apply In_rd in Hx as (i & Hi & Hx). exists (b + i). rewrite <- R by lia. split; [lia|auto].
  - intros (i & Hi & Hx). apply (rd_In _ (i - b)). rewrite R by lia. now replace (b + (i - b)) with i by lia.
Qed.

(** ** stores of 1 *)
Lemma foldM_wr1 ps : forall m : list Z, Forall (fun p => 0 <= p < zlen m) ps ->
  exists m', foldM (fun m p => wr m p 1) ps m = Some m' /\ zlen m' = zlen m /\
    (forall p, In p ps -> rd m' p = Some 1) /\ (forall p, ~ In p ps -> rd m' p = rd m p).
Proof.
  induction ps as [|q ps IH]; intros m H; simpl.
  - exists m. intuition.
  - inversion H as [|? ? Hq Hps]; subst. destruct (wr_Some m q 1 Hq) as (m1 & E1 & E2 & E3). rewrite E1.
    destruct (IH m1) as (m' & F1 & F2 & F3 & F4); [now rewrite E2|].
    exists m'. split; auto. split; [lia|]. split.
    + intros p [<-|Hp]; [|now apply F3]. destruct (in_dec Z.eq_dec q ps); [now apply F3|].
      rewrite F4 by auto. rewrite E3. now rewrite Z.eqb_refl.
    + intros p Hp. rewrite F4 by tauto. rewrite E3.
      destruct (Z.eqb_spec p q); auto. subst; tauto.
Qed.

Lemma marks_ok body sched : forall mem : list Z,
  (forall i, In i sched -> exists x ps, body i = Some (x, ps) /\ Forall (fun p => 0 <= p < zlen mem) ps) ->
  exists mem', props_marks sched body mem = Some mem' /\ zlen mem' = zlen mem /\
    (forall p, (exists i x ps, In i sched /\ body i = Some (x, ps) /\ In p ps) -> rd mem' p = Some 1) /\
    (forall p, ~ (exists i x ps, In i sched /\ body i = Some (x, ps) /\ In p ps) -> rd mem' p = rd mem p).
Proof.
  unfold props_marks. induction sched as [|i s IH]; intros mem H; simpl.
  - exists mem. split; auto. split; auto. split; auto. intros p (i & x & ps & [] & _).
  - destruct (H i (or_introl eq_refl)) as (x & ps & B & P). rewrite B. simpl.
    destruct (foldM_wr1 ps mem P) as (m1 & E1 & E2 & E3 & E4). rewrite E1.
    destruct (IH m1) as (m' & F1 & F2 & F3 & F4).
    { intros i' Hi'. rewrite E2. apply H. now right. }
    exists m'. split; auto. split; [lia|]. split.
    + intros p (i' & x' & ps' & [<-|Hi'] & B' & Hp); [|apply F3; eauto 8].
      rewrite B in B'. injection B' as <- <-.
      assert (D : rd m' p = Some 1 \/ rd m' p = rd m1 p).
      { destruct (rd m' p) eqn:E; destruct (rd m1 p) eqn:E'.
        - destruct (Z.eq_dec z 1); [left; congruence|]. right.
          rewrite <- E, <- E'. apply F4. intros C. apply F3 in C. congruence.
        - exfalso. apply rd_Some_bound in E. apply rd_None in E'. lia.
        - exfalso. apply rd_Some_bound in E'. apply rd_None in E. lia.
        - now right. }
      rewrite (E3 p Hp) in D. destruct D; auto.
    + intros p Hn. rewrite F4; [apply E4|].
      * intros Hp. apply Hn. exists i, x, ps. auto.
      * intros (i' & x' & ps' & Hi' & B' & Hp). apply Hn. exists i', x', ps'. auto.
Qed.

(** ** the kernel at an arc given by its FSA, state and position *)
Definition nneg (n r j : Z) (arc prev_arc : arc) : Z :=
  let neg := 0 in
  let neg := orif (negb (src arc =? r)) kValid neg in
  let neg := orif (dst arc <=? src arc) kTopSortedAndAcyclic neg in
  let neg := orif ((dst arc <=? src arc) && (dst arc <? src arc)) kTopSorted neg in
  let neg := orif (lab arc =? 0) kEpsilonFree neg in
  let neg := orif ((lab arc <? 0) && negb (lab arc =? -1)) kValid neg in
  let neg := orif ((lab arc <? 0) && (lab arc =? -1) && negb (dst arc =? n - 1)) kValid neg in
  let neg := orif (negb (lab arc =? -1) && (dst arc =? n - 1)) kValid neg in
  let neg := orif ((dst arc <? 0) || (n <=? dst arc)) kValid neg in
  let neg := orif (negb (j =? 0) && (u32 (lab arc) <=? u32 (lab prev_arc))) kArcSortedAndDeterministic neg in
  let neg := orif (negb (j =? 0) && (u32 (lab arc) <? u32 (lab prev_arc))) kArcSorted neg in
  orif (negb (j =? 0) && ((lab arc =? lab prev_arc) && (dst arc <? dst prev_arc))) kArcSorted neg.

Definition nmarks (X S n r p : Z) (arc : arc) : list Z :=
  (if negb ((dst arc <? 0) || (n <=? dst arc)) && negb (dst arc =? src arc) then [X + dst arc] else []) ++
  (if p =? 0 then [X; S + (X + n) - 1] else []) ++
  (if negb (dst arc =? src arc) then [S + (X + r)] else []).

Section V.
Variable fs : list nfsa.
Let A := map (@concat arc) fs.
Let S := zlen (concat fs).
Let body := props_body (flat_vec fs) (ids_of fs) (ids_of (concat fs)).

Lemma body_at k f r st j a : rd fs k = Some f -> rd f r = Some st -> rd st j = Some a ->
  exists prev, body (off1 A k + off1 f r + j) =
    Some (Z.lnot (nneg (zlen f) r j a prev), nmarks (off1 fs k) S (zlen f) r (off1 f r + j) a) /\
    (0 < j -> rd st (j - 1) = Some prev).
Proof.
  intros Hk Hr Hj.
  pose proof (rd_Some_bound _ _ _ Hk) as Bk. pose proof (rd_Some_bound _ _ _ Hr) as Br.
  pose proof (rd_Some_bound _ _ _ Hj) as Bj.
  destruct (rd_concat_off fs k f r st Hk Hr) as (P1 & P2).
  destruct (rd_concat_off (concat fs) _ st j a P1 Hj) as (Q1 & Q2).
  pose proof (off1_concat fs k f r Hk ltac:(lia)) as O. rewrite <- off1_map_concat in O. fold A in O.
  pose proof (off1_concat fs k f 0 Hk ltac:(lia)) as O0. rewrite <- off1_map_concat in O0. fold A in O0.
  replace (off1 fs k + 0) with (off1 fs k) in O0 by lia.
  change (off1 f 0) with 0 in O0.
  rewrite O in Q1, Q2. pose proof (off1_nonneg f r). pose proof (off1_nonneg A k).
  assert (Hp : exists prev, (if 0 <? off1 A k + off1 f r + j then rd (v_arcs (flat_vec fs)) (off1 A k + off1 f r + j - 1)
                else Some (mkArc 0 0 0 0)) = Some prev /\ (0 < j -> rd st (j - 1) = Some prev)).
  { destruct (0 <? off1 A k + off1 f r + j) eqn:E.
    - destruct (Z_lt_ge_dec 0 j).
      + destruct (rd_in_bound st (j - 1)) as (prev & Hprev); [lia|].
        exists prev. split; auto. destruct (rd_concat_off (concat fs) _ st (j - 1) prev P1 Hprev) as (R1 & _).
        rewrite O in R1. cbn [flat_vec v_arcs]. rewrite <- R1. f_equal. lia.
      + apply rd_Some_bound in Q1. cbn [flat_vec v_arcs].
        destruct (rd_in_bound (concat (concat fs)) (off1 A k + off1 f r + j - 1)) as (x & Hx); [lia|].
        exists x. split; auto. lia.
    - exists (mkArc 0 0 0 0). split; auto. lia. }
  destruct Hp as (prev & Hp1 & Hp2). exists prev. split; auto.
  unfold body, props_body. rewrite Hp1. cbn [flat_vec v_arcs v_rs1 v_rs2]. rewrite Q1, Q2.
  assert (Bs : off1 fs k + r < zlen (concat fs)). { apply rd_Some_bound in P1. lia. }
  pose proof (off1_nonneg fs k).
  rewrite (rd_splits_off (concat fs)) by lia. rewrite O, P2.
  rewrite !(rd_splits_off fs) by lia. rewrite (off1_next fs k f Hk).
  rewrite (rd_splits_off (concat fs)) by lia. rewrite O0.
  cbv zeta. rewrite zlen_splits_of. fold S.
  replace (off1 fs k + r - off1 fs k) with r by lia.
  replace (off1 fs k + zlen f - off1 fs k) with (zlen f) by lia.
  replace (off1 A k + off1 f r + j - (off1 A k + off1 f r)) with j by lia.
  unfold nneg, nmarks. cbv zeta.
  replace (S + 1 - 1) with S by lia.
  replace (off1 A k + 0 =? off1 A k + off1 f r + j) with (off1 f r + j =? 0) by lia.
  reflexivity.
Qed.

Lemma arc_pos i : 0 <= i < zlen (concat (concat fs)) ->
  exists k f r st j a, rd fs k = Some f /\ rd f r = Some st /\ rd st j = Some a /\
    i = off1 A k + off1 f r + j.
Proof.
  intros H. destruct (rd_in_bound _ _ H) as (a & Ha).
  destruct (rd_concat3 fs i a Ha) as (k & f & r & st & j & H1 & H2 & H3 & _ & _ & H4).
  exists k, f, r, st, j, a. auto.
Qed.

Definition prevof (st : list arc) (j : Z) : arc :=
  match rd st (j - 1) with Some p => p | None => mkArc 0 0 0 0 end.

Lemma body_at' k f r st j a : rd fs k = Some f -> rd f r = Some st -> rd st j = Some a ->
  body (off1 A k + off1 f r + j) =
    Some (Z.lnot (nneg (zlen f) r j a (prevof st j)), nmarks (off1 fs k) S (zlen f) r (off1 f r + j) a).
Proof.
  intros Hk Hr Hj. destruct (body_at k f r st j a Hk Hr Hj) as (prev & E & P). rewrite E. do 3 f_equal.
  pose proof (rd_Some_bound _ _ _ Hj). destruct (Z_lt_ge_dec 0 j).
  - unfold prevof. now rewrite P by lia.
  - replace j with 0 by lia. unfold nneg. change (0 =? 0) with true. reflexivity.
Qed.

(** marked positions *)
Definition marked (p : Z) : Prop :=
  exists k f r st j a, rd fs k = Some f /\ rd f r = Some st /\ rd st j = Some a /\
    In p (nmarks (off1 fs k) S (zlen f) r (off1 f r + j) a).

Lemma nmarks_range k f r st j a : rd fs k = Some f -> rd f r = Some st -> rd st j = Some a ->
  Forall (fun p => 0 <= p < S * 2) (nmarks (off1 fs k) S (zlen f) r (off1 f r + j) a).
Proof.
  intros Hk Hr Hj. apply Forall_forall. intros p Hp.
  pose proof (rd_Some_bound _ _ _ Hr). pose proof (off1_nonneg fs k).
  pose proof (off1_next fs k f Hk). pose proof (off1_bound fs (k + 1)). unfold S.
  unfold nmarks in Hp. rewrite !in_app_iff in Hp.
  destruct Hp as [Hp|[Hp|Hp]].
  - destruct (negb ((dst a <? 0) || (zlen f <=? dst a)) && negb (dst a =? src a)) eqn:E; [|destruct Hp].
    destruct Hp as [<-|[]]. lia.
  - destruct (_ =? 0); [|destruct Hp]. destruct Hp as [<-|[<-|[]]]; lia.
  - destruct (negb _); [|destruct Hp]. destruct Hp as [<-|[]]. lia.
Qed.

Lemma mem_ok sched : is_sched (zlen (concat (concat fs))) sched ->
  exists mem, props_marks sched body (repeat 0 (Z.to_nat (S * 2))) = Some mem /\ zlen mem = S * 2 /\
    forall p, 0 <= p < S * 2 -> (rd mem p = Some 1 /\ marked p) \/ (rd mem p = Some 0 /\ ~ marked p).
Proof.
  intros Hs. assert (HS : 0 <= S) by apply zlen_nonneg.
  destruct (marks_ok body sched (repeat 0 (Z.to_nat (S * 2)))) as (mem & E1 & E2 & E3 & E4).
  { intros i Hi. apply (in_sched _ _ _ Hs) in Hi.
    destruct (arc_pos i Hi) as (k & f & r & st & j & a & H1 & H2 & H3 & ->).
    rewrite (body_at' k f r st j a) by auto. eexists _, _. split; [reflexivity|].
    rewrite zlen_repeat. replace (Z.of_nat (Z.to_nat (S * 2))) with (S * 2) by lia. now apply (nmarks_range k f r st j a). }
  rewrite zlen_repeat in E2. replace (Z.of_nat (Z.to_nat (S * 2))) with (S * 2) in E2 by lia.
  exists mem. split; auto. split; auto. intros p Hp.
  assert (M : marked p <-> exists i x ps, In i sched /\ body i = Some (x, ps) /\ In p ps).
  { split.
    - intros (k & f & r & st & j & a & H1 & H2 & H3 & H4). eexists _, _, _.
      split; [|split; [apply (body_at' k f r st j a); auto|exact H4]].
      apply (in_sched _ _ _ Hs). destruct (rd_concat_off f r st j a H2 H3) as (P1 & _).
      assert (P2 : rd A k = Some (concat f)) by (unfold A; now rewrite rd_map, H1).
      destruct (rd_concat_off A k _ _ a P2 P1) as (P3 & _). apply rd_Some_bound in P3.
      pose proof (concat_map_concat fs) as CC. fold A in CC. rewrite CC in P3. lia.
    - intros (i & x & ps & Hi & Hb & Hp').
      apply (in_sched _ _ _ Hs) in Hi.
      destruct (arc_pos i Hi) as (k & f & r & st & j & a & H1 & H2 & H3 & ->).
      rewrite (body_at' k f r st j a) in Hb by auto. injection Hb as <- <-.
      exists k, f, r, st, j, a. auto. }
  destruct (rd_in_bound mem p) as (v & Hv); [lia|]. destruct (Z.eq_dec v 1) as [->|N].
  - left. split; auto. apply M.
    (* otherwise the cell would still be 0 *)
    destruct (Z.eq_dec 0 1); [lia|].
    assert (D : ~ ~ (exists i x ps, In i sched /\ body i = Some (x, ps) /\ In p ps)).
    { intros C. rewrite (E4 p C), rd_repeat in Hv by lia. discriminate. }
    assert (Dec : forall l, (exists i x ps, In i l /\ body i = Some (x, ps) /\ In p ps) \/
                            ~ (exists i x ps, In i l /\ body i = Some (x, ps) /\ In p ps)).
    { induction l as [|i l IH]; [right; intros (? & ? & ? & [] & _)|].
      destruct IH as [IH|IH]; [left; destruct IH as (i' & x & ps & ? & ? & ?); exists i', x, ps; simpl; auto|].
      destruct (body i) as [[x ps]|] eqn:B.
      - destruct (in_dec Z.eq_dec p ps) as [Hin|Hin]; [left; exists i, x, ps; simpl; auto|].
        right. intros (i' & x' & ps' & [<-|Hi'] & B' & P'); [|apply IH; eauto 8].
        rewrite B in B'. injection B' as <- <-. auto.
      - right. intros (i' & x' & ps' & [<-|Hi'] & B' & P'); [congruence|apply IH; eauto 8]. }
    destruct (Dec sched); tauto.
  - right. assert (NM : ~ marked p). { intros C. apply M, E3 in C. congruence. }
    split; auto. rewrite E4 by (rewrite <- M; auto). apply rd_repeat. lia.
Qed.

Definition acc_c (f : nfsa) : Prop := f = [] \/ (p_nonempty f /\ p_accessible f).
Definition coacc_c (f : nfsa) : Prop := f = [] \/ (p_nonempty f /\ p_coaccessible f).

Lemma in_all f r st j a : rd f r = Some st -> rd st j = Some a -> In a (all_arcs f).
Proof. intros H1 H2. apply in_concat. exists st. split; eapply rd_In; eauto. Qed.

Lemma all_in f a : In a (all_arcs f) -> exists r st j, rd f r = Some st /\ rd st j = Some a.
Proof.
  intros H. apply in_concat in H as (st & H1 & H2). apply In_rd in H1 as (r & _ & H1).
  apply In_rd in H2 as (j & _ & H2). eauto.
Qed.

Lemma row_unique k f s k' f' s' : rd fs k = Some f -> rd fs k' = Some f' -> 0 <= s < zlen f -> 0 <= s' < zlen f' ->
  off1 fs k + s = off1 fs k' + s' -> k = k' /\ s = s' /\ f = f'.
Proof.
  intros H1 H2 B1 B2 E. destruct (rd_in_bound f s B1) as (x & Hx). destruct (rd_in_bound f' s' B2) as (x' & Hx').
  destruct (rd_concat_off fs k f s x H1 Hx) as (_ & P). destruct (rd_concat_off fs k' f' s' x' H2 Hx') as (_ & P').
  rewrite E, P' in P. injection P as ->. rewrite H1 in H2. injection H2 as ->. split; [auto|]. split; [lia|auto].
Qed.

Lemma marked_reach k f s : rd fs k = Some f -> 0 <= s < zlen f ->
  marked (off1 fs k + s) <-> (s = 0 /\ p_nonempty f) \/ exists a, In a (all_arcs f) /\ dst a = s /\ src a <> s.
Proof.
  intros Hk Hs.
  assert (BX : off1 fs k + s < S).
  { pose proof (off1_next fs k f Hk). pose proof (off1_bound fs (k + 1)). unfold S. lia. }
  split.
  - intros (k' & f' & r & st & j & a & H1 & H2 & H3 & H4).
    pose proof (rd_Some_bound _ _ _ H2) as Br. pose proof (off1_nonneg fs k').
    unfold nmarks in H4. rewrite !in_app_iff in H4. destruct H4 as [H4|[H4|H4]].
    + destruct (negb ((dst a <? 0) || (zlen f' <=? dst a)) && negb (dst a =? src a)) eqn:E; [|destruct H4].
      destruct H4 as [H4|[]].
      destruct (row_unique k' f' (dst a) k f s H1 Hk ltac:(lia) Hs H4) as (-> & <- & ->).
      right. exists a. split; [now apply (in_all f r st j)|]. split; [auto|]. lia.
    + destruct (off1 f' r + j =? 0) eqn:E; [|destruct H4].
      destruct H4 as [H4|[H4|[]]]; [|lia].
      destruct (row_unique k' f' 0 k f s H1 Hk ltac:(lia) Hs ltac:(lia)) as (-> & <- & ->).
      left. split; auto. exists a. now apply (in_all f r st j).
    + destruct (negb _); [|destruct H4]. destruct H4 as [H4|[]]. lia.
  - intros [(-> & a & Ha)|(a & Ha & Hd & Hn)].
    + assert (Q : exists a0 r st, rd (concat f) 0 = Some a0 /\ True /\ rd f r = Some st /\ exists j, rd st j = Some a0 /\ 0 = off1 f r + j).
      { destruct (rd_in_bound (concat f) 0) as (a0 & H0).
        { apply In_rd in Ha as (i & Hi & _). unfold all_arcs in Hi. lia. }
        destruct (rd_concat_inv f 0 a0 H0) as (r & st & j & Q1 & Q2 & Q3 & _).
        exists a0, r, st. eauto 10. }
      destruct Q as (a0 & r & st & _ & _ & Q1 & j & Q2 & Q3).
      exists k, f, r, st, j, a0. split; auto. split; auto. split; auto.
      unfold nmarks. rewrite <- Q3. change (0 =? 0) with true. rewrite !in_app_iff. right; left. left. lia.
    + destruct (all_in f a Ha) as (r & st & j & Q1 & Q2).
      exists k, f, r, st, j, a. split; auto. split; auto. split; auto.
      unfold nmarks. rewrite !in_app_iff. left.
      replace (negb ((dst a <? 0) || (zlen f <=? dst a)) && negb (dst a =? src a)) with true by lia.
      left. lia.
Qed.

Lemma marked_coreach k f s st0 : rd fs k = Some f -> rd f s = Some st0 ->
  marked (S + (off1 fs k + s)) <->
  (s = zlen f - 1 /\ p_nonempty f) \/ exists a, In a st0 /\ dst a <> src a.
Proof.
  intros Hk Hst. pose proof (rd_Some_bound _ _ _ Hst) as Hs.
  assert (BX : off1 fs k + s < S).
  { pose proof (off1_next fs k f Hk). pose proof (off1_bound fs (k + 1)). unfold S. lia. }
  pose proof (off1_nonneg fs k).
  split.
  - intros (k' & f' & r & st & j & a & H1 & H2 & H3 & H4).
    pose proof (rd_Some_bound _ _ _ H2) as Br. pose proof (off1_nonneg fs k').
    assert (BX' : off1 fs k' + zlen f' <= S).
    { pose proof (off1_next fs k' f' H1). pose proof (off1_bound fs (k' + 1)). unfold S. lia. }
    unfold nmarks in H4. rewrite !in_app_iff in H4. destruct H4 as [H4|[H4|H4]].
    + destruct (negb ((dst a <? 0) || (zlen f' <=? dst a)) && negb (dst a =? src a)) eqn:E; [|destruct H4].
      destruct H4 as [H4|[]]. lia.
    + destruct (off1 f' r + j =? 0) eqn:E; [|destruct H4].
      destruct H4 as [H4|[H4|[]]]; [lia|].
      destruct (row_unique k' f' (zlen f' - 1) k f s H1 Hk ltac:(lia) Hs ltac:(lia)) as (-> & <- & ->).
      left. split; auto. exists a. now apply (in_all f r st j).
    + destruct (negb (dst a =? src a)) eqn:E; [|destruct H4]. destruct H4 as [H4|[]].
      destruct (row_unique k' f' r k f s H1 Hk ltac:(lia) Hs ltac:(lia)) as (-> & <- & ->).
      right. exists a. rewrite Hst in H2. injection H2 as ->. split; [now apply rd_In in H3|lia].
  - intros [(-> & a & Ha)|(a & Ha & Hn)].
    + assert (Q : exists a0 r st, rd (concat f) 0 = Some a0 /\ True /\ rd f r = Some st /\ exists j, rd st j = Some a0 /\ 0 = off1 f r + j).
      { destruct (rd_in_bound (concat f) 0) as (a0 & H0).
        { apply In_rd in Ha as (i & Hi & _). unfold all_arcs in Hi. lia. }
        destruct (rd_concat_inv f 0 a0 H0) as (r & st & j & Q1 & Q2 & Q3 & _).
        exists a0, r, st. eauto 10. }
      destruct Q as (a0 & r & st & _ & _ & Q1 & j & Q2 & Q3).
      exists k, f, r, st, j, a0. split; auto. split; auto. split; auto.
      unfold nmarks. rewrite <- Q3. change (0 =? 0) with true. rewrite !in_app_iff. right; left. right; left. lia.
    + apply In_rd in Ha as (j & _ & Ha).
      exists k, f, s, st0, j, a. split; auto. split; auto. split; auto.
      unfold nmarks. rewrite !in_app_iff. right; right.
      replace (negb (dst a =? src a)) with true by lia.
      left. lia.
Qed.
End V.

(** ** AndPerSublist *)
Lemma zrange_map_Some {B} (g : Z -> option B) n : (forall i, 0 <= i < n -> exists y, g i = Some y) ->
  exists ys, mapM g (zrange n) = Some ys /\ zlen ys = Z.max 0 n /\ forall i, 0 <= i < n -> rd ys i = g i.
Proof.
  intros H.
  assert (G : forall l, (forall i, In i l -> 0 <= i < n) -> exists ys, mapM g l = Some ys).
  { induction l as [|x l IH]; intros Hl; simpl; eauto.
    destruct (H x) as (y & Hy); [apply Hl; now left|]. rewrite Hy.
    destruct IH as (s & Hs); [intros; apply Hl; now right|]. rewrite Hs. eauto. }
  destruct (G (zrange n)) as (ys & Hys); [intros; now apply in_zrange|].
  exists ys. split; auto.
  assert (L : zlen ys = Z.max 0 n). { apply mapM_length in Hys. unfold zlen. rewrite Hys, zrange_length. lia. }
  split; auto. intros i Hi. destruct (rd_in_bound ys i) as (y & Hy); [lia|]. rewrite Hy.
  destruct (mapM_rd _ _ _ _ _ Hys Hy) as (j & J1 & J2). rewrite rd_zrange in J1 by lia. now injection J1 as <-.
Qed.

Lemma and_per_sublist_ok {B} (L : list (list B)) (values : list Z) init : zlen values = zlen (concat L) ->
  exists out, and_per_sublist (splits_of L) values init = Some out /\ zlen out = zlen L /\
    forall k l, rd L k = Some l -> exists seg, rd out k = Some (fold_left Z.land seg init) /\
      forall x, In x seg <-> exists j, 0 <= j < zlen l /\ rd values (off1 L k + j) = Some x.
Proof.
  intros HL. unfold and_per_sublist. rewrite zlen_splits_of. replace (zlen L + 1 - 1) with (zlen L) by lia.
  assert (Q : forall k l, rd L k = Some l -> exists seg,
     (a <- rd (splits_of L) k;; b <- rd (splits_of L) (k + 1);; seg <- slice values a b;;
      Some (fold_left Z.land seg init)) = Some (fold_left Z.land seg init) /\
      forall x, In x seg <-> exists j, 0 <= j < zlen l /\ rd values (off1 L k + j) = Some x).
  { intros k l Hk. pose proof (rd_Some_bound _ _ _ Hk). rewrite !rd_splits_off by lia.
    rewrite (off1_next L k l Hk). pose proof (off1_nonneg L k). pose proof (zlen_nonneg l).
    pose proof (off1_bound L (k + 1)) as Bd. rewrite (off1_next L k l Hk) in Bd.
    destruct (slice_in values (off1 L k) (off1 L k + zlen l)) as (seg & E & _ & _ & Hin); [lia|lia|].
    rewrite E. exists seg. split; auto. intros x. rewrite Hin. split.
    - intros (i & Hi & Hx). exists (i - off1 L k). split; [lia|]. now replace (off1 L k + (i - off1 L k)) with i by lia.
    - intros (j & Hj & Hx). exists (off1 L k + j). split; [lia|auto]. }
  destruct (zrange_map_Some (fun i => a <- rd (splits_of L) i;; b <- rd (splits_of L) (i + 1);;
     seg <- slice values a b;; Some (fold_left Z.land seg init)) (zlen L)) as (ys & E & El & Er).
  { intros i Hi. destruct (rd_in_bound L i Hi) as (l & Hl). destruct (Q i l Hl) as (seg & Q1 & _). eauto. }
  exists ys. split; auto. pose proof (zlen_nonneg L). split; [lia|].
  intros k l Hk. destruct (Q k l Hk) as (seg & Q1 & Q2). exists seg. split; auto.
  rewrite Er; auto. now apply rd_Some_bound in Hk.
Qed.

Lemma sorted_adjacent {B} (R : B -> B -> Prop) : (forall a b c, R a b -> R b c -> R a c) ->
  forall l, StronglySorted R l <-> forall j x y, 0 < j -> rd l (j - 1) = Some x -> rd l j = Some y -> R x y.
Proof.
  intros T. induction l as [|a l IH].
  - split; [|constructor]. intros _ j x y _ H. now rewrite rd_nil in H.
  - split.
    + intros H. inversion H as [|? ? H1 H2]; subst. intros j x y Hj Hx Hy.
      rewrite rd_cons in Hx, Hy. replace (j =? 0) with false in Hy by lia.
      replace (j <? 0) with false in Hy by lia. replace (j - 1 <? 0) with false in Hx by lia.
      destruct (j - 1 =? 0) eqn:E.
      * injection Hx as <-. rewrite Forall_forall in H2. apply H2. eapply rd_In; eauto.
      * apply IH with (j := j - 1); auto. lia.
    + intros H. assert (HS : StronglySorted R l).
      { apply IH. intros j x y Hj Hx Hy. apply (H (j + 1)); [lia| |].
        - replace (j + 1 - 1) with (j - 1 + 1) by lia. rewrite rd_cons_S by lia. auto.
        - rewrite rd_cons_S by lia. auto. }
      constructor; auto. destruct l as [|b l]; [constructor|].
      assert (Hab : R a b). { apply (H 1); [lia|reflexivity|reflexivity]. }
      inversion HS as [|? ? H1 H2]; subst. constructor; auto.
      rewrite Forall_forall in *. intros x Hx. apply (T a b x); auto.
Qed.

Lemma label_lt_trans a b c : label_lt a b -> label_lt b c -> label_lt a c.
Proof. unfold label_lt. lia. Qed.
Lemma arc_le_trans a b c : arc_le a b -> arc_le b c -> arc_le a c.
Proof. unfold arc_le, label_lt, label_key. intros. destruct (lab a <? 0) eqn:?, (lab b <? 0) eqn:?, (lab c <? 0) eqn:?; lia. Qed.

Ltac kbits := repeat match goal with |- context [Z.testbit ?m ?b] =>
  let v := eval vm_compute in (Z.testbit m b) in
  match v with true => change (Z.testbit m b) with true | false => change (Z.testbit m b) with false end end.
Ltac nneg_bit := unfold nneg; cbv zeta; rewrite !testbit_orif; kbits;
  rewrite ?andb_true_r, ?andb_false_r, ?orb_false_r, ?orb_false_l.

(** no arc of [f] clears bit [b] *)
Definition clear (f : nfsa) (b : Z) : Prop :=
  forall r st j a, rd f r = Some st -> rd st j = Some a -> Z.testbit (nneg (zlen f) r j a (prevof st j)) b = false.

Lemma clear_valid f : clear f 0 <-> p_valid f.
Proof.
  unfold clear, p_valid, src_ok, final, nstates. split.
  - intros H. split.
    + intros r st a Hr Ha. apply In_rd in Ha as (j & _ & Hj). specialize (H r st j a Hr Hj). revert H. nneg_bit. lia.
    + intros a Ha. destruct (all_in f a Ha) as (r & st & j & Hr & Hj). specialize (H r st j a Hr Hj). revert H. nneg_bit. lia.
  - intros (H1 & H2) r st j a Hr Hj. specialize (H1 r st a Hr (rd_In _ _ _ Hj)).
    specialize (H2 a (in_all f r st j a Hr Hj)). nneg_bit. lia.
Qed.

Lemma clear_all f b (P : arc -> Prop) :
  (forall r j a p, Z.testbit (nneg (zlen f) r j a p) b = false <-> P a) ->
  clear f b <-> forall a, In a (all_arcs f) -> P a.
Proof.
  intros H. unfold clear. split.
  - intros C a Ha. destruct (all_in f a Ha) as (r & st & j & Hr & Hj). eapply H. eauto.
  - intros C r st j a Hr Hj. apply H, C. now apply (in_all f r st j).
Qed.

Lemma clear_topsorted f : clear f 2 <-> p_topsorted f.
Proof. apply clear_all. intros. nneg_bit. lia. Qed.
Lemma clear_acyclic f : clear f 3 <-> p_topsorted_acyclic f.
Proof. apply clear_all. intros. nneg_bit. lia. Qed.
Lemma clear_epsfree f : clear f 6 <-> p_epsfree f.
Proof. apply clear_all. intros. nneg_bit. lia. Qed.
Lemma clear_rest f b : b = 1 \/ b = 7 \/ b = 8 -> clear f b.
Proof. intros [-> | [-> | ->]] r st j a _ _; nneg_bit; reflexivity. Qed.

Lemma clear_sorted_gen f b (R : arc -> arc -> Prop) : (forall x y z, R x y -> R y z -> R x z) -> int32_labels f ->
  (forall r j a p, - 2 ^ 31 <= lab a < 2 ^ 31 -> - 2 ^ 31 <= lab p < 2 ^ 31 -> 0 <= j ->
     Z.testbit (nneg (zlen f) r j a p) b = false <-> (0 < j -> R p a)) ->
  clear f b <-> forall st, In st f -> StronglySorted R st.
Proof.
  intros T HI H. split.
  - intros C st Hst. apply In_rd in Hst as (r & _ & Hr). apply sorted_adjacent; auto.
    intros j x y Hj Hx Hy. apply (H r j); auto; try lia.
    + apply HI. now apply (in_all f r st j).
    + apply HI. now apply (in_all f r st (j - 1)).
    + specialize (C r st j y Hr Hy). unfold prevof in C. now rewrite Hx in C.
  - intros C r st j a Hr Hj. pose proof (rd_Some_bound _ _ _ Hj).
    apply H; [|unfold prevof|lia|].
    + apply HI. now apply (in_all f r st j).
    + destruct (rd st (j - 1)) as [p|] eqn:E; [|cbn [lab]; lia]. apply HI. now apply (in_all f r st (j - 1)).
    + intros Hj0. specialize (C st (rd_In _ _ _ Hr)).
      destruct (rd_in_bound st (j - 1)) as (p & Hp); [lia|]. unfold prevof. rewrite Hp.
      eapply (proj1 (sorted_adjacent R T st) C); eauto.
Qed.

Lemma clear_arcsorted f : int32_labels f -> clear f 4 <-> p_arcsorted f.
Proof.
  intros HI. apply clear_sorted_gen; [exact arc_le_trans|auto|]. intros r j a p Ha Hp Hj.
  nneg_bit. rewrite !u32_key by auto. unfold arc_le, label_lt, label_key.
  destruct (lab a <? 0) eqn:?, (lab p <? 0) eqn:?; lia.
Qed.
Lemma clear_det f : int32_labels f -> clear f 5 <-> p_deterministic f.
Proof.
  intros HI. apply clear_sorted_gen; [exact label_lt_trans|auto|]. intros r j a p Ha Hp Hj.
  nneg_bit. rewrite !u32_key by auto. unfold label_lt. lia.
Qed.

(** ** the whole function *)
Record fsa_bits (f : nfsa) (p : Z) : Prop := {
  b_range : 0 <= p <= 0x1FF;
  b_arcs : forall b, 0 <= b < 9 -> b <> 1 -> b <> 7 -> b <> 8 -> Z.testbit p b = true <-> clear f b;
  b_ne : Z.testbit p 1 = true <-> p_nonempty f;
  b_acc : Z.testbit p 7 = true <-> acc_c f;
  b_coacc : Z.testbit p 8 = true <-> coacc_c f }.

Lemma forallb_true_iff {B} (g : B -> bool) l : forallb g l = true <-> forall x, In x l -> g x = true.
Proof. apply forallb_forall. Qed.

Lemma kAll_bits b : 0 <= b < 9 -> Z.testbit kAll b = true.
Proof.
  intros H. assert (D : b = 0 \/ b = 1 \/ b = 2 \/ b = 3 \/ b = 4 \/ b = 5 \/ b = 6 \/ b = 7 \/ b = 8) by lia.
  repeat (destruct D as [->|D]; [reflexivity|]). subst b. reflexivity.
Qed.

Lemma fold_land_range l : forall init k, 0 <= k -> 0 <= init < 2 ^ k -> 0 <= fold_left Z.land l init < 2 ^ k.
Proof.
  induction l as [|x l IH]; intros init k Hk Hi; simpl; auto. apply IH; auto.
  rewrite Z.land_comm. now apply land_bound.
Qed.

Theorem vec_props_ok sched fs : is_sched (zlen (concat (concat fs))) sched ->
  exists per tot, vec_props sched (flat_vec fs) = Some (per, tot) /\ zlen per = zlen fs /\
    (forall k f, rd fs k = Some f -> exists p, rd per k = Some p /\ fsa_bits f p) /\
    (0 <= tot <= 0x1FF /\ forall b, 0 <= b < 9 -> Z.testbit tot b = true <-> forall p, In p per -> Z.testbit p b = true).
Proof.
  intros Hs. unfold vec_props. cbn [flat_vec v_rs1 v_rs2 v_arcs]. cbv zeta. rewrite !zlen_splits_of.
  replace (zlen (concat fs) + 1 - 1) with (zlen (concat fs)) by lia.
  replace (zlen fs + 1 - 1) with (zlen fs) by lia.
  rewrite !row_ids_of_splits.
  change (mkVec (splits_of fs) (splits_of (concat fs)) (concat (concat fs))) with (flat_vec fs).
  set (body := props_body (flat_vec fs) (ids_of fs) (ids_of (concat fs))).
  set (A := map (@concat arc) fs).
  destruct (zrange_map_Some body (zlen (concat (concat fs)))) as (rs & E1 & E2 & E3).
  { intros i Hi. destruct (arc_pos fs i Hi) as (k & f & r & st & j & a & H1 & H2 & H3 & ->).
    eexists. now apply (body_at' fs k f r st j a). }
  rewrite E1. destruct (mem_ok fs sched Hs) as (mem & M1 & M2 & M3). fold body in M1. rewrite M1.
  set (S := zlen (concat fs)) in *. assert (HS : 0 <= S) by apply zlen_nonneg.
  destruct (slice_in mem 0 S) as (re & R1 & R2 & R3 & _); [lia|lia|]. rewrite R1.
  destruct (slice_in mem S (S * 2)) as (co & C1 & C2 & C3 & _); [lia|lia|]. rewrite C1.
  assert (FA : mapM (rd (splits_of (concat fs))) (splits_of fs) = Some (splits_of A)).
  { pose proof (compose_layers_ok fs) as CL. unfold compose_layers in CL. cbn [l_ids l_rs] in CL.
    destruct (mapM _ (ids_of (concat fs))); [|discriminate].
    destruct (mapM (rd (splits_of (concat fs))) (splits_of fs)) as [x|]; [|discriminate].
    injection CL as -> _. reflexivity. }
  rewrite FA.
  destruct (and_per_sublist_ok A (map fst rs) kAll) as (props & P1 & P2 & P3).
  { rewrite zlen_map, E2. unfold A. rewrite concat_map_concat. pose proof (zlen_nonneg (concat (concat fs))). lia. }
  rewrite P1.
  destruct (and_per_sublist_ok fs re 1) as (reach & Q1 & Q2 & Q3); [unfold S in *; lia|]. rewrite Q1.
  destruct (and_per_sublist_ok fs co 1) as (coreach & T1 & T2 & T3); [unfold S in *; lia|]. rewrite T1.
  assert (F : forall k f, rd fs k = Some f -> exists p,
     finalize_body (flat_vec fs) props reach coreach k = Some p /\ fsa_bits f p).
  { intros k f Hk. pose proof (rd_Some_bound _ _ _ Hk) as Bk.
    assert (HkA : rd A k = Some (concat f)) by (unfold A; now rewrite rd_map, Hk).
    destruct (P3 k _ HkA) as (ps & P4 & P5). destruct (Q3 k f Hk) as (qs & Q4 & Q5). destruct (T3 k f Hk) as (ts & T4 & T5).
    unfold finalize_body. rewrite P4, Q4, T4. cbn [flat_vec v_rs1 v_rs2].
    rewrite !(rd_splits_off fs) by lia. rewrite (off1_next fs k f Hk).
    pose proof (off1_nonneg fs k) as Ok0. pose proof (off1_bound fs (k + 1)) as Bd. rewrite (off1_next fs k f Hk) in Bd.
    pose proof (zlen_nonneg f) as Lf.
    rewrite !(rd_splits_off (concat fs)) by lia.
    pose proof (off1_concat fs k f 0 Hk ltac:(lia)) as O0. replace (off1 fs k + 0) with (off1 fs k) in O0 by lia.
    change (off1 f 0) with 0 in O0.
    pose proof (off1_concat fs k f (zlen f) Hk ltac:(lia)) as O1.
    assert (Oall : off1 f (zlen f) = zlen (concat f)).
    { unfold off1. rewrite firstn_all2; auto. unfold zlen; lia. }
    rewrite Oall in O1. rewrite O0, O1. cbv zeta.
    replace (_ + 0 =? _ + zlen (concat f)) with (zlen (concat f) =? 0) by lia.
    (* reachability flags *)
    assert (CR : forall j, 0 <= j < zlen f ->
       (rd re (off1 fs k + j) = Some 1 /\ marked fs (off1 fs k + j)) \/ (rd re (off1 fs k + j) = Some 0 /\ ~ marked fs (off1 fs k + j))).
    { intros j Hj. rewrite R3 by (unfold S; lia). replace (0 + (off1 fs k + j)) with (off1 fs k + j) by lia.
      apply M3. unfold S; lia. }
    assert (CC : forall j, 0 <= j < zlen f ->
       (rd co (off1 fs k + j) = Some 1 /\ marked fs (S + (off1 fs k + j))) \/ (rd co (off1 fs k + j) = Some 0 /\ ~ marked fs (S + (off1 fs k + j)))).
    { intros j Hj. rewrite C3 by (unfold S; lia). apply M3. unfold S; lia. }
    assert (RV : fold_left Z.land qs 1 = if forallb (fun x => x =? 1) qs then 1 else 0).
    { apply fold_land_01. apply Forall_forall. intros x Hx. apply Q5 in Hx as (j & Hj & Hx).
      destruct (CR j Hj) as [(U & _)|(U & _)]; rewrite U in Hx; injection Hx; auto. }
    assert (CV : fold_left Z.land ts 1 = if forallb (fun x => x =? 1) ts then 1 else 0).
    { apply fold_land_01. apply Forall_forall. intros x Hx. apply T5 in Hx as (j & Hj & Hx).
      destruct (CC j Hj) as [(U & _)|(U & _)]; rewrite U in Hx; injection Hx; auto. }
    assert (RA : forallb (fun x => x =? 1) qs = true <-> forall j, 0 <= j < zlen f -> marked fs (off1 fs k + j)).
    { rewrite forallb_forall. split.
      - intros H j Hj. destruct (CR j Hj) as [(_ & U)|(U & _)]; auto.
        exfalso. specialize (H 0). assert (X : 0 =? 1 = true) by (apply H, Q5; eauto). discriminate.
      - intros H x Hx. apply Q5 in Hx as (j & Hj & Hx). destruct (CR j Hj) as [(U & _)|(_ & U)]; [|elim U; auto].
        rewrite U in Hx. injection Hx as <-. reflexivity. }
    assert (CA : forallb (fun x => x =? 1) ts = true <-> forall j, 0 <= j < zlen f -> marked fs (S + (off1 fs k + j))).
    { rewrite forallb_forall. split.
      - intros H j Hj. destruct (CC j Hj) as [(_ & U)|(U & _)]; auto.
        exfalso. specialize (H 0). assert (X : 0 =? 1 = true) by (apply H, T5; eauto). discriminate.
      - intros H x Hx. apply T5 in Hx as (j & Hj & Hx). destruct (CC j Hj) as [(U & _)|(_ & U)]; [|elim U; auto].
        rewrite U in Hx. injection Hx as <-. reflexivity. }
    (* the per-arc part *)
    assert (PA : forall b, 0 <= b < 9 -> Z.testbit (fold_left Z.land ps kAll) b = true <-> clear f b).
    { intros b Hb. rewrite testbit_fold_land, kAll_bits by auto. cbn [andb]. rewrite forallb_forall.
      assert (PX : forall r st j a, rd f r = Some st -> rd st j = Some a ->
                rd (map fst rs) (off1 A k + (off1 f r + j)) = Some (Z.lnot (nneg (zlen f) r j a (prevof st j)))).
      { intros r st j a Hr Hj. pose proof (rd_concat_off f r st j a Hr Hj) as (V1 & _).
        pose proof (rd_concat_off A k _ _ a HkA V1) as (V2 & _). apply rd_Some_bound in V2.
        rewrite rd_map, E3.
        - rewrite Z.add_assoc. unfold body, A. rewrite (body_at' fs k f r st j a) by auto. reflexivity.
        - pose proof (concat_map_concat fs) as X. fold A in X. rewrite X in V2. lia. }
      split.
      - intros H r st j a Hr Hj. pose proof (PX r st j a Hr Hj) as V.
        pose proof (rd_concat_off f r st j a Hr Hj) as (V1 & _). apply rd_Some_bound in V1.
        assert (W : Z.testbit (Z.lnot (nneg (zlen f) r j a (prevof st j))) b = true) by (apply H, P5; eauto).
        rewrite Z.lnot_spec in W by lia. now apply negb_true_iff in W.
      - intros H x Hx. apply P5 in Hx as (i & Hi & Hx).
        destruct (rd_in_bound (concat f) i Hi) as (a & Ha).
        destruct (rd_concat_inv f i a Ha) as (r & st & j & W1 & W2 & -> & _).
        rewrite (PX r st j a W1 W2) in Hx. injection Hx as <-. rewrite Z.lnot_spec by lia. now rewrite (H r st j a). }
    eexists. split; [reflexivity|].
    assert (NE : zlen (concat f) =? 0 = false <-> p_nonempty f).
    { split.
      - intros E. pose proof (zlen_nonneg (concat f)). destruct (rd_in_bound (concat f) 0) as (a & Ha); [lia|].
        exists a. eapply rd_In; eauto.
      - intros (a & Ha). apply In_rd in Ha as (i & Hi & _). unfold all_arcs in Hi. lia. }
    assert (FB : forall b, 0 <= b < 9 ->
      Z.testbit (Z.lnot (orif (zlen (concat f) =? 0) kNonempty
        (orif (fold_left Z.land ts 1 =? 0) kMaybeCoaccessible
        (orif (fold_left Z.land qs 1 =? 0) kMaybeAccessible (Z.lnot (fold_left Z.land ps kAll)))))) b = true <->
      clear f b /\ (b = 7 -> forallb (fun x => x =? 1) qs = true) /\ (b = 8 -> forallb (fun x => x =? 1) ts = true) /\
      (b = 1 -> zlen (concat f) =? 0 = false)).
    { intros b Hb. rewrite Z.lnot_spec by lia. rewrite !testbit_orif. rewrite Z.lnot_spec by lia.
      rewrite <- (PA b Hb). rewrite RV, CV.
      change kNonempty with (2 ^ 1). change kMaybeCoaccessible with (2 ^ 8). change kMaybeAccessible with (2 ^ 7).
      rewrite !Z.pow2_bits_eqb by lia.
      destruct (Z.testbit (fold_left Z.land ps kAll) b), (forallb (fun x => x =? 1) qs), (forallb (fun x => x =? 1) ts); lia. }
    constructor.
    - assert (BB : forall p, Z.lnot (orif (zlen (concat f) =? 0) kNonempty
        (orif (fold_left Z.land ts 1 =? 0) kMaybeCoaccessible
        (orif (fold_left Z.land qs 1 =? 0) kMaybeAccessible (Z.lnot p)))) =
        Z.land (Z.lnot (orif (zlen (concat f) =? 0) kNonempty
        (orif (fold_left Z.land ts 1 =? 0) kMaybeCoaccessible
        (orif (fold_left Z.land qs 1 =? 0) kMaybeAccessible 0)))) p).
      { intros p. apply Z.bits_inj'. intros n Hn. rewrite Z.land_spec, !Z.lnot_spec by lia. rewrite !testbit_orif.
        rewrite Z.lnot_spec by lia. rewrite Z.bits_0. destruct (Z.testbit p n); btauto. }
      rewrite BB. pose proof (fold_land_range ps kAll 9 ltac:(lia) ltac:(unfold kAll; lia)) as FR.
      pose proof (land_bound (Z.lnot (orif (zlen (concat f) =? 0) kNonempty
        (orif (fold_left Z.land ts 1 =? 0) kMaybeCoaccessible
        (orif (fold_left Z.land qs 1 =? 0) kMaybeAccessible 0)))) _ 9 ltac:(lia) FR). lia.
    - intros b Hb N1 N7 N8. rewrite FB by auto. intuition lia.
    - rewrite FB by lia. rewrite NE. pose proof (clear_rest f 1). intuition lia.
    - rewrite FB by lia. rewrite RA. pose proof (clear_rest f 7 ltac:(auto)) as CL7.
      unfold acc_c. split.
      + intros (_ & H & _). specialize (H eq_refl). destruct f as [|st f]; [now left|]. right.
        set (g := st :: f) in *. assert (G0 : 0 < zlen g) by (unfold g; rewrite zlen_cons; pose proof (zlen_nonneg f); lia).
        assert (W : p_nonempty g).
        { specialize (H 0 ltac:(lia)). apply (marked_reach fs k g 0 Hk ltac:(lia)) in H as [(_ & H)|(a & Ha & _)]; auto. now exists a. }
        split; auto. intros s Hs'. unfold nstates in Hs'. specialize (H s ltac:(lia)).
        apply (marked_reach fs k g s Hk ltac:(lia)) in H as [(H & _)|H]; [lia|auto].
      + intros H. split; auto. split; [|split; lia]. intros _ j Hj. apply (marked_reach fs k f j Hk Hj).
        destruct H as [->|(H1 & H2)]; [change (zlen (@nil (list arc))) with 0 in Hj; lia|].
        destruct (Z.eq_dec j 0); [auto|]. right. apply H2. unfold nstates. lia.
    - rewrite FB by lia. rewrite CA. pose proof (clear_rest f 8 ltac:(auto)) as CL8.
      unfold coacc_c. split.
      + intros (_ & _ & H & _). specialize (H eq_refl). destruct f as [|st f]; [now left|]. right.
        set (g := st :: f) in *. assert (G0 : 0 < zlen g) by (unfold g; rewrite zlen_cons; pose proof (zlen_nonneg f); lia).
        assert (W : p_nonempty g).
        { destruct (rd_in_bound g 0) as (st0 & Hst0); [lia|]. specialize (H 0 ltac:(lia)).
          apply (marked_coreach fs k g 0 st0 Hk Hst0) in H as [(_ & H)|(a & Ha & _)]; auto.
          exists a. apply in_concat. exists st0. split; auto. eapply rd_In; eauto. }
        split; auto. intros s st0 Hst0 Hs'. pose proof (rd_Some_bound _ _ _ Hst0). specialize (H s ltac:(lia)).
        apply (marked_coreach fs k g s st0 Hk Hst0) in H as [(H & _)|H]; [unfold final in Hs'; lia|auto].
      + intros H. split; auto. split; [lia|]. split; [|lia]. intros _ j Hj.
        destruct (rd_in_bound f j Hj) as (st0 & Hst0). apply (marked_coreach fs k f j st0 Hk Hst0).
        destruct H as [->|(H1 & H2)]; [change (zlen (@nil (list arc))) with 0 in Hj; lia|].
        destruct (Z.eq_dec j (zlen f - 1)); [auto|]. right. apply (H2 j); auto. unfold final. lia. }
  destruct (zrange_map_Some (finalize_body (flat_vec fs) props reach coreach) (zlen fs)) as (per & G1 & G2 & G3).
  { intros i Hi. destruct (rd_in_bound fs i Hi) as (f & Hf). destruct (F i f Hf) as (p & Fp & _). eauto. }
  rewrite G1. exists per, (fold_left Z.land per kAll). pose proof (zlen_nonneg fs).
  split; [reflexivity|]. split; [lia|]. split; [|split].
  - intros k f Hk. destruct (F k f Hk) as (p & Fp & Fb). exists p. split; auto. rewrite G3; auto. now apply rd_Some_bound in Hk.
  - pose proof (fold_land_range per kAll 9 ltac:(lia) ltac:(unfold kAll; lia)). lia.
  - intros b Hb. rewrite testbit_fold_land, kAll_bits by auto. cbn [andb]. apply forallb_forall.
Qed.
