(** * Proofs about the N-axis ragged operations. *)
From Coq Require Import ZArith List Lia Bool Permutation Sorted.
From Coq Require Import ZifyBool.
From Verif Require Import Base RaggedModel RaggedSpec RaggedProofs FsaSpec FsaLemmas
  RaggedOpsModel RaggedOpsSpec.
Import ListNotations.
Open Scope Z_scope.

Lemma mapM_by_rd {A B} (f : A -> option B) l ys : zlen ys = zlen l ->
  (forall i x, rd l i = Some x -> f x = rd ys i) -> mapM f l = Some ys.
Proof.
  revert ys; induction l as [|x l IH]; intros ys Hl H.
  - change (zlen (@nil A)) with 0 in Hl. destruct ys as [|y ys]; auto. rewrite zlen_cons in Hl.
    pose proof (zlen_nonneg ys). lia.
  - destruct ys as [|y ys]; [rewrite zlen_cons in Hl; change (zlen (@nil B)) with 0 in Hl;
      pose proof (zlen_nonneg l); lia|].
    rewrite !zlen_cons in Hl. simpl. rewrite (H 0 x) by reflexivity. rewrite rd_cons_0.
    rewrite (IH ys); auto; [lia|]. intros i z Hi. pose proof (rd_Some_bound _ _ _ Hi).
    rewrite (H (i + 1) z) by (rewrite rd_cons_S; [auto|lia]). apply rd_cons_S; lia.
Qed.

Lemma mapM_zrange {A} (f : Z -> option A) n (l : list A) :
  0 <= n -> zlen l = n -> (forall i, 0 <= i < n -> f i = rd l i) -> mapM f (zrange n) = Some l.
Proof.
  intros Hn Hl H. apply mapM_by_rd; [now rewrite zlen_zrange|].
  intros i x Hi. pose proof (rd_Some_bound _ _ _ Hi) as B. rewrite zlen_zrange in B by auto.
  rewrite rd_zrange in Hi by auto. injection Hi as <-. auto.
Qed.

(** ** sub-lists *)
Definition sub {A} (x : list A) (lo hi : Z) : list A :=
  firstn (Z.to_nat (hi - lo)) (skipn (Z.to_nat lo) x).

Lemma skipn_add {A} (l : list A) : forall n m, skipn m (skipn n l) = skipn (n + m) l.
Proof. induction l; intros [|n] m; simpl; auto. now rewrite !skipn_nil. Qed.

Lemma sub_split {A} (x : list A) lo hi : 0 <= lo <= hi -> hi <= zlen x ->
  x = firstn (Z.to_nat lo) x ++ sub x lo hi ++ skipn (Z.to_nat hi) x.
Proof.
  intros H1 H2. rewrite <- (firstn_skipn (Z.to_nat lo) x) at 1. f_equal.
  rewrite <- (firstn_skipn (Z.to_nat (hi - lo)) (skipn (Z.to_nat lo) x)) at 1.
  unfold sub. f_equal. rewrite skipn_add. f_equal. lia.
Qed.

Lemma zlen_firstn {A} (x : list A) k : 0 <= k <= zlen x -> zlen (firstn (Z.to_nat k) x) = k.
Proof. intros H. unfold zlen in *. rewrite firstn_length. lia. Qed.

Lemma zlen_sub {A} (x : list A) lo hi : 0 <= lo <= hi -> hi <= zlen x -> zlen (sub x lo hi) = hi - lo.
Proof.
  intros H1 H2. unfold sub. apply zlen_firstn. unfold zlen in *. rewrite skipn_length. lia.
Qed.

Lemma rd_sub {A} (x : list A) lo hi j : 0 <= lo <= hi -> hi <= zlen x -> 0 <= j < hi - lo ->
  rd (sub x lo hi) j = rd x (lo + j).
Proof.
  intros H1 H2 H3. rewrite (sub_split x lo hi) at 2 by auto.
  pose proof (zlen_firstn x lo). pose proof (zlen_sub x lo hi H1 H2).
  rewrite rd_app_r by lia. rewrite rd_app_l by lia. f_equal. lia.
Qed.

Lemma firstn_sub {A} (x : list A) lo hi j : 0 <= lo -> 0 <= j <= hi - lo ->
  firstn (Z.to_nat j) (sub x lo hi) = sub x lo (lo + j).
Proof.
  intros H1 H2. unfold sub. rewrite firstn_firstn. f_equal. lia.
Qed.

Lemma off1_app_firstn {A} (x : list (list A)) lo hi : 0 <= lo <= hi -> hi <= zlen x ->
  off1 x hi = off1 x lo + zlen (concat (sub x lo hi)).
Proof.
  intros H1 H2. unfold off1. rewrite <- zlen_app, <- concat_app. do 2 f_equal.
  rewrite (sub_split x lo hi) at 1 by auto. rewrite app_assoc.
  rewrite firstn_app.
  pose proof (zlen_firstn x lo ltac:(lia)). pose proof (zlen_sub x lo hi H1 H2).
  rewrite firstn_all2 by (rewrite app_length; unfold zlen in *; lia).
  replace (_ - _)%nat with 0%nat by (rewrite app_length; unfold zlen in *; lia).
  simpl. now rewrite app_nil_r.
Qed.

Lemma firstn_app_exact {A} (a b : list A) : firstn (length a) (a ++ b) = a.
Proof. rewrite firstn_app, firstn_all, Nat.sub_diag. simpl. apply app_nil_r. Qed.

Lemma skipn_app_exact {A} (a b : list A) : skipn (length a) (a ++ b) = b.
Proof. rewrite skipn_app, skipn_all, Nat.sub_diag. reflexivity. Qed.

Lemma sub_app_mid {A} (a b c : list A) : sub (a ++ b ++ c) (zlen a) (zlen a + zlen b) = b.
Proof.
  unfold sub, zlen. replace (Z.to_nat (Z.of_nat (length a))) with (length a) by lia.
  rewrite skipn_app_exact.
  replace (Z.to_nat _) with (length b) by lia. apply firstn_app_exact.
Qed.

Lemma concat_sub {A} (x : list (list A)) lo hi : 0 <= lo <= hi -> hi <= zlen x ->
  concat (sub x lo hi) = sub (concat x) (off1 x lo) (off1 x hi).
Proof.
  intros H1 H2. rewrite (off1_app_firstn x lo hi) by auto.
  rewrite (sub_split x lo hi) at 2 by auto. rewrite !concat_app. unfold off1.
  symmetry. apply sub_app_mid.
Qed.

Lemma off1_sub {A} (x : list (list A)) lo hi j : 0 <= lo <= hi -> hi <= zlen x -> 0 <= j <= hi - lo ->
  off1 (sub x lo hi) j = off1 x (lo + j) - off1 x lo.
Proof.
  intros H1 H2 H3. unfold off1 at 1. rewrite firstn_sub by lia.
  rewrite (off1_app_firstn x lo (lo + j)) by lia. lia.
Qed.

(** ** IndexAxis0 *)
Definition sub_at {A} (x : list A) (p : Z * Z) : list A := sub x (fst p) (snd p).
Definition range_ok {A} (x : list A) (p : Z * Z) : Prop := 0 <= fst p <= snd p /\ snd p <= zlen x.
Definition nxt_of {A} (x : list (list A)) (p : Z * Z) : Z * Z := (off1 x (fst p), off1 x (snd p)).

Lemma next_offsets_ok {A} (x : list (list A)) cur : Forall (range_ok x) cur ->
  next_offsets (splits_of x) cur = Some (map (nxt_of x) cur) /\
  Forall (range_ok (concat x)) (map (nxt_of x) cur) /\
  map (sub_at (concat x)) (map (nxt_of x) cur) = map (@concat A) (map (sub_at x) cur).
Proof.
  intros H. split; [|split].
  - unfold next_offsets. apply mapM_Some_map. intros [lo hi] Hin.
    rewrite Forall_forall in H. specialize (H _ Hin). destruct H as (H1 & H2). simpl in *.
    rewrite !rd_splits_off by lia. reflexivity.
  - apply Forall_forall. intros q Hq. apply in_map_iff in Hq as (p & <- & Hp).
    rewrite Forall_forall in H. destruct (H _ Hp) as (H1 & H2). unfold range_ok, nxt_of; simpl.
    pose proof (off1_nonneg x (fst p)). pose proof (off1_mono x (fst p) (snd p)).
    pose proof (off1_bound x (snd p)). lia.
  - rewrite !map_map. apply map_ext_in. intros p Hp. rewrite Forall_forall in H.
    destruct (H _ Hp) as (H1 & H2). unfold sub_at, nxt_of; simpl. symmetry. now apply concat_sub.
Qed.

Lemma new_offsets_ok {A} (x : list A) cur : Forall (range_ok x) cur ->
  new_offsets cur = splits_of (map (sub_at x) cur).
Proof.
  intros H. unfold new_offsets, splits_of. f_equal. rewrite map_map. apply map_ext_in.
  intros p Hp. rewrite Forall_forall in H. destruct (H _ Hp). unfold sub_at. now rewrite zlen_sub.
Qed.

Lemma off1_all {A} (x : list (list A)) : off1 x (zlen x) = zlen (concat x).
Proof. unfold off1, zlen. now rewrite Nat2Z.id, firstn_all. Qed.

(** Locating position i of a concatenation of selected sub-lists. *)
Lemma locate {A} (x : list A) cur i : Forall (range_ok x) cur ->
  let s := map (sub_at x) cur in 0 <= i < zlen (concat s) ->
  exists r j p, rd (ids_of s) i = Some r /\ rd (map fst cur) r = Some (fst p) /\ rd cur r = Some p /\
    rd s r = Some (sub_at x p) /\ i = off1 s r + j /\ 0 <= j < snd p - fst p /\ range_ok x p /\
    rd (concat s) i = rd x (fst p + j).
Proof.
  intros H s Hi. destruct (rd_in_bound (concat s) i Hi) as (e & He).
  destruct (rd_concat_inv _ _ _ He) as (r & l & j & K1 & K2 & K3 & K4).
  unfold s in K1. rewrite rd_map in K1. destruct (rd cur r) as [p|] eqn:Ep; [|discriminate].
  simpl in K1. injection K1 as <-. pose proof (rd_Some_bound _ _ _ K2) as B.
  assert (R : range_ok x p) by (rewrite Forall_forall in H; apply H; eapply rd_In; eauto).
  pose proof R as R0. destruct R as (R1 & R2). unfold sub_at in B. rewrite zlen_sub in B by auto.
  exists r, j, p. split; auto. split; [now rewrite rd_map, Ep|]. split; auto.
  split; [unfold s; now rewrite rd_map, Ep|]. split; auto. split; auto. split; auto.
  rewrite He, <- K2. unfold sub_at. apply rd_sub; auto.
Qed.

Lemma index_splits_ok {A} (x : list (list A)) cur : Forall (range_ok x) cur ->
  let s := map (sub_at x) cur in
  index_splits (zlen cur) (map fst cur) (splits_of s) (map fst (map (nxt_of x) cur))
    (splits_of (map (@concat A) s)) (ids_of s) (splits_of x) = Some (splits_of (concat s)).
Proof.
  intros H s. assert (Ls : zlen s = zlen cur) by apply zlen_map.
  pose proof (zlen_nonneg cur). pose proof (zlen_nonneg (concat s)).
  unfold index_splits. rewrite rd_splits_off by lia. rewrite <- Ls, off1_all.
  apply mapM_zrange; [lia|rewrite zlen_splits_of; lia|].
  intros i Hi. rewrite rd_splits_off by lia.
  destruct (i =? zlen (concat s)) eqn:E.
  - rewrite !rd_splits_off by (rewrite ?zlen_map; lia). rewrite off1_all.
    replace (i - zlen (concat s)) with 0 by lia. cbv iota beta. change (0 <=? 0) with true. cbv iota.
    replace (i <? zlen (concat s)) with false by lia.
    replace (zlen s) with (zlen (map (concat (A:=A)) s)) by apply zlen_map.
    rewrite off1_all, concat_map_concat. f_equal. replace i with (zlen (concat s)) by lia.
    now rewrite off1_all.
  - destruct (locate x cur i H) as (r & j & p & K1 & K2 & K3 & K4 & K5 & K6 & K7 & _);
      [fold s; lia|]. fold s in K1, K4, K5. rewrite K1.
    pose proof (rd_Some_bound _ _ _ K4).
    rewrite !rd_splits_off by (rewrite ?zlen_map; lia).
    replace (i - off1 s r) with j by lia. replace (0 <=? j) with true by lia.
    replace (i <? zlen (concat s)) with true by lia. rewrite K2.
    rewrite !rd_map, K3. simpl option_map. cbv iota beta.
    destruct K7 as (R1 & R2). rewrite rd_splits_off by lia.
    f_equal. rewrite K5. rewrite (off1_concat s r (sub_at x p) j) by
      (auto; unfold sub_at; rewrite zlen_sub by auto; lia).
    rewrite <- off1_map_concat. unfold sub_at. rewrite off1_sub by lia.
    unfold nxt_of. simpl fst. lia.
Qed.

Lemma index_elems_ok {A} (x : list A) cur : Forall (range_ok x) cur ->
  let s := map (sub_at x) cur in
  exists el, index_elems (zlen cur) (map fst cur) (splits_of s) (ids_of s) = Some el /\
    mapM (rd x) el = Some (concat s).
Proof.
  intros H s. assert (Ls : zlen s = zlen cur) by apply zlen_map.
  pose proof (zlen_nonneg cur). pose proof (zlen_nonneg (concat s)).
  unfold index_elems. rewrite rd_splits_off by lia. rewrite <- Ls, off1_all.
  match goal with |- exists el, mapM ?g _ = _ /\ _ => set (f := g) end.
  assert (G : forall i, 0 <= i < zlen (concat s) -> exists e, f i = Some e /\ rd x e = rd (concat s) i).
  { intros i Hi. destruct (locate x cur i H) as (r & j & p & K1 & K2 & K3 & K4 & K5 & K6 & K7 & K8);
      [exact Hi|]. fold s in K1, K4, K5, K8. unfold f. rewrite K1. pose proof (rd_Some_bound _ _ _ K4).
    rewrite rd_splits_off by lia. rewrite K2. eexists; split; [reflexivity|].
    rewrite K8. f_equal. lia. }
  assert (T : exists el, mapM f (zrange (zlen (concat s))) = Some el).
  { assert (forall l, (forall i, In i l -> exists e, f i = Some e) -> exists el, mapM f l = Some el).
    { induction l as [|a l IH]; intros Hl; simpl; [eauto|].
      destruct (Hl a) as (e & ->); [now left|]. destruct IH as (el & ->); [intros; apply Hl; now right|]. eauto. }
    apply H2. intros i Hi. apply in_zrange in Hi. destruct (G i Hi) as (e & -> & _). eauto. }
  destruct T as (el & T). exists el. split; auto.
  assert (Le : zlen el = zlen (concat s)).
  { apply mapM_length in T. rewrite zrange_length in T. unfold zlen in *. lia. }
  apply mapM_by_rd; [lia|]. intros i e Hi. destruct (mapM_rd _ _ _ _ _ T Hi) as (i' & I1 & I2).
  pose proof (rd_Some_bound _ _ _ Hi). rewrite rd_zrange in I1 by lia. injection I1 as <-.
  destruct (G i) as (e' & E1 & E2); [lia|]. congruence.
Qed.

Lemma rd_ids_sub {A} (x : list (list A)) lo hi j r : 0 <= lo <= hi -> hi <= zlen x ->
  rd (ids_of (sub x lo hi)) j = Some r -> rd (ids_of x) (off1 x lo + j) = Some (lo + r).
Proof.
  intros H1 H2 H. pose proof (rd_Some_bound _ _ _ H) as B. unfold ids_of in B.
  rewrite zlen_ids_from in B. destruct (rd_in_bound _ _ B) as (e & He).
  destruct (rd_concat_inv _ _ _ He) as (r' & l & k & K1 & K2 & K3 & K4).
  rewrite K4 in H. injection H as <-. pose proof (rd_Some_bound _ _ _ K1) as B1.
  rewrite zlen_sub in B1 by auto. rewrite rd_sub in K1 by lia.
  destruct (rd_concat_off _ _ _ _ _ K1 K2) as (_ & E).
  rewrite off1_sub in K3 by lia. rewrite <- E. f_equal. lia.
Qed.

Lemma rd_ids_concat {A} (ll : list (list (list A))) r l j q : rd ll r = Some l -> rd (ids_of l) j = Some q ->
  rd (ids_of (concat ll)) (off1 (map (@concat A) ll) r + j) = Some (off1 ll r + q).
Proof.
  intros H Hq. pose proof (rd_Some_bound _ _ _ Hq) as B. unfold ids_of in B.
  rewrite zlen_ids_from in B. destruct (rd_in_bound _ _ B) as (e & He).
  destruct (rd_concat_inv _ _ _ He) as (r' & l' & k & K1 & K2 & K3 & K4).
  rewrite K4 in Hq. injection Hq as <-.
  destruct (rd_concat_off _ _ _ _ _ H K1) as (E1 & _).
  destruct (rd_concat_off _ _ _ _ _ E1 K2) as (_ & E2).
  pose proof (rd_Some_bound _ _ _ K1).
  rewrite (off1_concat ll r l r') in E2 by (auto; lia). rewrite <- off1_map_concat in E2.
  rewrite <- E2. f_equal. lia.
Qed.

Lemma index_ids_ok {A} (xp : list (list A)) prev : Forall (range_ok xp) prev ->
  let sp := map (sub_at xp) prev in
  let cur := map (nxt_of xp) prev in
  index_ids (zlen cur) (map fst prev) (splits_of sp) (map fst cur) (splits_of (map (@concat A) sp))
    (ids_of (map (@concat A) sp)) (ids_of xp) = Some (ids_of (concat sp)).
Proof.
  intros H sp cur. destruct (next_offsets_ok xp prev H) as (_ & Hc & Hs).
  fold sp in Hs. fold cur in Hc, Hs. set (s := map (concat (A:=A)) sp) in *.
  assert (Ls : zlen s = zlen cur) by (unfold s, sp, cur; now rewrite !zlen_map).
  pose proof (zlen_nonneg cur). pose proof (zlen_nonneg (concat s)).
  assert (Cc : concat s = concat (concat sp)) by apply concat_map_concat.
  unfold index_ids. rewrite rd_splits_off by lia. rewrite <- Ls, off1_all.
  apply mapM_zrange; [lia|unfold ids_of; now rewrite zlen_ids_from, Cc|].
  intros i Hi. destruct (locate (concat xp) cur i Hc) as (r & j & p & K1 & K2 & K3 & K4 & K5 & K6 & K7 & K8);
    [rewrite Hs; exact Hi|]. rewrite Hs in K1, K4, K5. rewrite K1. pose proof (rd_Some_bound _ _ _ K4).
  assert (Lsp : zlen sp = zlen s) by (unfold s; now rewrite zlen_map).
  rewrite !rd_splits_off by lia. unfold cur in K3. rewrite rd_map in K3.
  destruct (rd prev r) as [q|] eqn:Eq; [|discriminate]. simpl in K3. injection K3 as <-.
  rewrite rd_map, Eq. simpl option_map. cbv iota beta. rewrite K2.
  assert (Rq : range_ok xp q) by (rewrite Forall_forall in H; apply H; eapply rd_In; eauto).
  destruct Rq as (Q1 & Q2).
  assert (Esp : rd sp r = Some (sub_at xp q)) by (unfold sp; now rewrite rd_map, Eq).
  assert (Bj : 0 <= j < zlen (concat (sub_at xp q))).
  { unfold s in K4. rewrite rd_map, Esp in K4. simpl in K4. injection K4 as K4. rewrite K4.
    unfold sub_at. destruct K7. rewrite zlen_sub; auto. }
  destruct (rd_in_bound (ids_of (sub_at xp q)) j) as (t & Ht).
  { unfold ids_of. rewrite zlen_ids_from. auto. }
  pose proof (rd_ids_sub xp _ _ _ _ Q1 Q2 Ht) as E1. unfold nxt_of in K6; simpl fst.
  replace (off1 xp (fst q) + (i - off1 s r)) with (off1 xp (fst q) + j) by lia.
  rewrite E1. pose proof (rd_ids_concat sp r _ _ _ Esp Ht) as E2. fold s in E2.
  rewrite <- K5 in E2. rewrite E2. f_equal. lia.
Qed.

Lemma index_axes_ok {A} (m : nat) : forall (x : list (nest A m)) (first : bool) prev nprev cur nrs ids nids,
  Forall (range_ok x) cur -> let s := map (sub_at x) cur in
  (if first then Some (ids_of s)
   else index_ids (zlen cur) (map fst prev) nprev (map fst cur) (splits_of s) (ids_of s) ids) = Some nids ->
  exists el,
  index_axes (zlen cur) first prev nprev cur (splits_of s) nrs ids (layers_of m x) =
    Some (mk_layer nrs nids :: layers_of m (concat s), el) /\
  mapM (rd (values_of m x)) el = Some (values_of m (concat s)).
Proof.
  induction m as [|m IH]; intros x first prev nprev cur nrs ids nids H s Hn;
    assert (Ls : zlen s = zlen cur) by apply zlen_map;
    pose proof (zlen_nonneg cur);
    assert (T : rd (splits_of s) (zlen cur) = Some (zlen (concat s)))
      by (rewrite rd_splits_off by lia; now rewrite <- Ls, off1_all).
  - cbn [layers_of values_of index_axes]. rewrite T.
    rewrite row_ids_of_splits. fold s in Hn. rewrite Hn.
    destruct (index_elems_ok x cur H) as (el & E1 & E2). fold s in E1, E2.
    rewrite E1. exists el. split; auto.
  - assert (H' : Forall (range_ok (A:=nest A (S m)) x) cur) by exact H.
    change (nest A (S m)) with (list (nest A m)) in x, H, s, T, Ls, Hn.
    change (exists el, index_axes (zlen cur) first prev nprev cur (splits_of s) nrs ids
              (mk_layer (splits_of x) (ids_of x) :: layers_of m (concat x)) =
            Some (mk_layer nrs nids :: mk_layer (splits_of (concat s)) (ids_of (concat s)) ::
                  layers_of m (concat (concat s)), el) /\
            mapM (rd (values_of m (concat x))) el = Some (values_of m (concat (concat s)))).
    cbn [index_axes]. rewrite T, row_ids_of_splits. fold s in Hn. rewrite Hn.
    cbn [l_rs l_ids]. destruct (next_offsets_ok x cur H) as (N1 & N2 & N3).
    rewrite N1. rewrite (new_offsets_ok (concat x)) by exact N2. fold s in N3. rewrite N3.
    pose proof (index_splits_ok x cur H) as S1. fold s in S1. rewrite S1.
    pose proof (index_ids_ok x cur H) as I1. fold s in I1.
    specialize (IH (concat x) false cur (splits_of s) (map (nxt_of x) cur) (splits_of (concat s))
                   (ids_of x) (ids_of (concat s)) N2).
    rewrite N3 in IH. cbv zeta in IH. specialize (IH I1).
    destruct IH as (el & E1 & E2). rewrite zlen_map in E1. rewrite E1.
    exists el. rewrite concat_map_concat in E1, E2 |- *. cbn [fst snd]. auto.
Qed.

Lemma off1_0 {A} (ll : list (list A)) : off1 ll 0 = 0.
Proof. reflexivity. Qed.

Lemma empty_layers (A : Type) m : layers_of (A:=A) m [] = map (fun _ => mk_layer [0] []) (layers_of (A:=A) m []).
Proof. induction m; simpl; auto. f_equal. exact IHm. Qed.

Lemma layers_len {A} m : forall (x y : list (nest A m)), length (layers_of m x) = length (layers_of m y).
Proof. induction m; intros; simpl; auto. Qed.

Lemma map_const_len {B C} (c : C) (l l' : list B) : length l = length l' ->
  map (fun _ => c) l = map (fun _ => c) l'.
Proof. revert l'; induction l; intros [|y l'] H; simpl in *; try discriminate; auto. f_equal; auto. Qed.

Lemma values_of_nil (A : Type) m : values_of (A:=A) m [] = [].
Proof. induction m; simpl; auto. Qed.

Theorem index_axis0_ok {A} (m : nat) (x : list (nest A (S m))) idx : index_ok x idx ->
  exists el,
    index_axis0 (layers_of (S m) x) idx = Some (layers_of (A:=A) (S m) (map (pick x) idx), el) /\
    mapM (rd (values_of (S m) x)) el = Some (values_of (A:=A) (S m) (map (pick x) idx)).
Proof.
  intros H. change (nest A (S m)) with (list (nest A m)) in x.
  change (exists el, index_axis0 (mk_layer (splits_of x) (ids_of x) :: layers_of m (concat x)) idx =
     Some (mk_layer (splits_of (map (pick x) idx)) (ids_of (map (pick x) idx)) ::
           layers_of m (concat (map (pick x) idx)), el) /\
     mapM (rd (values_of m (concat x))) el = Some (values_of m (concat (map (pick x) idx)))).
  unfold index_axis0. cbv zeta.
  destruct (zlen idx =? 0) eqn:E0.
  - assert (idx = []) by (destruct idx as [|a idx]; auto; rewrite zlen_cons in E0; pose proof (zlen_nonneg idx); lia).
    subst idx. exists []. split; [|simpl; now rewrite values_of_nil].
    cbn [map concat]. rewrite (map_const_len _ _ (layers_of (A:=A) m [])) by apply layers_len.
    rewrite <- empty_layers. reflexivity.
  - cbn [l_rs l_ids]. change (index_ok (A:=list (nest A m)) x idx) in H.
    set (cur1 := map (fun j => if j =? -1 then (0, 0) else nxt_of x (j, j + 1)) idx).
    assert (N1 : next_offsets (splits_of x) (first_offsets idx) = Some cur1).
    { unfold first_offsets, cur1, next_offsets. apply mapM_by_rd; [now rewrite !zlen_map|].
      intros i p Hp. rewrite rd_map in Hp |- *. destruct (rd idx i) as [j|] eqn:Ej; [|discriminate].
      simpl in *. injection Hp as <-. pose proof (zlen_nonneg x).
      assert (Hj : -1 <= j < zlen x).
      { unfold index_ok in H. rewrite Forall_forall in H. apply H. eapply rd_In; eauto. }
      simpl fst; simpl snd. destruct (j =? -1) eqn:Em.
      - replace (j + 1) with 0 by lia. rewrite rd_splits_off by lia. now rewrite off1_0.
      - rewrite !rd_splits_off by lia. reflexivity. }
    rewrite N1. set (y := map (pick x) idx).
    assert (R : Forall (range_ok (concat x)) cur1).
    { apply Forall_forall. intros p Hp. apply in_map_iff in Hp as (j & <- & Hj).
      unfold index_ok in H. rewrite Forall_forall in H. specialize (H j Hj).
      destruct (j =? -1); unfold range_ok, nxt_of; simpl.
      - pose proof (zlen_nonneg (concat x)). lia.
      - pose proof (off1_nonneg x j). pose proof (off1_mono x j (j + 1)). pose proof (off1_bound x (j + 1)). lia. }
    assert (Sy : map (sub_at (concat x)) cur1 = y).
    { unfold cur1, y. rewrite map_map. apply map_ext_in. intros j Hj.
      unfold index_ok in H. rewrite Forall_forall in H. specialize (H j Hj).
      unfold sub_at, pick. destruct (j =? -1) eqn:Em.
      - replace j with (-1) by lia. reflexivity.
      - destruct (rd_in_bound x j) as (l & Hl); [lia|]. rewrite Hl. unfold nxt_of; simpl.
        rewrite <- concat_sub by lia. unfold sub.
        replace (Z.to_nat (j + 1 - j)) with 1%nat by lia.
        unfold rd in Hl. replace (j <? 0) with false in Hl by lia.
        clear - Hl. revert Hl. generalize (Z.to_nat j). induction x as [|a x IHx]; intros [|k] Hl; simpl in *; try discriminate.
        + injection Hl as ->. now rewrite app_nil_r.
        + now apply IHx. }
    rewrite (new_offsets_ok (concat x)) by exact R. rewrite Sy.
    assert (Lc : zlen cur1 = zlen idx) by apply zlen_map. rewrite <- Lc.
    pose proof (index_axes_ok m (concat x) true (first_offsets idx) (zrange (zlen cur1 + 1)) cur1
                  (splits_of y) (ids_of x) (ids_of y) R) as G.
    cbv zeta in G. rewrite Sy in G. exact (G eq_refl).
Qed.

(** ** RemoveAxis *)
Lemma compose_layers_ok {B} (x : list (list (list B))) :
  compose_layers (mk_layer (splits_of x) (ids_of x))
                 (mk_layer (splits_of (concat x)) (ids_of (concat x))) =
  Some (mk_layer (splits_of (map (@concat B) x)) (ids_of (map (@concat B) x))).
Proof.
  unfold compose_layers. cbn [l_ids l_rs].
  rewrite (mapM_by_rd _ _ (ids_of (map (@concat B) x))).
  2:{ unfold ids_of. now rewrite !zlen_ids_from, concat_map_concat. }
  2:{ intros i q Hq. pose proof (rd_Some_bound _ _ _ Hq) as B0. unfold ids_of in B0.
      rewrite zlen_ids_from in B0. destruct (rd_in_bound _ _ B0) as (e & He).
      destruct (rd_concat3 _ _ _ He) as (k & f & r & st & j & K1 & K2 & K3 & K4 & K5 & K6).
      rewrite K4 in Hq. injection Hq as <-. rewrite K5.
      assert (E : rd (map (@concat B) x) k = Some (concat f)) by now rewrite rd_map, K1.
      destruct (rd_concat_off _ _ _ _ _ K2 K3) as (E2 & _).
      destruct (rd_concat_off _ _ _ _ _ E E2) as (_ & E3). rewrite <- E3. f_equal. lia. }
  rewrite (mapM_by_rd _ _ (splits_of (map (@concat B) x))).
  - reflexivity.
  - now rewrite !zlen_splits_of, zlen_map.
  - intros i q Hq. pose proof (rd_Some_bound _ _ _ Hq) as B0. rewrite zlen_splits_of in B0.
    rewrite rd_splits_off in Hq by lia. injection Hq as <-.
    pose proof (off1_nonneg x i). pose proof (off1_bound x i).
    rewrite !rd_splits_off by (rewrite ?zlen_map; lia). f_equal.
    rewrite off1_map_concat. unfold off1 at 1.
    replace (firstn (Z.to_nat (off1 x i)) (concat x)) with (concat (firstn (Z.to_nat i) x)); auto.
    unfold off1, zlen. rewrite Nat2Z.id.
    rewrite <- (firstn_skipn (Z.to_nat i) x) at 3. rewrite concat_app. now rewrite firstn_app_exact.
Qed.

Lemma zlen_flatten_S {A} k n (x : list (nest A (S (S n)))) : zlen (flatten_axis (S k) (S n) x) = zlen x.
Proof. apply zlen_map. Qed.

Lemma splits_of_zlen {A B} (x : list (list A)) (y : list (list B)) :
  map zlen x = map zlen y -> splits_of x = splits_of y /\ ids_of x = ids_of y.
Proof.
  intros H. split; [unfold splits_of; congruence|]. unfold ids_of. generalize 0.
  revert y H; induction x as [|a x IH]; intros [|b y] H z; simpl in *; try discriminate; auto.
  injection H as H1 H2. rewrite (IH y); auto. f_equal. f_equal. unfold zlen in H1. lia.
Qed.

Lemma flatten_concat {A} k : forall n (x : list (nest A (S (S n)))),
  concat (map (flatten_axis k n) x) = flatten_axis k n (concat x).
Proof.
  intros n x. destruct k as [|k]; [|destruct n as [|n]].
  - simpl. destruct n; apply concat_map_concat.
  - apply concat_map_concat.
  - simpl. change (concat (map (map (flatten_axis k n)) x) = map (flatten_axis k n) (concat x)).
    symmetry. apply concat_map.
Qed.

Lemma remove_axis_cons l ls k : (1 <? zlen ls) = true -> (Z.of_nat (S k) <=? zlen ls) = true ->
  remove_axis (l :: ls) (S (S k)) = (r <- remove_axis ls (S k);; Some (l :: r)).
Proof.
  intros H1 H2. unfold remove_axis. rewrite zlen_cons. rewrite H1, H2.
  replace (1 <? 1 + zlen ls) with true by lia.
  replace (Z.of_nat (S (S k)) <=? 1 + zlen ls) with true by lia.
  simpl nth_error. destruct (nth_error ls k) as [a|]; [|reflexivity].
  destruct ls as [|b ls]; simpl nth_error.
  { destruct k; reflexivity. }
  destruct (nth_error ls k); [|reflexivity]. destruct (compose_layers a l0); reflexivity.
Qed.

Lemma zlen_layers {A} m : forall (z : list (nest A m)), zlen (layers_of m z) = Z.of_nat m.
Proof. induction m; intros z; simpl; auto. rewrite zlen_cons, IHm. lia. Qed.

Theorem remove_axis_ok {A} (k : nat) : forall n (x : list (nest A (S (S n)))), (k <= S n)%nat ->
  remove_axis (layers_of (S (S n)) x) k = Some (layers_of (A:=A) (S n) (flatten_axis k (S n) x)) /\
  values_of (A:=A) (S n) (flatten_axis k (S n) x) = values_of (S (S n)) x.
Proof.
  induction k as [|k IH]; intros n x Hk.
  - split; [|reflexivity]. unfold remove_axis.
    rewrite zlen_layers. replace (1 <? _) with true by lia. replace (Z.of_nat 0 <=? _) with true by lia. reflexivity.
  - destruct k as [|k].
    + change (nest A (S (S n))) with (list (list (nest A n))) in x.
      pose proof (compose_layers_ok x) as E. split.
      * change (remove_axis (mk_layer (splits_of x) (ids_of x) ::
            mk_layer (splits_of (concat x)) (ids_of (concat x)) :: layers_of n (concat (concat x))) 1 =
          Some (mk_layer (splits_of (map (@concat _) x)) (ids_of (map (@concat _) x)) ::
                layers_of n (concat (map (@concat _) x)))).
        unfold remove_axis. rewrite !zlen_cons. pose proof (zlen_nonneg (layers_of n (concat (concat x)))).
        replace (1 <? _) with true by lia. replace (Z.of_nat 1 <=? _) with true by lia.
        cbn [nth_error]. rewrite E. cbn [firstn skipn app]. now rewrite concat_map_concat.
      * change (values_of (A:=A) n (concat (map (@concat _) x)) = values_of (A:=A) n (concat (concat x))).
        now rewrite concat_map_concat.
    + destruct n as [|n]; [lia|].
      change (nest A (S (S (S n)))) with (list (list (list (nest A n)))) in x.
      destruct (IH n (concat x)) as (I1 & I2); [lia|].
      set (y := flatten_axis (A:=A) (S (S k)) (S (S n)) x).
      assert (Y : y = map (flatten_axis (A:=A) (S k) (S n)) x) by reflexivity.
      assert (C : concat y = flatten_axis (A:=A) (S k) (S n) (concat x)).
      { rewrite Y. apply (flatten_concat (A:=A) (S k) (S n) x). }
      assert (L : splits_of y = splits_of x /\ ids_of y = ids_of x).
      { apply splits_of_zlen. rewrite Y, map_map. apply map_ext. intros a. apply zlen_map. }
      split.
      * change (remove_axis (mk_layer (splits_of x) (ids_of x) :: layers_of (A:=A) (S (S n)) (concat x)) (S (S k)) =
                Some (mk_layer (splits_of y) (ids_of y) :: layers_of (A:=A) (S n) (concat y))).
        rewrite remove_axis_cons.
        -- rewrite I1. destruct L as (-> & ->). now rewrite C.
        -- rewrite zlen_layers. lia.
        -- rewrite zlen_layers. lia.
      * change (values_of (A:=A) (S n) (concat y) = values_of (A:=A) (S (S n)) (concat x)).
        now rewrite C.
Qed.

(** ** Index by a ragged index; ragged compose_arc_maps *)
Theorem ragged_index_ragged_ok {A} (x : list (list A)) (y : list (list Z)) :
  Forall (index_ok x) y ->
  ragged_index_ragged (layers_of (A:=A) 1 x) (concat x) (layers_of (A:=Z) 1 y) (concat y) true =
    let z := map (fun js => concat (map (pick x) js)) y in
    Some (layers_of (A:=A) 1 z, concat z).
Proof.
  intros H. unfold ragged_index_ragged, ragged_index.
  assert (Hc : index_ok x (concat y)).
  { unfold index_ok. apply Forall_forall. intros j Hj. apply in_concat in Hj as (l & Hl & Hj).
    rewrite Forall_forall in H. specialize (H _ Hl). unfold index_ok in H. rewrite Forall_forall in H. auto. }
  destruct (index_axis0_ok (A:=A) 0 x (concat y) Hc) as (el & E1 & E2).
  change (values_of (A:=A) 1 x) with (concat x) in E2.
  change (values_of (A:=A) 1 (map (pick x) (concat y))) with (concat (map (pick x) (concat y))) in E2.
  rewrite E1. cbn [snd fst]. rewrite E2. cbn [snd fst].
  set (w := map (map (pick x)) y).
  assert (Cw : concat w = map (pick x) (concat y)) by (unfold w; symmetry; apply concat_map).
  assert (Lw : splits_of w = splits_of y /\ ids_of w = ids_of y).
  { apply splits_of_zlen. unfold w. rewrite map_map. apply map_ext. intros; apply zlen_map. }
  destruct Lw as (L1 & L2).
  assert (G : (layers_of (A:=Z) 1 y ++ layers_of (A:=A) 1 (map (pick x) (concat y)))%list = layers_of (A:=A) 2 w).
  { simpl. rewrite L1, L2, Cw. reflexivity. }
  rewrite G. change (length (layers_of (A:=A) 2 w) - 1)%nat with 1%nat.
  destruct (remove_axis_ok (A:=A) 1 0 w) as (R1 & _); [lia|].
  rewrite R1. change (flatten_axis (A:=A) 1 1 w) with (map (@concat A) w).
  rewrite <- Cw. rewrite <- concat_map_concat. unfold w. rewrite map_map. reflexivity.
Qed.
