From Coq Require Import ZArith List Lia Bool.
From Coq Require Import ZifyBool ZifyNat.
From Verif Require Import Base RaggedModel RaggedSpec RaggedProofs FsaSpec.
Import ListNotations.
Open Scope Z_scope.

Lemma path_inv A s p t : path A s p t ->
  (p = [] /\ s = t) \/
  exists a p', p = a :: p' /\ In a A /\ src a = s /\ path A (dst a) p' t.
Proof. intros H; inversion H; subst; eauto 10. Qed.

Lemma path_step A s a p t : In a A -> src a = s -> path A (dst a) p t -> path A s (a :: p) t.
Proof. intros H <- H1; now constructor. Qed.

Lemma path_app A s p m q t : path A s p m -> path A m q t -> path A s (p ++ q) t.
Proof. induction 1; simpl; auto. intros; constructor; auto. Qed.

Lemma path_app_inv A p q : forall s t, path A s (p ++ q) t ->
  exists m, path A s p m /\ path A m q t.
Proof.
  induction p as [|a p IH]; simpl; intros s t H.
  - exists s; split; auto; constructor.
  - inversion H as [|a' p' t' Ha Hp]; subst. destruct (IH _ _ Hp) as (m & H1 & H2).
    exists m; split; auto. now constructor.
Qed.

Lemma path_incl A B s p t : (forall a, In a A -> In a B) -> path A s p t -> path B s p t.
Proof. intros HI; induction 1; constructor; auto. Qed.

Lemma path_arcs_in A s p t : path A s p t -> Forall (fun a => In a A) p.
Proof. induction 1; constructor; auto. Qed.

Lemma path_one A a : In a A -> path A (src a) [a] (dst a).
Proof. intros; constructor; auto; constructor. Qed.

Lemma labels_app p q : labels (p ++ q) = labels p ++ labels q.
Proof. apply map_app. Qed.

Lemma score_app p q : score (p ++ q) = score p + score q.
Proof. unfold score. now rewrite map_app, zsum_app. Qed.

Lemma strip_app w v : strip (w ++ v) = strip w ++ strip v.
Proof. apply filter_app. Qed.

Lemma score_cons a p : score (a :: p) = sc a + score p.
Proof. reflexivity. Qed.

Lemma labels_cons a p : labels (a :: p) = lab a :: labels p.
Proof. reflexivity. Qed.

(** flat form *)
Lemma map_zlen_nonneg {A} (ll : list (list A)) : Forall (fun x => 0 <= x) (map zlen ll).
Proof. induction ll; simpl; constructor; auto using zlen_nonneg. Qed.

Lemma zsum_zlen_concat {A} (ll : list (list A)) : zsum (map zlen ll) = zlen (concat ll).
Proof. induction ll; simpl; auto. rewrite zlen_app; lia. Qed.

Lemma splits_of_ok {A} (ll : list (list A)) : row_splits_ok (splits_of ll) (zlen (concat ll)).
Proof.
  unfold splits_of. rewrite <- zsum_zlen_concat. apply exsum_row_splits_ok, map_zlen_nonneg.
Qed.

Lemma zlen_splits_of {A} (ll : list (list A)) : zlen (splits_of ll) = zlen ll + 1.
Proof. unfold splits_of. now rewrite zlen_exsum, zlen_map. Qed.

Lemma ids_sizes_ids_from {A} (ll : list (list A)) : forall r,
  ids_sizes r (map zlen ll) = ids_from r ll.
Proof.
  induction ll as [|l t IH]; intros r; simpl; auto. rewrite IH. do 2 f_equal. unfold zlen; lia.
Qed.

Lemma row_ids_of_splits {A} (ll : list (list A)) :
  row_splits_to_row_ids (splits_of ll) (zlen (concat ll)) = Some (ids_of ll).
Proof.
  unfold splits_of. rewrite row_splits_to_row_ids_sizes;
    auto using map_zlen_nonneg, zsum_zlen_concat.
  f_equal. apply ids_sizes_ids_from.
Qed.

Lemma splits_of_row_ids {A} (ll : list (list A)) :
  row_ids_to_row_splits (ids_of ll) (zlen ll) = Some (splits_of ll).
Proof.
  unfold ids_of. rewrite <- ids_sizes_ids_from. rewrite <- (zlen_map zlen ll).
  apply row_ids_to_row_splits_sizes, map_zlen_nonneg.
Qed.

Lemma zlen_ids_from {A} (ll : list (list A)) : forall r, zlen (ids_from r ll) = zlen (concat ll).
Proof.
  intros r. rewrite <- ids_sizes_ids_from, zlen_ids_sizes by apply map_zlen_nonneg.
  apply zsum_zlen_concat.
Qed.

Lemma rd_splits_of {A} (ll : list (list A)) i : 0 <= i <= zlen ll ->
  rd (splits_of ll) i = Some (zlen (concat (firstn (Z.to_nat i) ll))).
Proof.
  intros H; unfold splits_of. rewrite rd_exsum by (rewrite zlen_map; auto).
  now rewrite firstn_map, zsum_zlen_concat.
Qed.

Lemma rd_skipn {A} (l : list A) i x : rd l i = Some x ->
  l = firstn (Z.to_nat i) l ++ x :: skipn (Z.to_nat (i + 1)) l.
Proof.
  intros H. pose proof (rd_Some_bound _ _ _ H).
  rewrite <- (firstn_skipn (Z.to_nat i) l) at 1. f_equal.
  unfold rd in H. replace (i <? 0) with false in H by lia.
  replace (Z.to_nat (i + 1)) with (S (Z.to_nat i)) by lia.
  clear - H. revert H. generalize (Z.to_nat i) as k. induction l as [|y l IH]; intros [|k] H; simpl in *; try discriminate.
  - now injection H as ->.
  - now apply IH.
Qed.

(** Position of an element of the concatenation. *)
Lemma rd_concat {A} (ll : list (list A)) i x : rd (concat ll) i = Some x ->
  exists r l j, rd ll r = Some l /\ rd l j = Some x /\
    i = zlen (concat (firstn (Z.to_nat r) ll)) + j /\
    rd (ids_of ll) i = Some r.
Proof.
  unfold ids_of.
  assert (G : forall k i, rd (concat ll) i = Some x ->
    exists r l j, rd ll r = Some l /\ rd l j = Some x /\
    i = zlen (concat (firstn (Z.to_nat r) ll)) + j /\
    rd (ids_from k ll) i = Some (k + r)).
  { induction ll as [|l t IH]; intros k i' H; simpl in *; [now rewrite rd_nil in H|].
    rewrite rd_app in H. destruct (i' <? zlen l) eqn:E.
    - pose proof (rd_Some_bound _ _ _ H).
      exists 0, l, i'. rewrite rd_cons_0. repeat split; auto.
      + rewrite rd_app_l by (rewrite zlen_repeat; unfold zlen in *; lia).
        rewrite rd_repeat by (unfold zlen in *; lia). f_equal; lia.
    - destruct (IH (k + 1) _ H) as (r & l' & j & H1 & H2 & H3 & H4).
      pose proof (rd_Some_bound _ _ _ H1). pose proof (rd_Some_bound _ _ _ H).
      exists (r + 1), l', j. rewrite rd_cons_S by lia. repeat split; auto.
      + replace (Z.to_nat (r + 1)) with (S (Z.to_nat r)) by lia. simpl. rewrite zlen_app. lia.
      + rewrite rd_app_r by (rewrite zlen_repeat; unfold zlen in *; lia).
        rewrite zlen_repeat. fold (zlen l). rewrite H4. f_equal; lia. }
  intros H. destruct (G 0 i H) as (r & l & j & H1 & H2 & H3 & H4).
  exists r, l, j. auto.
Qed.

Lemma rd_concat_at {A} (ll : list (list A)) r l j : rd ll r = Some l -> 0 <= j < zlen l ->
  rd (concat ll) (zlen (concat (firstn (Z.to_nat r) ll)) + j) = rd l j.
Proof.
  intros H Hj. rewrite (rd_skipn ll r l H) at 1. rewrite concat_app. simpl.
  pose proof (zlen_nonneg (concat (firstn (Z.to_nat r) ll))).
  rewrite rd_app_r by lia. rewrite rd_app_l by lia. f_equal; lia.
Qed.

Lemma splits_of_next {A} (ll : list (list A)) r l : rd ll r = Some l ->
  rd (splits_of ll) (r + 1) = Some (zlen (concat (firstn (Z.to_nat r) ll)) + zlen l).
Proof.
  intros H. pose proof (rd_Some_bound _ _ _ H). rewrite rd_splits_of by lia. f_equal.
  replace (Z.to_nat (r + 1)) with (S (Z.to_nat r)) by lia.
  rewrite (firstn_snoc ll (Z.to_nat r) l).
  - rewrite concat_app. simpl. rewrite app_nil_r. apply zlen_app.
  - unfold rd in H. replace (r <? 0) with false in H by lia. auto.
Qed.

Lemma ids_from_src f : forall r,
  (forall i st a, rd f i = Some st -> In a st -> src a = r + i) ->
  ids_from r f = map src (concat f).
Proof.
  induction f as [|st t IH]; intros r H; simpl; auto.
  rewrite map_app. f_equal.
  - assert (G : forall a, In a st -> src a = r).
    { intros a Ha. rewrite (H 0 st a); auto; lia. }
    clear - G. induction st as [|a st IHs]; simpl; auto.
    rewrite G by (now left). f_equal. apply IHs. intros; apply G; now right.
  - apply IH. intros i st' a Hi Ha. pose proof (rd_Some_bound _ _ _ Hi).
    rewrite (H (i + 1) st' a); auto; try lia. now rewrite rd_cons_S by lia.
Qed.

Lemma ids_of_src f : src_ok f -> ids_of f = map src (concat f).
Proof. intros H; apply ids_from_src. intros; now apply (H i st). Qed.

Lemma src_ok_range f a : src_ok f -> In a (all_arcs f) -> 0 <= src a < nstates f.
Proof.
  intros H Ha. apply in_concat in Ha as (st & Hst & Ha).
  apply In_rd in Hst as (i & Hi & E). rewrite (H i st a E Ha). auto.
Qed.

(** Decision procedure for [valid], used by the examples. *)
Definition src_okb (f : nfsa) : bool :=
  forallb (fun b => b) (imap (fun i st => forallb (fun a => src a =? i) st) 0 f).
Definition validb (f : nfsa) : bool :=
  src_okb f && (2 <=? nstates f) &&
  forallb (fun a => (0 <=? dst a) && (dst a <? nstates f) && (-1 <=? lab a) &&
                    Bool.eqb (lab a =? -1) (dst a =? final f) && negb (src a =? final f)) (all_arcs f).

Lemma src_okb_ok f : src_okb f = true -> src_ok f.
Proof.
  unfold src_okb. rewrite forallb_forall. intros H i st a Hi Ha.
  assert (G : rd (imap (fun i st => forallb (fun a => src a =? i) st) 0 f) i =
              Some (forallb (fun a => src a =? i) st)).
  { rewrite rd_imap, Hi. reflexivity. }
  apply rd_In, H in G. rewrite forallb_forall in G. apply G in Ha. lia.
Qed.

Lemma validb_ok f : validb f = true -> valid f.
Proof.
  unfold validb. rewrite !andb_true_iff. intros ((H1 & H2) & H3).
  split; [now apply src_okb_ok|]. split; [lia|].
  rewrite forallb_forall in H3. intros a Ha. apply H3 in Ha.
  rewrite !andb_true_iff in Ha. destruct Ha as ((((A1 & A2) & A3) & A4) & A5).
  apply Bool.eqb_prop in A4. lia.
Qed.

(** Positions in a list of lists of lists. *)
Lemma firstn_concat {A} (ll : list (list A)) k l r : rd ll k = Some l -> 0 <= r <= zlen l ->
  firstn (Z.to_nat (zlen (concat (firstn (Z.to_nat k) ll)) + r)) (concat ll) =
  concat (firstn (Z.to_nat k) ll) ++ firstn (Z.to_nat r) l.
Proof.
  intros H Hr. rewrite (rd_skipn ll k l H) at 2. rewrite concat_app. simpl.
  rewrite firstn_app.
  pose proof (zlen_nonneg (concat (firstn (Z.to_nat k) ll))).
  rewrite firstn_all2 by (unfold zlen in *; lia). f_equal.
  replace (Z.to_nat (zlen (concat (firstn (Z.to_nat k) ll)) + r) -
           length (concat (firstn (Z.to_nat k) ll)))%nat with (Z.to_nat r) by (unfold zlen in *; lia).
  rewrite firstn_app. replace (Z.to_nat r - length l)%nat with 0%nat by (unfold zlen in *; lia).
  simpl. apply app_nil_r.
Qed.

Definition off1 {A} (ll : list (list A)) (k : Z) : Z := zlen (concat (firstn (Z.to_nat k) ll)).

Lemma off1_nonneg {A} (ll : list (list A)) k : 0 <= off1 ll k.
Proof. apply zlen_nonneg. Qed.

Lemma off1_next {A} (ll : list (list A)) k l : rd ll k = Some l -> off1 ll (k + 1) = off1 ll k + zlen l.
Proof.
  intros H. pose proof (rd_Some_bound _ _ _ H). pose proof (splits_of_next ll k l H) as E.
  rewrite rd_splits_of in E by lia. injection E as E. exact E.
Qed.

Lemma off1_mono {A} (ll : list (list A)) k k' : k <= k' -> off1 ll k <= off1 ll k'.
Proof.
  intros H. unfold off1. replace (Z.to_nat k') with (Z.to_nat k + (Z.to_nat k' - Z.to_nat k))%nat by lia.
  generalize (Z.to_nat k' - Z.to_nat k)%nat as d. generalize (Z.to_nat k) as n. clear. intros n d.
  assert (G : exists t, firstn (n + d) ll = firstn n ll ++ t).
  { revert n; induction ll as [|x t IH]; intros n.
    - exists []. now rewrite !firstn_nil.
    - destruct n as [|n]; simpl; [eauto|]. destruct (IH n) as (u & ->). eauto. }
  destruct G as (t & ->). rewrite concat_app, zlen_app. pose proof (zlen_nonneg (concat t)). lia.
Qed.

Lemma off1_bound {A} (ll : list (list A)) k : off1 ll k <= zlen (concat ll).
Proof.
  rewrite <- (firstn_skipn (Z.to_nat k) ll) at 2. rewrite concat_app, zlen_app.
  unfold off1. pose proof (zlen_nonneg (concat (skipn (Z.to_nat k) ll))). lia.
Qed.

Lemma rd_splits_off {A} (ll : list (list A)) k : 0 <= k <= zlen ll -> rd (splits_of ll) k = Some (off1 ll k).
Proof. intros; now apply rd_splits_of. Qed.

Lemma rd_concat_off {A} (ll : list (list A)) r l j x : rd ll r = Some l -> rd l j = Some x ->
  rd (concat ll) (off1 ll r + j) = Some x /\ rd (ids_of ll) (off1 ll r + j) = Some r.
Proof.
  intros H Hj. pose proof (rd_Some_bound _ _ _ Hj). pose proof (rd_Some_bound _ _ _ H).
  assert (E : rd (concat ll) (off1 ll r + j) = Some x) by (unfold off1; rewrite (rd_concat_at ll r l); auto).
  split; auto. destruct (rd_concat ll _ _ E) as (r' & l' & j' & K1 & K2 & K3 & K4).
  rewrite K4. f_equal. fold (off1 ll r') in K3.
  pose proof (rd_Some_bound _ _ _ K1). pose proof (rd_Some_bound _ _ _ K2).
  pose proof (off1_next _ _ _ H). pose proof (off1_next _ _ _ K1).
  destruct (Z.lt_trichotomy r r') as [L|[L|L]]; auto.
  - pose proof (off1_mono ll (r + 1) r'). lia.
  - pose proof (off1_mono ll (r' + 1) r). lia.
Qed.

Lemma rd_concat_inv {A} (ll : list (list A)) i x : rd (concat ll) i = Some x ->
  exists r l j, rd ll r = Some l /\ rd l j = Some x /\ i = off1 ll r + j /\ rd (ids_of ll) i = Some r.
Proof. apply rd_concat. Qed.

Lemma off1_concat {A} (ll : list (list (list A))) k l r : rd ll k = Some l -> 0 <= r <= zlen l ->
  off1 (concat ll) (off1 ll k + r) = zlen (concat (concat (firstn (Z.to_nat k) ll))) + off1 l r.
Proof.
  intros H Hr. unfold off1 at 1. unfold off1 at 1. rewrite (firstn_concat ll k l r) by auto.
  now rewrite concat_app, zlen_app.
Qed.

Lemma concat_map_concat {A} (ll : list (list (list A))) : concat (map (@concat A) ll) = concat (concat ll).
Proof. induction ll; simpl; auto. now rewrite IHll, concat_app. Qed.

Lemma off1_map_concat {A} (ll : list (list (list A))) k :
  off1 (map (@concat A) ll) k = zlen (concat (concat (firstn (Z.to_nat k) ll))).
Proof. unfold off1. now rewrite firstn_map, concat_map_concat. Qed.

Lemma rd_concat3 {A} (ll : list (list (list A))) i x : rd (concat (concat ll)) i = Some x ->
  exists k f r st j, rd ll k = Some f /\ rd f r = Some st /\ rd st j = Some x /\
    rd (ids_of (concat ll)) i = Some (off1 ll k + r) /\
    rd (ids_of ll) (off1 ll k + r) = Some k /\
    i = off1 (map (@concat A) ll) k + off1 f r + j.
Proof.
  intros H. destruct (rd_concat_inv _ _ _ H) as (s & st & j & H1 & H2 & H3 & H4).
  destruct (rd_concat_inv _ _ _ H1) as (k & f & r & K1 & K2 & K3 & K4).
  pose proof (rd_Some_bound _ _ _ K2).
  exists k, f, r, st, j. subst s. repeat split; auto.
  rewrite H3, (off1_concat ll k f r) by (auto; lia). rewrite off1_map_concat. lia.
Qed.

Lemma firstn_imap {A B} (g : Z -> A -> B) l : forall n k, firstn n (imap g k l) = imap g k (firstn n l).
Proof. induction l; intros [|n] k; simpl; auto. now rewrite IHl. Qed.

Lemma concat_imap_map_len {A B} (h : Z -> A -> B) ll : forall k,
  zlen (concat (imap (fun k l => map (h k) l) k ll)) = zlen (concat ll).
Proof. induction ll; intros; simpl; auto. now rewrite !zlen_app, IHll, zlen_map. Qed.

(** Mapping inside a concatenation, with the row number. *)
Lemma rd_concat_imap_map {A B} (h : Z -> A -> B) ll k l j x : rd ll k = Some l -> rd l j = Some x ->
  rd (concat (imap (fun k l => map (h k) l) 0 ll)) (off1 ll k + j) = Some (h k x).
Proof.
  intros H Hj.
  assert (E : off1 ll k = off1 (imap (fun k l => map (h k) l) 0 ll) k).
  { unfold off1. now rewrite firstn_imap, concat_imap_map_len. }
  rewrite E. eapply rd_concat_off.
  - rewrite rd_imap, H. reflexivity.
  - replace (0 + k) with k by lia. rewrite rd_map, Hj. reflexivity.
Qed.
