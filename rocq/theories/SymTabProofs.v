From Coq Require Import ZArith List Lia Bool Permutation Sorted.
From Coq Require Import ZifyBool ZifyNat.
From Verif Require Import Base PyBase SymTabModel.
Import ListNotations.
Open Scope Z_scope.

(** The invariant. *)
Record consistent (t : symtab) : Prop := {
  c_nd1 : NoDup (keys (id2sym t));
  c_nd2 : NoDup (keys (sym2id t));
  c_inv : forall i s, dget (id2sym t) i = Some s <-> dget (sym2id t) s = Some i;
  c_eps : dget (id2sym t) 0 = Some (eps t);
  c_next : forall i s, dget (id2sym t) i = Some s -> i < next_id t;
  c_last : exists s, dget (id2sym t) (next_id t - 1) = Some s }.

Lemma opt_is_true {A} {D : Eqd A} (o : option A) x : opt_is o x = true <-> o = Some x.
Proof.
  unfold opt_is. destruct o as [y|]; [|split; discriminate]. destruct (eqd y x); split; congruence.
Qed.

Lemma fold_max {V} (t : dict Z V) : forall m, let r := fold_left (fun m kv => Z.max m (fst kv)) t m in
  m <= r /\ (forall k, In k (keys t) -> k <= r) /\ (r = m \/ In r (keys t)).
Proof.
  induction t as [|[k v] t IH]; intros m; simpl.
  - split; [lia|]. split; [tauto|auto].
  - destruct (IH (Z.max m k)) as (H1 & H2 & H3). split; [lia|]. split.
    + intros k' [<-|H]; [lia|auto].
    + destruct H3 as [H3|H3]; [|auto]. destruct (Z.max_spec m k) as [[_ E]|[_ E]]; rewrite E in *; auto.
Qed.

Lemma max_key_spec {V} (d : dict Z V) m : max_key d = Some m ->
  In m (keys d) /\ forall k, In k (keys d) -> k <= m.
Proof.
  destruct d as [|[k v] t]; simpl; [discriminate|]. intros [= <-].
  destruct (fold_max t k) as (H1 & H2 & H3). split.
  - destruct H3 as [->|H3]; auto.
  - intros k' [<-|H]; auto.
Qed.

Lemma post_init_consistent i2s s2i e t :
  NoDup (keys i2s) -> NoDup (keys s2i) ->
  (dget i2s 0 = None -> dget s2i e = None) ->
  post_init i2s s2i e = Some t ->
  consistent t /\ eps t = e /\
  (forall i, dget (id2sym t) i = if eqd 0 i then Some e else dget i2s i) /\
  (forall i s, dget i2s i = Some s <-> dget s2i s = Some i) /\
  (forall i s, dget i2s i = Some s -> 0 <= i).
Proof.
  intros N1 N2 He H. unfold post_init in H.
  destruct (forallb _ i2s) eqn:F1; [|discriminate]. destruct (forallb _ s2i) eqn:F2; [|discriminate].
  rewrite forallb_forall in F1, F2.
  assert (INV : forall i s, dget i2s i = Some s <-> dget s2i s = Some i).
  { intros i s; split; intros G.
    - apply dget_In in G. specialize (F1 _ G). simpl in F1. apply andb_prop in F1 as [F1 _]. now apply opt_is_true.
    - apply dget_In in G. specialize (F2 _ G). simpl in F2. apply andb_prop in F2 as [_ F2]. now apply opt_is_true. }
  assert (NN : forall i s, dget i2s i = Some s -> 0 <= i).
  { intros i s G. apply dget_In in G. specialize (F1 _ G). simpl in F1. lia. }
  unfold dmem in H. destruct (dget i2s 0) as [s0|] eqn:E0; cbn [negb] in H.
  - destruct (opt_is (Some s0) e) eqn:O1; [|discriminate]. apply opt_is_true in O1. injection O1 as ->.
    destruct (opt_is (dget s2i e) 0) eqn:O2; [|discriminate]. simpl in H.
    destruct (max_key i2s) as [m|] eqn:M; [|discriminate]. injection H as <-. simpl.
    apply max_key_spec in M as [M1 M2].
    split; [constructor; simpl; auto|].
    + intros i s G. apply dget_In, (in_map fst), M2 in G. simpl in G. lia.
    + replace (m + 1 - 1) with m by lia. now apply dget_key.
    + split; auto. split; auto. intros i. destruct (eqd 0 i) as [<-|]; auto.
  - simpl in H. destruct (max_key (dset i2s 0 e)) as [m|] eqn:M; [|discriminate]. injection H as <-. simpl.
    apply max_key_spec in M as [M1 M2]. specialize (He eq_refl).
    split; [constructor; simpl; [now apply NoDup_dset|now apply NoDup_dset|..]|].
    + intros i s. rewrite !dget_dset. destruct (eqd 0 i) as [<-|Ni]; destruct (eqd e s) as [<-|Ns].
      * tauto.
      * rewrite <- INV. split; congruence.
      * rewrite INV. split; congruence.
      * apply INV.
    + apply dget_dset_same.
    + intros i s G. apply dget_In, (in_map fst), M2 in G. simpl in G. lia.
    + replace (m + 1 - 1) with m by lia. now apply dget_key.
    + split; auto. split; auto. intros i. apply dget_dset.
Qed.

(** ** add *)
Lemma add_consistent t sym index i t' : consistent t -> add t sym index = Some (i, t') ->
  consistent t' /\ dget (sym2id t') sym = Some i /\ eps t' = eps t /\
  (forall j s, dget (id2sym t') j = Some s <-> dget (id2sym t) j = Some s \/ (j = i /\ s = sym)).
Proof.
  intros C H. unfold add in H. destruct (dget (sym2id t) sym) as [i0|] eqn:E.
  - injection H as <- <-. split; auto. split; auto. split; auto. intros j s. split; [auto|].
    intros [G|[-> ->]]; auto. now apply (c_inv t C).
  - set (k := match index with Some i => i | None => next_id t end) in H.
    unfold dmem in H. destruct (dget (id2sym t) k) eqn:Ek; [discriminate|]. simpl in H. injection H as <- <-.
    simpl. rewrite dget_dset_same.
    assert (Z0 : k <> 0) by (intros ->; rewrite (c_eps t C) in Ek; discriminate).
    assert (EE : eps t <> sym).
    { intros G. pose proof (proj1 (c_inv t C 0 (eps t)) (c_eps t C)). congruence. }
    split; [constructor; simpl; [apply NoDup_dset, C|apply NoDup_dset, C|..]|].
    + intros j s. rewrite !dget_dset. destruct (eqd k j) as [<-|Nj]; destruct (eqd sym s) as [<-|Ns].
      * tauto.
      * rewrite <- (c_inv t C). split; congruence.
      * rewrite (c_inv t C). split; congruence.
      * apply (c_inv t C).
    + rewrite dget_dset. destruct (eqd k 0); [congruence|]. apply (c_eps t C).
    + intros j s. rewrite dget_dset. destruct (eqd k j) as [<-|Nj].
      * destruct (next_id t <=? k) eqn:L; lia.
      * intros G. apply (c_next t C) in G. destruct (next_id t <=? k) eqn:L; lia.
    + destruct (next_id t <=? k) eqn:L.
      * exists sym. replace (k + 1 - 1) with k by lia. apply dget_dset_same.
      * rewrite dget_dset. destruct (eqd k (next_id t - 1)); eauto. apply (c_last t C).
    + split; auto. split; auto. intros j s. rewrite dget_dset. destruct (eqd k j) as [<-|Nj].
      * split; [intros [= <-]; auto|]. intros [G|[_ ->]]; congruence.
      * split; [auto|]. intros [G|[-> _]]; congruence.
Qed.

(** ** merge *)
Lemma compatible_spec a b : consistent a -> consistent b -> compatible a b = true <->
  eps a = eps b /\
  (forall i s s', dget (id2sym a) i = Some s -> dget (id2sym b) i = Some s' -> s = s') /\
  (forall s i i', dget (sym2id a) s = Some i -> dget (sym2id b) s = Some i' -> i = i').
Proof.
  intros Ca Cb. unfold compatible. rewrite !andb_true_iff, !forallb_forall. split.
  - intros [[H1 H2] H3]. destruct (eqd (eps a) (eps b)); [|discriminate]. split; auto. split.
    + intros i s s' G G'. pose proof (dget_In _ _ _ G) as IN. specialize (H2 _ IN). simpl in H2.
      rewrite G' in H2. apply opt_is_true in H2. congruence.
    + intros s i i' G G'. pose proof (dget_In _ _ _ G) as IN. specialize (H3 _ IN). simpl in H3.
      rewrite G' in H3. apply opt_is_true in H3. congruence.
  - intros (H1 & H2 & H3). split; [split|].
    + destruct (eqd (eps a) (eps b)); congruence.
    + intros [i s] IN. simpl. apply In_dget in IN; [|apply Ca]. destruct (dget (id2sym b) i) eqn:E; auto.
      apply opt_is_true. rewrite IN. f_equal. eauto.
    + intros [s i] IN. simpl. apply In_dget in IN; [|apply Ca]. destruct (dget (sym2id b) s) eqn:E; auto.
      apply opt_is_true. rewrite IN. f_equal. eauto.
Qed.

Lemma merge_spec a b t : consistent a -> consistent b -> merge a b = Some t ->
  consistent t /\ eps t = eps a /\
  (forall i s, dget (id2sym t) i = Some s <-> dget (id2sym a) i = Some s \/ dget (id2sym b) i = Some s).
Proof.
  intros Ca Cb H. unfold merge in H. destruct (compatible a b) eqn:C; [|discriminate].
  apply compatible_spec in C as (E & K1 & K2); auto.
  assert (G0 : dget (dmerge (id2sym a) (id2sym b)) 0 = Some (eps a)).
  { rewrite dget_dmerge by apply Cb. rewrite (c_eps b Cb). congruence. }
  apply post_init_consistent in H as (P1 & P2 & P3 & P4 & P5);
    [|apply NoDup_dmerge, Ca|apply NoDup_dmerge, Ca|congruence].
  split; auto. split; auto. intros i s. rewrite P3.
  assert (M : dget (dmerge (id2sym a) (id2sym b)) i = Some s <->
     dget (id2sym a) i = Some s \/ dget (id2sym b) i = Some s).
  { rewrite dget_dmerge by apply Cb. destruct (dget (id2sym b) i) as [s'|] eqn:Eb.
    - split; [intros [= ->]; auto|]. intros [G|G]; auto. f_equal. symmetry. eauto.
    - split; auto. intros [G|G]; auto. discriminate. }
  destruct (eqd 0 i) as [<-|N]; auto. rewrite <- M, G0. tauto.
Qed.

Lemma merge_succeeds a b : consistent a -> consistent b ->
  (forall i s, dget (id2sym a) i = Some s -> 0 <= i) ->
  (forall i s, dget (id2sym b) i = Some s -> 0 <= i) ->
  compatible a b = true -> exists t, merge a b = Some t.
Proof.
  intros Ca Cb Na Nb C. unfold merge. rewrite C. apply compatible_spec in C as (E & K1 & K2); auto.
  assert (D1 : forall i s, dget (dmerge (id2sym a) (id2sym b)) i = Some s <->
     dget (id2sym a) i = Some s \/ dget (id2sym b) i = Some s).
  { intros i s. rewrite dget_dmerge by apply Cb. destruct (dget (id2sym b) i) as [s'|] eqn:Eb.
    - split; [intros [= ->]; auto|]. intros [G|G]; auto. f_equal. symmetry. eauto.
    - split; auto. intros [G|G]; auto. discriminate. }
  assert (D2 : forall s i, dget (dmerge (sym2id a) (sym2id b)) s = Some i <->
     dget (sym2id a) s = Some i \/ dget (sym2id b) s = Some i).
  { intros s i. rewrite dget_dmerge by apply Cb. destruct (dget (sym2id b) s) as [s'|] eqn:Eb.
    - split; [intros [= ->]; auto|]. intros [G|G]; auto. f_equal. symmetry. eauto.
    - split; auto. intros [G|G]; auto. discriminate. }
  assert (D12 : forall i s, dget (dmerge (id2sym a) (id2sym b)) i = Some s <->
                            dget (dmerge (sym2id a) (sym2id b)) s = Some i).
  { intros. rewrite D1, D2, (c_inv a Ca), (c_inv b Cb). tauto. }
  assert (NN : forall i s, dget (dmerge (id2sym a) (id2sym b)) i = Some s -> 0 <= i).
  { intros i s G. apply D1 in G as [G|G]; eauto. }
  unfold post_init.
  rewrite (proj2 (forallb_forall _ _)).
  2: { intros [i s] IN. apply In_dget in IN; [|apply NoDup_dmerge, Ca]. simpl.
       apply andb_true_iff; split; [|apply NN in IN; lia]. apply opt_is_true. now apply D12. }
  rewrite (proj2 (forallb_forall _ _)).
  2: { intros [s i] IN. apply In_dget in IN; [|apply NoDup_dmerge, Ca]. simpl. apply D12 in IN.
       apply andb_true_iff; split; [apply NN in IN; lia|]. now apply opt_is_true. }
  assert (G0 : dget (dmerge (id2sym a) (id2sym b)) 0 = Some (eps a)) by (apply D1; left; exact (c_eps a Ca)).
  unfold dmem. rewrite G0. cbn [negb].
  rewrite (proj2 (opt_is_true (Some (eps a)) (eps a)) eq_refl).
  rewrite (proj2 (opt_is_true (dget (dmerge (sym2id a) (sym2id b)) (eps a)) 0)) by now apply D12.
  cbn [fst snd]. destruct (max_key _) eqn:M; eauto.
  destruct (dmerge (id2sym a) (id2sym b)) as [|[? ?] ?]; simpl in *; discriminate.
Qed.

(** ** text round trip *)
Lemma insert_perm {V} (x : Z * V) l : Permutation (insert_kv x l) (x :: l).
Proof.
  induction l as [|y l IH]; simpl; auto. destruct (fst x <=? fst y); auto.
  rewrite IH. apply perm_swap.
Qed.

Lemma sorted_perm {V} (l : list (Z * V)) : Permutation (sorted_items l) l.
Proof. induction l; simpl; auto. rewrite insert_perm. now constructor. Qed.

Definition le_fst {V} (a b : Z * V) : Prop := fst a <= fst b.

Lemma insert_sorted {V} (x : Z * V) l : Sorted le_fst l -> Sorted le_fst (insert_kv x l).
Proof.
  induction l as [|y l IH]; simpl; intros H; [repeat constructor|].
  destruct (fst x <=? fst y) eqn:E.
  - constructor; auto. constructor. unfold le_fst. lia.
  - inversion H; subst. constructor; auto. destruct l as [|z l]; simpl.
    + constructor. unfold le_fst. lia.
    + inversion H3; subst. destruct (fst x <=? fst z); constructor; unfold le_fst in *; lia.
Qed.

Lemma sorted_sorted {V} (l : list (Z * V)) : Sorted le_fst (sorted_items l).
Proof. induction l; simpl; [constructor|]. now apply insert_sorted. Qed.

Definition line (kv : Z * str) : str := snd kv ++ [32] ++ print_int (fst kv).

Lemma words_line kv : no_ws (snd kv) -> snd kv <> [] -> words (line kv) = [snd kv; print_int (fst kv)].
Proof.
  intros H1 H2. unfold line. simpl. rewrite words_sep by auto.
  rewrite words_last; auto using print_int_nonempty. apply print_int_no_ws.
Qed.

Lemma line_no_nl kv : no_ws (snd kv) -> ~ In 10 (line kv).
Proof.
  intros H Hin. unfold line in Hin. apply in_app_or in Hin as [Hin|[Hin|Hin]].
  - now apply no_ws_no_nl in Hin.
  - discriminate.
  - apply print_int_chars in Hin. lia.
Qed.

Lemma split_lines kvs : Forall (fun kv : Z * str => no_ws (snd kv)) kvs ->
  split_on 10 (concat (map (fun kv => snd kv ++ [32] ++ print_int (fst kv) ++ [10]) kvs)) = map line kvs ++ [[]].
Proof.
  induction kvs as [|kv kvs IH]; intros H; [reflexivity|]. inversion H; subst. cbn [map concat app].
  rewrite <- (IH H3).
  rewrite <- split_on_line by now apply line_no_nl. f_equal. unfold line.
  rewrite <- !app_assoc. simpl. rewrite <- !app_assoc. reflexivity.
Qed.

Lemma from_lines_kvs kvs rest : forall i2s s2i,
  Forall (fun kv : Z * str => no_ws (snd kv) /\ snd kv <> []) kvs ->
  NoDup (keys i2s ++ map fst kvs) -> NoDup (keys s2i ++ map snd kvs) ->
  from_lines (map line kvs ++ rest) i2s s2i =
  from_lines rest (i2s ++ kvs) (s2i ++ map (fun kv => (snd kv, fst kv)) kvs).
Proof.
  induction kvs as [|[i s] kvs IH]; intros i2s s2i H N1 N2; simpl.
  - now rewrite !app_nil_r.
  - inversion H as [|? ? [H1 H2] H3]; subst. simpl in H1, H2. rewrite words_line by auto. simpl fst. simpl snd.
    rewrite parse_print_int. simpl in N1, N2.
    assert (A1 : ~ In i (keys i2s)).
    { intros G. apply NoDup_remove_2 in N1. apply N1, in_or_app. auto. }
    assert (A2 : ~ In s (keys s2i)).
    { intros G. apply NoDup_remove_2 in N2. apply N2, in_or_app. auto. }
    replace (dmem s2i s) with false by (symmetry; apply not_true_is_false; now rewrite dmem_key).
    replace (dmem i2s i) with false by (symmetry; apply not_true_is_false; now rewrite dmem_key).
    simpl. rewrite !dset_new by auto. rewrite IH; auto.
    + now rewrite <- !app_assoc.
    + unfold keys in *. rewrite map_app, <- app_assoc. exact N1.
    + unfold keys in *. rewrite map_app, <- app_assoc. exact N2.
Qed.

Lemma dget_perm {K V} {EQ : Eqd K} (d d' : dict K V) k : Permutation d d' -> NoDup (keys d) -> dget d k = dget d' k.
Proof.
  intros P N. assert (N' : NoDup (keys d')) by (eapply Permutation_NoDup; [|exact N]; now apply Permutation_map).
  destruct (dget d k) as [v|] eqn:E.
  - symmetry. apply In_dget; auto. apply dget_In in E. eapply Permutation_in; eauto.
  - symmetry. apply dget_None. apply dget_None in E. intros G. apply E.
    eapply Permutation_in; [|exact G]. symmetry. now apply Permutation_map.
Qed.

Lemma swapped_inv (d : dict Z str) : NoDup (keys d) -> NoDup (map snd d) -> forall i s,
  dget d i = Some s <-> dget (map (fun kv => (snd kv, fst kv)) d) s = Some i.
Proof.
  intros N1 N2 i s.
  assert (N3 : NoDup (keys (map (fun kv => (snd kv, fst kv)) d))).
  { unfold keys. rewrite map_map. exact N2. }
  split; intros G.
  - apply dget_In in G. apply In_dget; auto. apply in_map_iff. exists (i, s). auto.
  - apply dget_In in G. apply In_dget; auto. apply in_map_iff in G as ([i' s'] & [= <- <-] & G). auto.
Qed.

Lemma NoDup_snd t : consistent t -> NoDup (map snd (id2sym t)).
Proof.
  intros C. pose proof (c_nd1 t C) as N. pose proof (c_inv t C) as I.
  assert (G : forall d, (forall i s, In (i, s) d -> dget (id2sym t) i = Some s) -> NoDup (keys d) -> NoDup (map snd d)).
  { induction d as [|[i s] d IH]; simpl; intros H1 H2; constructor.
    - inversion H2; subst. intros Hin. apply in_map_iff in Hin as ([i' s'] & E & Hin). simpl in E. subst s'.
      assert (i' = i).
      { pose proof (H1 i' s (or_intror Hin)) as A. pose proof (H1 i s (or_introl eq_refl)) as B.
        apply I in A, B. congruence. }
      subst. apply H3. now apply (in_map fst) in Hin.
    - inversion H2; subst. apply IH; auto. }
  apply G; auto. intros i s Hin. now apply In_dget.
Qed.

Lemma from_lines_blank i2s s2i : from_lines [[]] i2s s2i = Some (i2s, s2i).
Proof. reflexivity. Qed.

Definition printable (t : symtab) : Prop :=
  forall i s, dget (id2sym t) i = Some s -> 0 <= i /\ no_ws s /\ s <> [].

Section RT.
  Variable t : symtab.
  Hypothesis C : consistent t.
  Hypothesis P : printable t.

  Let kvs := sorted_items (id2sym t).

  Lemma kvs_ok : Forall (fun kv : Z * str => no_ws (snd kv) /\ snd kv <> []) kvs.
  Proof.
    apply Forall_forall. intros [i s] Hin. assert (In (i, s) (id2sym t)).
    { eapply Permutation_in; [apply sorted_perm|exact Hin]. }
    apply In_dget in H; [|apply C]. apply P in H. tauto.
  Qed.

  Lemma kvs_nd1 : NoDup (map fst kvs).
  Proof. eapply Permutation_NoDup; [|apply (c_nd1 t C)]. symmetry. apply Permutation_map, sorted_perm. Qed.
  Lemma kvs_nd2 : NoDup (map snd kvs).
  Proof. eapply Permutation_NoDup; [|apply (NoDup_snd t C)]. symmetry. apply Permutation_map, sorted_perm. Qed.

  Lemma kvs_get i : dget kvs i = dget (id2sym t) i.
  Proof. apply dget_perm; [apply sorted_perm|apply kvs_nd1]. Qed.

  Lemma post_init_kvs : exists t', post_init kvs (map (fun kv => (snd kv, fst kv)) kvs) (eps t) = Some t' /\
    (forall i, dget (id2sym t') i = dget (id2sym t) i) /\
    (forall s, dget (sym2id t') s = dget (sym2id t) s) /\ eps t' = eps t /\ next_id t' = next_id t.
  Proof.
    pose proof (swapped_inv kvs kvs_nd1 kvs_nd2) as INV.
    assert (N3 : NoDup (keys (map (fun kv : Z * str => (snd kv, fst kv)) kvs))).
    { unfold keys. rewrite map_map. apply kvs_nd2. }
    assert (G0 : dget kvs 0 = Some (eps t)) by (rewrite kvs_get; exact (c_eps t C)).
    unfold post_init.
    rewrite (proj2 (forallb_forall _ _)).
    2: { intros [i s] IN. apply In_dget in IN; [|apply kvs_nd1]. simpl.
         apply andb_true_iff; split; [|rewrite kvs_get in IN; apply P in IN; lia]. apply opt_is_true. now apply INV. }
    rewrite (proj2 (forallb_forall _ _)).
    2: { intros [s i] IN. apply In_dget in IN; [|apply N3]. simpl. apply INV in IN.
         apply andb_true_iff; split; [rewrite kvs_get in IN; apply P in IN; lia|]. now apply opt_is_true. }
    unfold dmem. rewrite G0. cbn [negb].
    rewrite (proj2 (opt_is_true (Some (eps t)) (eps t)) eq_refl).
    rewrite (proj2 (opt_is_true (dget (map (fun kv : Z * str => (snd kv, fst kv)) kvs) (eps t)) 0)) by now apply INV.
    cbn [fst snd]. destruct (max_key kvs) as [m|] eqn:M.
    2: { destruct kvs as [|[? ?] ?]; simpl in *; discriminate. }
    eexists; split; [reflexivity|]. simpl. split; [apply kvs_get|]. split; [|split; auto].
    - intros s. destruct (dget (sym2id t) s) as [i|] eqn:E.
      + apply (c_inv t C) in E. rewrite <- kvs_get in E. now apply INV.
      + destruct (dget (map (fun kv : Z * str => (snd kv, fst kv)) kvs) s) as [i|] eqn:E'; auto.
        apply INV in E'. rewrite kvs_get in E'. apply (c_inv t C) in E'. congruence.
    - apply max_key_spec in M as [M1 M2]. destruct (c_last t C) as (s & Hs).
      rewrite <- kvs_get in Hs. apply dget_In, (in_map fst), M2 in Hs. simpl in Hs.
      apply dget_key in M1 as (s' & Hs'). rewrite kvs_get in Hs'. apply (c_next t C) in Hs'. lia.
  Qed.

  Lemma from_str_to_str : exists t', from_str (to_str t) = Some t' /\
    (forall i, dget (id2sym t') i = dget (id2sym t) i) /\
    (forall s, dget (sym2id t') s = dget (sym2id t) s) /\ eps t' = eps t /\ next_id t' = next_id t.
  Proof.
    unfold from_str, to_str. fold kvs.
    rewrite split_lines by (eapply Forall_impl; [|apply kvs_ok]; cbv beta; tauto).
    rewrite from_lines_kvs; [|apply kvs_ok|apply kvs_nd1|apply kvs_nd2]. simpl.
    rewrite kvs_get, (c_eps t C). apply post_init_kvs.
  Qed.

  Lemma kvs_nonempty : kvs <> [].
  Proof. intros E. pose proof (kvs_get 0) as G. rewrite E, (c_eps t C) in G. discriminate. Qed.

  Lemma from_file_to_str : exists t', from_file (to_str t) = Some t' /\
    (forall i, dget (id2sym t') i = dget (id2sym t) i) /\
    (forall s, dget (sym2id t') s = dget (sym2id t) s) /\ eps t' = eps t /\ next_id t' = next_id t.
  Proof.
    unfold from_file, from_str, to_str. fold kvs.
    pose proof kvs_ok as OK. pose proof kvs_nd1 as ND1. pose proof kvs_nd2 as ND2.
    destruct (exists_last kvs_nonempty) as (init & [li ls] & E).
    assert (S1 : exists c m, concat (map (fun kv : Z * str => snd kv ++ [32] ++ print_int (fst kv) ++ [10]) kvs)
        = c :: m ++ [10] /\ is_ws c = false /\
        c :: m = concat (map (fun kv : Z * str => snd kv ++ [32] ++ print_int (fst kv) ++ [10]) init) ++ line (li, ls)).
    { rewrite E, map_app, concat_app. cbn [map concat]. rewrite app_nil_r.
      destruct kvs as [|[k0 s0] kt] eqn:Ek; [destruct init; discriminate|].
      inversion OK as [|? ? [W1 W2] _]; subst. simpl in W1, W2.
      set (body := concat (map (fun kv : Z * str => snd kv ++ [32] ++ print_int (fst kv) ++ [10]) init) ++ line (li, ls)).
      assert (B : exists c m, body = c :: m /\ is_ws c = false).
      { destruct s0 as [|c s0]; [congruence|]. inversion W1; subst.
        unfold body. destruct init as [|kv0 init].
        - simpl in E. injection E as <- <- _. eexists _, _. split; [reflexivity|auto].
        - simpl in E. injection E as <- _. eexists _, _. split; [reflexivity|auto]. }
      destruct B as (c & m & B & W). exists c, m. split; [|split; auto].
      rewrite app_comm_cons, <- B. unfold body, line. simpl fst. simpl snd. rewrite <- !app_assoc. simpl.
      reflexivity. }
    destruct S1 as (c & m & S1 & W & S2).
    (* the last char of the body is a digit *)
    assert (S3 : strip_ws (c :: m ++ [10]) = c :: m).
    { destruct (exists_last (print_int_nonempty li)) as (pi & d & Ed).
      assert (Wd : is_ws d = false).
      { pose proof (print_int_no_ws li) as F. rewrite Ed in F. apply Forall_app in F as [_ F]. now inversion F. }
      unfold line in S2. simpl fst in S2. simpl snd in S2. rewrite Ed in S2.
      rewrite !app_assoc in S2.
      destruct m as [|c1 m1] using rev_ind.
      - exfalso. apply (f_equal (@length Z)) in S2. rewrite !app_length in S2. simpl in S2. lia.
      - clear IHm1. rewrite app_comm_cons in S2. apply app_inj_tail in S2 as [S2 ->].
        rewrite <- app_assoc. now rewrite strip_ws_line. }
    rewrite S1, S3, S2.
    assert (S4 : split_on 10 (concat (map (fun kv : Z * str => snd kv ++ [32] ++ print_int (fst kv) ++ [10]) init) ++ line (li, ls))
       = map line kvs).
    { rewrite E. rewrite E in OK. apply Forall_app in OK as [O1 O2]. inversion O2 as [|? ? [O3 O4] _]; subst.
      clear - O1 O3. rewrite map_app. simpl map.
      induction init as [|kv init IH]; simpl.
      - now rewrite split_on_last by now apply line_no_nl.
      - inversion O1 as [|? ? [Q1 Q2] Q3]; subst. rewrite <- IH by auto.
        rewrite <- split_on_line by now apply line_no_nl. f_equal. unfold line at 2.
        rewrite <- !app_assoc. simpl. rewrite <- !app_assoc. reflexivity. }
    rewrite S4. rewrite <- (app_nil_r (map line kvs)).
    rewrite from_lines_kvs; [|apply OK|apply ND1|apply ND2]. simpl.
    rewrite kvs_get, (c_eps t C). apply post_init_kvs.
  Qed.
End RT.

(** from_str gives consistent tables unless the default epsilon symbol is used
    as an ordinary symbol *)
Lemma from_lines_nodup lines : forall i2s s2i r, NoDup (keys i2s) -> NoDup (keys s2i) ->
  from_lines lines i2s s2i = Some r -> NoDup (keys (fst r)) /\ NoDup (keys (snd r)).
Proof.
  induction lines as [|l lines IH]; simpl; intros i2s s2i r N1 N2 H; [now injection H as <-|].
  destruct (words l) as [|w [|w' [|]]]; try discriminate; eauto.
  destruct (parse_int w'); [|discriminate]. destruct (negb _); [|discriminate]. destruct (negb _); [|discriminate].
  eapply IH; [| |exact H]; now apply NoDup_dset.
Qed.

Lemma post_init_consistent_iff i2s s2i e t :
  NoDup (keys i2s) -> NoDup (keys s2i) -> post_init i2s s2i e = Some t ->
  (consistent t <-> forall i, dget (id2sym t) i = Some (eps t) -> i = 0).
Proof.
  intros N1 N2 H. split.
  - intros C i G. pose proof (c_eps t C) as G0. apply (c_inv t C) in G, G0. congruence.
  - intros U. eapply post_init_consistent; [exact N1|exact N2| |exact H].
    intros E0. destruct (dget s2i e) as [i|] eqn:E; auto. exfalso.
    unfold post_init in H. destruct (forallb _ i2s) eqn:F1; [|discriminate].
    destruct (forallb _ s2i) eqn:F2; [|discriminate]. rewrite forallb_forall in F2.
    pose proof (dget_In _ _ _ E) as IN. apply F2 in IN. simpl in IN. apply andb_prop in IN as [_ IN].
    apply opt_is_true in IN. unfold dmem in H. rewrite E0 in H. cbn [negb fst snd] in H.
    destruct (max_key (dset i2s 0 e)); [|discriminate]. injection H as <-. cbn [id2sym eps] in U.
    specialize (U i). rewrite dget_dset in U. destruct (eqd 0 i) as [<-|N]; [congruence|].
    apply U in IN. congruence.
Qed.

Lemma from_str_consistent_iff s t : from_str s = Some t ->
  (consistent t <-> forall i, dget (id2sym t) i = Some (eps t) -> i = 0).
Proof.
  intros H. unfold from_str in H. destruct (from_lines _ _ _) as [[i2s s2i]|] eqn:F; [|discriminate].
  destruct (from_lines_nodup _ [] [] _ (NoDup_nil _) (NoDup_nil _) F) as [N1 N2]. simpl in *.
  eapply post_init_consistent_iff; eauto.
Qed.
