(** * Proofs about index_select, index_add, index_and_sum, compose_arc_maps *)
From Coq Require Import ZArith List Lia Bool Permutation.
From Coq Require Import ZifyBool.
From Verif Require Import Base RaggedModel RaggedSpec RaggedProofs FsaSpec FsaLemmas.
From Verif Require Import RaggedOpsModel RaggedOpsSpec RaggedOpsProofs RaggedCatProofs RaggedListProofs OpsModel OpsSpec.
Import ListNotations.
Open Scope Z_scope.


Lemma sel_rd {A} (d : A) x j : 0 <= j < zlen x -> rd x j = Some (sel d x j).
Proof. intros H. unfold sel. destruct (rd_in_bound x j H) as (v & ->). reflexivity. Qed.
Lemma sel_m1 {A} (d : A) x : sel d x (-1) = d.
Proof. reflexivity. Qed.

Lemma index1_ok {A} (d : A) src idx : idx_ok (zlen src) idx -> index1 d src idx = Some (map (sel d src) idx).
Proof.
  intros H. apply mapM_Some_map. intros j Hj. unfold idx_ok in H. rewrite Forall_forall in H. specialize (H j Hj).
  destruct (j <? 0) eqn:E.
  - replace j with (-1) by lia. now rewrite sel_m1.
  - apply sel_rd. lia.
Qed.

Lemma index_select1_ok {A} (d : A) src idx : idx_ok (zlen src) idx -> (src <> [] \/ idx = []) ->
  index_select1 src idx d = Some (map (sel d src) idx).
Proof.
  intros H Hne. unfold index_select1. destruct (zlen idx =? 0) eqn:E.
  - apply Z.eqb_eq in E. apply zlen_0_nil in E. now subst.
  - destruct (zlen src =? 0) eqn:E2; [|simpl; now apply index1_ok].
    apply Z.eqb_eq in E2. apply zlen_0_nil in E2. destruct Hne as [Hne| ->]; [congruence|discriminate E].
Qed.

(** ** sums *)
Lemma zsum_perm l l' : Permutation l l' -> zsum l = zsum l'.
Proof. induction 1; simpl; lia. Qed.
Lemma zsum_mul_r {B} (f : B -> Z) l c : zsum (map (fun x => f x * c) l) = zsum (map f l) * c.
Proof. induction l; simpl; lia. Qed.
Lemma zsum_mul_l {B} (f : B -> Z) l c : zsum (map (fun x => c * f x) l) = c * zsum (map f l).
Proof. induction l; simpl; lia. Qed.
Lemma zsum_zero {B} (f : B -> Z) l : (forall x, In x l -> f x = 0) -> zsum (map f l) = 0.
Proof.
  induction l; simpl; intros H; auto. rewrite H by now left. rewrite IHl; auto.
Qed.
Lemma zsum_ext {B} (f g : B -> Z) l : (forall x, In x l -> f x = g x) -> zsum (map f l) = zsum (map g l).
Proof. intros H. f_equal. now apply map_ext_in. Qed.

Lemma zsum_delta n j c : zsum (map (fun k => if k =? j then c else 0) (zrange n)) =
  if (0 <=? j) && (j <? n) then c else 0.
Proof.
  destruct (Z_lt_le_dec n 0).
  { unfold zrange. replace (Z.to_nat n) with 0%nat by lia. simpl. replace ((0 <=? j) && (j <? n)) with false by lia. reflexivity. }
  rewrite <- (Z2Nat.id n) by lia. generalize (Z.to_nat n) as m. clear. induction m as [|m IH].
  - simpl. replace ((0 <=? j) && (j <? Z.of_nat 0)) with false by lia. reflexivity.
  - replace (Z.of_nat (S m)) with (Z.of_nat m + 1) by lia. rewrite zrange_app by lia. rewrite map_app, zsum_app, IH.
    change (zrange 1) with [0]. cbn [map zsum].
    destruct (Z.of_nat m + 0 =? j) eqn:E.
    + replace ((0 <=? j) && (j <? Z.of_nat m)) with false by lia.
      replace ((0 <=? j) && (j <? Z.of_nat m + 1)) with true by lia. lia.
    + replace ((0 <=? j) && (j <? Z.of_nat m + 1)) with ((0 <=? j) && (j <? Z.of_nat m)) by lia. lia.
Qed.


Lemma rd_combine {A B} (x : list A) : forall (y : list B) i,
  rd (combine x y) i = match rd x i, rd y i with Some a, Some b => Some (a, b) | _, _ => None end.
Proof.
  induction x as [|a x IH]; intros [|b y] i; simpl; rewrite ?rd_nil; auto.
  - destruct (rd (a :: x) i); auto.
  - rewrite !rd_cons. destruct (i =? 0); auto.
Qed.
Lemma zlen_combine {A B} (x : list A) (y : list B) : zlen x = zlen y -> zlen (combine x y) = zlen x.
Proof. intros H. unfold zlen in *. rewrite combine_length. lia. Qed.

Lemma dot_sel x y : zlen x = zlen y -> dot x y = zsum (map (fun k => sel 0 x k * sel 0 y k) (zrange (zlen x))).
Proof.
  intros H. unfold dot. f_equal. apply list_ext_rd.
  - rewrite !zlen_map, zlen_combine, zlen_zrange; auto using zlen_nonneg.
  - intros i Hi. rewrite zlen_map, zlen_combine in Hi by auto.
    rewrite !rd_map, rd_combine, rd_zrange by auto. simpl.
    rewrite (sel_rd 0 x i), (sel_rd 0 y i) by lia. reflexivity.
Qed.

Lemma sel_tab {A} (d : A) n f k : 0 <= k < n -> sel d (tab n f) k = f k.
Proof. intros H. unfold sel. now rewrite rd_tab. Qed.
Lemma sel_map {A B} (d : A) (e : B) (f : A -> B) l k : 0 <= k < zlen l -> sel e (map f l) k = f (sel d l k).
Proof. intros H. unfold sel. rewrite rd_map. destruct (rd_in_bound l k H) as (v & ->). reflexivity. Qed.
Lemma tab_sel {A} (d : A) l : l = tab (zlen l) (sel d l).
Proof. apply tab_rd. intros. now apply sel_rd. Qed.
Lemma In_sel {A} (d : A) l k : 0 <= k < zlen l -> In (sel d l k) l.
Proof. intros H. eapply rd_In. now apply sel_rd. Qed.

(** ** IndexAdd, for any execution order *)
Lemma add_at_tab n f j v : 0 <= j < n ->
  add_at (tab n f) j v = Some (tab n (fun k => f k + if k =? j then v else 0)).
Proof.
  intros H. unfold add_at. rewrite rd_tab by auto.
  destruct (wr_Some (tab n f) j (f j + v)) as (l' & -> & L & R); [rewrite zlen_tab; lia|].
  f_equal. rewrite zlen_tab in L by lia. apply list_ext_rd; [rewrite zlen_tab; lia|].
  intros i Hi. rewrite R. rewrite !rd_tab by lia. destruct (i =? j) eqn:E.
  - apply Z.eqb_eq in E; now subst.
  - f_equal. lia.
Qed.

(** [tgt i] = cell that body i adds to (or -1), [val i] the amount. *)
Lemma atomic_fold n (tgt val : Z -> Z) : forall sched f,
  (forall i, In i sched -> tgt i = -1 \/ 0 <= tgt i < n) ->
  foldM (fun d i => if tgt i =? -1 then Some d else add_at d (tgt i) (val i)) sched (tab n f) =
  Some (tab n (fun k => f k + zsum (map (fun i => if k =? tgt i then val i else 0) sched))).
Proof.
  induction sched as [|i sched IH]; intros f H; simpl.
  - f_equal. apply tab_ext. intros. lia.
  - destruct (tgt i =? -1) eqn:E.
    + rewrite IH by (intros; apply H; now right). f_equal. apply tab_ext. intros k Hk.
      replace (k =? tgt i) with false by lia. lia.
    + rewrite add_at_tab by (destruct (H i (or_introl eq_refl)); lia).
      rewrite IH by (intros; apply H; now right). f_equal. apply tab_ext. intros k Hk. lia.
Qed.

Lemma foldM_ext {S B} (f g : S -> B -> option S) l : (forall s x, In x l -> f s x = g s x) ->
  forall s, foldM f l s = foldM g l s.
Proof.
  induction l as [|a l IH]; intros H s; simpl; auto. rewrite H by now left.
  destruct (g s a); auto. apply IH. intros; apply H; now right.
Qed.

Lemma sched_in n sched i : is_sched n sched -> In i sched -> 0 <= i < n.
Proof. intros H Hi. apply (Permutation_in _ H) in Hi. now apply in_zrange. Qed.

Lemma idx_ok_sel n idx i : idx_ok n idx -> 0 <= i < zlen idx -> -1 <= sel (-1) idx i < n.
Proof. intros H Hi. unfold idx_ok in H. rewrite Forall_forall in H. apply H. now apply In_sel. Qed.

(** what index_add must compute *)
Definition scatter_add (index value : list Z) (dest : list Z) : list Z :=
  tab (zlen dest) (fun k => sel 0 dest k +
    total_at index value k).

Lemma zsum_filter {B} (P : B -> bool) (f : B -> Z) l :
  zsum (map f (filter P l)) = zsum (map (fun x => if P x then f x else 0) l).
Proof. induction l; simpl; auto. destruct (P a); simpl; lia. Qed.

Lemma zsum_combine {A B} (da : A) (db : B) (h : A * B -> Z) x y : zlen x = zlen y ->
  zsum (map h (combine x y)) = zsum (map (fun i => h (sel da x i, sel db y i)) (zrange (zlen x))).
Proof.
  intros H. f_equal. apply list_ext_rd.
  - rewrite !zlen_map, zlen_combine, zlen_zrange; auto using zlen_nonneg.
  - intros i Hi. rewrite zlen_map, zlen_combine in Hi by auto.
    rewrite !rd_map, rd_combine, rd_zrange by auto. simpl.
    rewrite (sel_rd da x i), (sel_rd db y i) by lia. reflexivity.
Qed.

Lemma index_add1_ok sched index value dest : is_sched (zlen index) sched ->
  zlen value = zlen index -> idx_ok (zlen dest) index ->
  index_add1 sched index value dest = Some (scatter_add index value dest).
Proof.
  intros Hs Hl Hi. unfold index_add1. replace (_ =? _) with true by lia.
  rewrite (foldM_ext _ (fun d i => if sel (-1) index i =? -1 then Some d else add_at d (sel (-1) index i) (sel 0 value i))).
  2:{ intros d i Hin. pose proof (sched_in _ _ _ Hs Hin). rewrite (sel_rd (-1) index i), (sel_rd 0 value i) by lia.
      reflexivity. }
  rewrite (tab_sel 0 dest) at 1. rewrite atomic_fold.
  2:{ intros i Hin. pose proof (sched_in _ _ _ Hs Hin) as B. pose proof (idx_ok_sel _ _ _ Hi B). lia. }
  f_equal. unfold scatter_add. apply tab_ext. intros k Hk. f_equal. unfold total_at.
  rewrite (zsum_perm _ _ (Permutation_map _ Hs)). rewrite zsum_filter.
  rewrite (zsum_combine (-1) 0) by auto. apply zsum_ext. intros i _. cbn [fst snd].
  now rewrite Z.eqb_sym.
Qed.

(** ** adjointness *)
Lemma sel_repeat n k : sel 0 (repeat 0 n) k = 0.
Proof.
  unfold sel. destruct (rd (repeat 0 n) k) as [v|] eqn:E; auto. apply rd_In in E. now apply repeat_spec in E.
Qed.

Lemma scatter_adjoint idx g x : idx_ok (zlen x) idx -> zlen g = zlen idx ->
  dot (map (sel 0 x) idx) g = dot x (scatter_add idx g (repeat 0 (Z.to_nat (zlen x)))).
Proof.
  intros Hi Hg. pose proof (zlen_nonneg x) as X0.
  rewrite dot_sel by (rewrite zlen_map; auto). rewrite zlen_map.
  rewrite dot_sel.
  2:{ unfold scatter_add. rewrite zlen_tab, zlen_repeat; [lia|apply zlen_nonneg]. }
  transitivity (zsum (map (fun i => zsum (map (fun k => if k =? sel (-1) idx i then sel 0 x k * sel 0 g i else 0)
     (zrange (zlen x)))) (zrange (zlen idx)))).
  - apply zsum_ext. intros i Hin. apply in_zrange in Hin. rewrite (sel_map (-1)) by auto.
    pose proof (idx_ok_sel _ _ _ Hi Hin) as B. set (j := sel (-1) idx i) in *.
    rewrite (zsum_ext _ (fun k => if k =? j then sel 0 x j * sel 0 g i else 0)).
    + rewrite zsum_delta. destruct ((0 <=? j) && (j <? zlen x)) eqn:E; auto.
      replace j with (-1) by lia. rewrite sel_m1. lia.
    + intros k _. destruct (k =? j) eqn:E; auto. apply Z.eqb_eq in E. now subst k.
  - rewrite zsum_swap. apply zsum_ext. intros k Hk. apply in_zrange in Hk. unfold scatter_add, total_at.
    rewrite sel_tab by (rewrite zlen_repeat; lia). rewrite sel_repeat. rewrite Z.add_0_l.
    rewrite zsum_filter, (zsum_combine (-1) 0) by auto. rewrite <- zsum_mul_l.
    apply zsum_ext. intros i Hin. cbn [fst snd]. rewrite Z.eqb_sym. destruct (_ =? _); lia.
Qed.

(** ** two-dimensional versions *)
Definition flatrows (rows : list (list Z)) := concat rows.

Lemma sel_concat_rows cols (rows : list (list Z)) i j : 0 < cols -> Forall (fun r => zlen r = cols) rows ->
  0 <= i < zlen rows -> 0 <= j < cols -> sel 0 (concat rows) (i * cols + j) = sel 0 (sel [] rows i) j.
Proof.
  intros Hc HF Hi Hj.
  assert (Hr : rd rows i = Some (sel [] rows i)) by now apply sel_rd.
  assert (Hl : zlen (sel [] rows i) = cols) by (rewrite Forall_forall in HF; apply HF; now apply In_sel).
  assert (O : off1 rows i = i * cols).
  { apply concat_map_uniform; try lia. intros l Hl'. rewrite Forall_forall in HF. auto. }
  assert (Hj' : rd (sel [] rows i) j = Some (sel 0 (sel [] rows i) j)) by (apply sel_rd; lia).
  destruct (rd_concat_off _ _ _ _ _ Hr Hj') as (E & _). rewrite O in E.
  unfold sel at 1. now rewrite E.
Qed.
Lemma zlen_concat_rows cols (rows : list (list Z)) : 0 <= cols -> Forall (fun r => zlen r = cols) rows ->
  zlen (concat rows) = zlen rows * cols.
Proof. intros Hc. induction 1; simpl; auto. rewrite zlen_app, zlen_cons. lia. Qed.

(** the value of cell (r, c) after index_add *)
Definition scatter_add2 (cols : Z) (index : list Z) (value dest : list (list Z)) : list Z :=
  tab (zlen dest * cols) (fun k => sel 0 (sel [] dest (k / cols)) (k mod cols) +
    zsum (map (fun p => sel 0 (snd p) (k mod cols)) (filter (fun p => fst p =? k / cols) (combine index value)))).

Lemma divmod_unique cols a b c d : 0 < cols -> 0 <= b < cols -> 0 <= d < cols ->
  a * cols + b = c * cols + d -> a = c /\ b = d.
Proof.
  intros Hc Hb Hd E.
  assert (a = c).
  { assert ((a * cols + b) / cols = (c * cols + d) / cols) by now rewrite E.
    rewrite !(Z.add_comm (_ * _)), !Z.div_add, !Z.div_small in H by lia. lia. }
  subst. lia.
Qed.

(** sum over a flat n*cols range = double sum *)
Lemma zsum_grid n cols (f : Z -> Z -> Z) : 0 <= n -> 0 < cols ->
  zsum (map (fun k => f (k / cols) (k mod cols)) (zrange (n * cols))) =
  zsum (map (fun i => zsum (map (fun j => f i j) (zrange cols))) (zrange n)).
Proof.
  intros Hn Hc. rewrite <- (Z2Nat.id n) by lia. generalize (Z.to_nat n) as m. clear Hn n. induction m as [|m IH].
  - reflexivity.
  - replace (Z.of_nat (S m)) with (Z.of_nat m + 1) by lia. rewrite Z.mul_add_distr_r.
    rewrite !zrange_app by lia. rewrite !map_app, !zsum_app, IH. f_equal. rewrite Z.mul_1_l.
    change (zrange 1) with [0]. cbn [map zsum]. rewrite Z.add_0_r, Z.add_0_r. rewrite map_map.
    apply zsum_ext. intros j Hj. apply in_zrange in Hj.
    rewrite Z.add_comm, Z.div_add, Z.mod_add by lia. now rewrite Z.div_small, Z.mod_small by lia.
Qed.

Lemma index_add2_ok sched cols index (value dest : list (list Z)) : 0 < cols ->
  is_sched (zlen index * cols) sched -> zlen value = zlen index ->
  Forall (fun r => zlen r = cols) value -> Forall (fun r => zlen r = cols) dest ->
  idx_ok (zlen dest) index ->
  index_add2 sched cols index (concat value) (concat dest) = Some (scatter_add2 cols index value dest).
Proof.
  intros Hc Hs Hl Hv Hd Hi. unfold index_add2. pose proof (zlen_nonneg index) as I0.
  rewrite (zlen_concat_rows cols) by (auto; lia). replace (_ =? _) with true by (rewrite Hl; lia).
  set (tgt := fun k => if sel (-1) index (k / cols) =? -1 then -1 else sel (-1) index (k / cols) * cols + k mod cols).
  set (vl := fun k => sel 0 (concat value) (k / cols * cols + k mod cols)).
  assert (Kb : forall k, In k sched -> 0 <= k / cols < zlen index /\ 0 <= k mod cols < cols).
  { intros k Hin. pose proof (sched_in _ _ _ Hs Hin) as B. split; [|apply Z.mod_pos_bound; lia].
    split; [apply Z.div_pos; lia|]. apply Z.div_lt_upper_bound; lia. }
  rewrite (foldM_ext _ (fun d k => if tgt k =? -1 then Some d else add_at d (tgt k) (vl k))).
  2:{ intros d k Hin. destruct (Kb k Hin) as (B1 & B2).
      rewrite (sel_rd (-1) index (k / cols)) by lia.
      rewrite (sel_rd 0 (concat value) (k / cols * cols + k mod cols)) by (rewrite (zlen_concat_rows cols) by (auto; lia); nia).
      pose proof (idx_ok_sel _ _ _ Hi B1). unfold tgt.
      destruct (sel (-1) index (k / cols) =? -1) eqn:E; [reflexivity|].
      replace (_ =? -1) with false by nia. reflexivity. }
  rewrite (tab_sel 0 (concat dest)). rewrite (zlen_concat_rows cols dest) by (auto; lia). rewrite atomic_fold.
  2:{ intros k Hin. destruct (Kb k Hin) as (B1 & B2). pose proof (idx_ok_sel _ _ _ Hi B1). unfold tgt.
      destruct (sel (-1) index (k / cols) =? -1) eqn:E; [now left|right]. nia. }
  f_equal. unfold scatter_add2. apply tab_ext. intros q Hq.
  assert (Q1 : 0 <= q / cols < zlen dest) by (split; [apply Z.div_pos; lia|apply Z.div_lt_upper_bound; lia]).
  assert (Q2 : 0 <= q mod cols < cols) by (apply Z.mod_pos_bound; lia).
  assert (Eq : q = q / cols * cols + q mod cols) by (pose proof (Z.div_mod q cols); lia).
  f_equal.
  - rewrite Eq at 1. now apply sel_concat_rows.
  - rewrite (zsum_perm _ _ (Permutation_map _ Hs)). rewrite zsum_filter. rewrite (zsum_combine (-1) []) by auto. cbn [fst snd].
    set (F := fun i j => if (sel (-1) index i =? q / cols) && (j =? q mod cols)
        then sel 0 (sel [] value i) j else 0).
    transitivity (zsum (map (fun k => F (k / cols) (k mod cols)) (zrange (zlen index * cols)))).
    + unfold F. apply zsum_ext. intros k Hk. apply in_zrange in Hk.
      assert (B1 : 0 <= k / cols < zlen index) by (split; [apply Z.div_pos; lia|apply Z.div_lt_upper_bound; lia]).
      assert (B2 : 0 <= k mod cols < cols) by (apply Z.mod_pos_bound; lia).
      unfold vl. rewrite sel_concat_rows by (auto; lia). unfold tgt.
      pose proof (idx_ok_sel _ _ _ Hi B1).
      destruct (sel (-1) index (k / cols) =? -1) eqn:E.
      * replace (q =? -1) with false by lia. replace (_ =? q / cols) with false by lia. reflexivity.
      * destruct (q =? _) eqn:E2.
        -- apply Z.eqb_eq in E2. rewrite Eq in E2. apply divmod_unique in E2 as (-> & ->); try lia.
           now rewrite !Z.eqb_refl.
        -- destruct ((_ =? q / cols) && (_ =? q mod cols)) eqn:E3; auto. exfalso.
           apply andb_true_iff in E3 as (E3 & E4). apply Z.eqb_eq in E3, E4.
           apply Z.eqb_neq in E2. apply E2. rewrite E3, E4. exact Eq.
    + rewrite zsum_grid by lia. apply zsum_ext. intros i _. unfold F.
      destruct (sel (-1) index i =? q / cols) eqn:E; cbn [andb].
      * rewrite (zsum_ext _ (fun j => if j =? q mod cols then sel 0 (sel [] value i) (q mod cols) else 0)).
        -- rewrite zsum_delta. replace ((0 <=? _) && _) with true by lia. reflexivity.
        -- intros j _. destruct (j =? _) eqn:E2; auto. apply Z.eqb_eq in E2. now subst j.
      * apply zsum_zero. auto.
Qed.


Lemma adjoint2 cols idx (g x : list (list Z)) : 0 < cols -> idx_ok (zlen x) idx -> zlen g = zlen idx ->
  Forall (fun r => zlen r = cols) g -> Forall (fun r => zlen r = cols) x ->
  dot2 (map (sel (repeat 0 (Z.to_nat cols)) x) idx) g =
  dot (concat x) (scatter_add2 cols idx g (repeat (repeat 0 (Z.to_nat cols)) (Z.to_nat (zlen x)))).
Proof.
  intros Hc Hi Hl Hg Hx. set (zr := repeat 0 (Z.to_nat cols)). pose proof (zlen_nonneg x) as X0.
  assert (Lz : zlen zr = cols) by (unfold zr; rewrite zlen_repeat; lia).
  assert (Sx : forall j, -1 <= j < zlen x -> zlen (sel zr x j) = cols).
  { intros j Hj. unfold sel. destruct (rd x j) eqn:E; auto. rewrite Forall_forall in Hx. apply Hx. eapply rd_In; eauto. }
  assert (Sg : forall i, 0 <= i < zlen g -> zlen (sel [] g i) = cols).
  { intros i Hg'. rewrite Forall_forall in Hg. apply Hg. now apply In_sel. }
  unfold dot2. rewrite (zsum_combine zr []) by (rewrite zlen_map; auto). rewrite zlen_map. cbn [fst snd].
  rewrite dot_sel.
  2:{ unfold scatter_add2. rewrite (zlen_concat_rows cols) by (auto; lia). rewrite zlen_tab, zlen_repeat; [lia|].
      rewrite zlen_repeat. nia. }
  rewrite (zlen_concat_rows cols) by (auto; lia).
  set (F := fun r c => sel 0 (sel [] x r) c *
     zsum (map (fun i => if sel (-1) idx i =? r then sel 0 (sel [] g i) c else 0) (zrange (zlen idx)))).
  transitivity (zsum (map (fun k => F (k / cols) (k mod cols)) (zrange (zlen x * cols)))).
  2:{ unfold F. apply zsum_ext. intros k Hk. apply in_zrange in Hk.
      assert (B1 : 0 <= k / cols < zlen x) by (split; [apply Z.div_pos; lia|apply Z.div_lt_upper_bound; lia]).
      assert (B2 : 0 <= k mod cols < cols) by (apply Z.mod_pos_bound; lia).
      assert (Ek : k = k / cols * cols + k mod cols) by (pose proof (Z.div_mod k cols); lia).
      f_equal; [rewrite Ek at 3; now rewrite sel_concat_rows by auto|].
      unfold scatter_add2. rewrite sel_tab by (rewrite zlen_repeat; lia).
      rewrite zsum_filter, (zsum_combine (-1) []) by auto. cbn [fst snd].
      assert (E0 : sel 0 (sel [] (repeat zr (Z.to_nat (zlen x))) (k / cols)) (k mod cols) = 0).
      { unfold sel at 2. destruct (rd (repeat zr _) _) as [r|] eqn:E.
        - apply rd_In, repeat_spec in E. subst r. apply sel_repeat.
        - unfold sel. now rewrite rd_nil. }
      rewrite E0. lia. }
  rewrite zsum_grid by lia. unfold F.
  transitivity (zsum (map (fun r => zsum (map (fun i => zsum (map (fun c =>
      if sel (-1) idx i =? r then sel 0 (sel [] x r) c * sel 0 (sel [] g i) c else 0)
      (zrange cols))) (zrange (zlen idx)))) (zrange (zlen x)))).
  2:{ apply zsum_ext. intros r Hr. rewrite zsum_swap. apply zsum_ext. intros c _. rewrite <- zsum_mul_l.
      apply zsum_ext. intros i _. destruct (_ =? _); lia. }
  rewrite zsum_swap. apply zsum_ext. intros i Hin. apply in_zrange in Hin.
  pose proof (idx_ok_sel _ _ _ Hi Hin) as B. rewrite (sel_map (-1)) by auto.
  set (j := sel (-1) idx i) in *. rewrite dot_sel by (rewrite Sx, Sg; lia). rewrite Sx by auto.
  rewrite (zsum_ext (fun r => zsum _) (fun r => if r =? j then zsum (map (fun c => sel 0 (sel zr x j) c * sel 0 (sel [] g i) c) (zrange cols)) else 0)).
  - rewrite zsum_delta. destruct ((0 <=? j) && (j <? zlen x)) eqn:E; auto.
    replace j with (-1) by lia. rewrite sel_m1. apply zsum_zero. intros c _. unfold zr. rewrite sel_repeat. lia.
  - intros r Hr. apply in_zrange in Hr. rewrite Z.eqb_sym. destruct (r =? j) eqn:E.
    + apply Z.eqb_eq in E. subst r. apply zsum_ext. intros c _. do 2 f_equal.
      unfold sel. destruct (rd x j) eqn:E2; auto. destruct (rd_in_bound x j) as (v & Ev); [lia|congruence].
    + apply zsum_zero. auto.
Qed.

(** ** index_and_sum *)
Lemma idx_ok_concat n (y : list (list Z)) : Forall (idx_ok n) y -> idx_ok n (concat y).
Proof. induction 1; simpl; [constructor|]. apply Forall_app; auto. Qed.

Lemma splits_of_map {A B} (f : A -> B) (x : list (list A)) : splits_of (map (map f) x) = splits_of x.
Proof. unfold splits_of. f_equal. rewrite map_map. apply map_ext. intros; apply zlen_map. Qed.
Lemma ids_of_map {A B} (f : A -> B) (x : list (list A)) : ids_of (map (map f) x) = ids_of x.
Proof.
  unfold ids_of. generalize 0. induction x as [|l x IH]; intros r; simpl; auto.
  rewrite IH. now rewrite map_length.
Qed.

Lemma index_and_sum_ok src (y : list (list Z)) : Forall (idx_ok (zlen src)) y ->
  index_and_sum src (splits_of y) (concat y) = Some (map (fun js => zsum (map (sel 0 src) js)) y).
Proof.
  intros H. unfold index_and_sum. rewrite index1_ok by now apply idx_ok_concat.
  unfold sum_per_sublist. rewrite <- (splits_of_map (sel 0 src)), concat_map, to_vec_vec_ok.
  now rewrite map_map.
Qed.

Lemma dot_app x1 y1 x2 y2 : zlen x1 = zlen y1 -> dot (x1 ++ x2) (y1 ++ y2) = dot x1 y1 + dot x2 y2.
Proof.
  intros H. unfold dot. revert y1 H. induction x1 as [|a x1 IH]; intros [|b y1] H; simpl; auto.
  - rewrite zlen_cons in H. change (zlen (@nil Z)) with 0 in H. pose proof (zlen_nonneg y1). lia.
  - rewrite zlen_cons in H. change (zlen (@nil Z)) with 0 in H. pose proof (zlen_nonneg x1). lia.
  - rewrite !zlen_cons in H. rewrite IH by lia. lia.
Qed.

Lemma dot_const c l : dot l (map (fun _ => c) l) = zsum l * c.
Proof. unfold dot. induction l; simpl; auto. rewrite IHl. lia. Qed.

Lemma ids_expand {A} (y : list (list A)) (g : list Z) : zlen g = zlen y ->
  index1 0 g (ids_of y) = Some (concat (map (fun p => map (fun _ => fst p) (snd p)) (combine g y))).
Proof.
  intros H. rewrite index1_ok.
  - f_equal. apply list_ext_rd.
    + rewrite zlen_map. unfold ids_of. rewrite zlen_ids_from.
      revert g H. induction y as [|l y IH]; intros [|c g] H; try reflexivity.
      * rewrite zlen_cons in H. change (zlen (@nil Z)) with 0 in H. pose proof (zlen_nonneg y). lia.
      * simpl. rewrite !zlen_app, zlen_map. rewrite !zlen_cons in H. rewrite (IH g) by lia. reflexivity.
    + intros i Hi. rewrite zlen_map in Hi. unfold ids_of in Hi. rewrite zlen_ids_from in Hi.
      destruct (rd_in_bound _ i Hi) as (e & He). destruct (rd_concat_inv _ _ _ He) as (r & l & j & K1 & K2 & K3 & K4).
      rewrite rd_map, K4. simpl.
      pose proof (rd_Some_bound _ _ _ K1).
      assert (Q : rd (map (fun p => map (fun _ => fst p) (snd p)) (combine g y)) r = Some (map (fun _ => sel 0 g r) l)).
      { rewrite rd_map, rd_combine, K1. rewrite (sel_rd 0 g r) by lia. reflexivity. }
      assert (Q2 : rd (map (fun _ : A => sel 0 g r) l) j = Some (sel 0 g r)) by now rewrite rd_map, K2.
      destruct (rd_concat_off _ _ _ _ _ Q Q2) as (E & _).
      replace i with (off1 (map (fun p => map (fun _ => fst p) (snd p)) (combine g y)) r + j); [now rewrite E|].
      rewrite K3. f_equal. unfold off1. rewrite firstn_map.
      clear - H. revert g H. generalize (Z.to_nat r) as n. intros n. revert y.
      induction n as [|n IH]; intros y g H; [reflexivity|]. destruct y as [|l y], g as [|c g]; try reflexivity.
      * rewrite zlen_cons in H. change (zlen (@nil Z)) with 0 in H. pose proof (zlen_nonneg y). lia.
      * simpl. rewrite !zlen_app, zlen_map. rewrite !zlen_cons in H. rewrite (IH y g) by lia. reflexivity.
  - apply Forall_forall. intros j Hj. apply In_rd in Hj as (i & Hi & E).
    unfold ids_of in Hi. rewrite zlen_ids_from in Hi. destruct (rd_in_bound _ i Hi) as (e & He).
    destruct (rd_concat_inv _ _ _ He) as (r & l & j' & K1 & K2 & K3 & K4). rewrite E in K4. injection K4 as ->.
    pose proof (rd_Some_bound _ _ _ K1). lia.
Qed.

Lemma dot_expand f (y : list (list Z)) g : zlen g = zlen y ->
  dot (map (fun js => zsum (map f js)) y) g =
  dot (map f (concat y)) (concat (map (fun p => map (fun _ => fst p) (snd p)) (combine g y))).
Proof.
  revert g. induction y as [|js y IH]; intros [|c g] H; try reflexivity.
  - rewrite zlen_cons in H. change (zlen (@nil Z)) with 0 in H. pose proof (zlen_nonneg y). lia.
  - rewrite !zlen_cons in H. cbn [map concat combine fst snd]. rewrite map_app.
    rewrite dot_app by now rewrite !zlen_map. rewrite <- IH by lia.
    change (dot (zsum (map f js) :: ?a) (c :: g)) with (zsum (map f js) * c + dot a g).
    replace (map (fun _ : Z => c) js) with (map (fun _ : Z => c) (map f js)) by now rewrite map_map.
    rewrite dot_const. reflexivity.
Qed.
