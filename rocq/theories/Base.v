(** * Base: arrays, bounds-checked reads, and the K2_EVAL parallel loop.

    This file models the primitives that the C++ code of k2 is written in:
    contiguous arrays that are read by an int32 index, arrays that are
    allocated uninitialised and filled by a [K2_EVAL] lambda, and
    exclusive sums.  It contains no property of k2. *)
From Coq Require Import ZArith List Lia Bool Permutation Sorted.
From Coq Require Import ZifyBool ZifyNat.
Import ListNotations.
Open Scope Z_scope.

#[global] Arguments Z.add : simpl never.
#[global] Arguments Z.sub : simpl never.
#[global] Arguments Z.mul : simpl never.
#[global] Arguments Z.of_nat : simpl never.
#[global] Arguments Z.to_nat : simpl never.
#[global] Arguments Z.max : simpl never.
#[global] Arguments Z.min : simpl never.
#[global] Arguments Z.ltb : simpl never.
#[global] Arguments Z.leb : simpl never.
#[global] Arguments Z.eqb : simpl never.

(** Errors: [None] models a failed K2_CHECK, a Python exception, or an
    out-of-bounds or uninitialised read. *)
Notation "x <- e1 ;; e2" := (match e1 with Some x => e2 | None => None end)
  (at level 61, e1 at next level, right associativity).
Notation "'check' b ;; e2" := (if b then e2 else None)
  (at level 61, b at next level, right associativity).

Definition zlen {A} (l : list A) : Z := Z.of_nat (length l).

(** Array1<T>::operator[] / pointer reads (array.h, every [..._data[i]]):
    defined only for 0 <= i < Dim(). *)
Definition rd {A} (l : list A) (i : Z) : option A :=
  if i <? 0 then None else nth_error l (Z.to_nat i).

(** [0; 1; ...; n-1]: the index range of a K2_EVAL loop (eval.h); also
    torch.arange / k2 Range() / Arange(). *)
Definition zrange (n : Z) : list Z := map Z.of_nat (seq 0 (Z.to_nat n)).

(** Array whose element i is [v i]. *)
Definition tab {A} (n : Z) (v : Z -> A) : list A := map v (zrange n).

(** sequence of optional computations *)
Fixpoint mapM {A B} (f : A -> option B) (l : list A) : option (list B) :=
  match l with
  | [] => Some []
  | x :: t => y <- f x;; ys <- mapM f t;; Some (y :: ys)
  end.

(** A write [arr[i] = v] to an array; [None] if out of bounds. *)
Fixpoint wr_nat {A} (l : list A) (i : nat) (v : A) : option (list A) :=
  match l, i with
  | [], _ => None
  | _ :: t, O => Some (v :: t)
  | x :: t, S k => t' <- wr_nat t k v;; Some (x :: t')
  end.
Definition wr {A} (l : list A) (i : Z) (v : A) : option (list A) :=
  if i <? 0 then None else wr_nat l (Z.to_nat i) v.

Fixpoint wrs {A} (arr : list (option A)) (ws : list (Z * A))
  : option (list (option A)) :=
  match ws with
  | [] => Some arr
  | (i, v) :: t => arr' <- wr arr i (Some v);; wrs arr' t
  end.

(** [K2_EVAL(c, n, lambda, ...)] (eval.h:Eval): the body is run once for each
    index of [sched], which must be a permutation of [zrange n]; it returns
    the list of writes it performs.  On CPU the schedule is 0..n-1, on GPU any
    order is possible; bodies of K2_EVAL do not read what other indexes write
    (modelled separately where atomics are used). *)
Fixpoint k2_eval {A} (sched : list Z) (body : Z -> option (list (Z * A)))
         (arr : list (option A)) : option (list (option A)) :=
  match sched with
  | [] => Some arr
  | i :: t => ws <- body i;; arr' <- wrs arr ws;; k2_eval t body arr'
  end.

(** Reading back the whole of an array that was allocated uninitialised:
    [None] if some cell was never written. *)
Definition freeze {A} (arr : list (option A)) : option (list A) :=
  mapM (fun x => x) arr.

(** Allocate [n] uninitialised cells, run the loop, read the result. *)
Definition k2_fill {A} (n : Z) (sched : list Z)
           (body : Z -> option (list (Z * A))) : option (list A) :=
  arr <- k2_eval sched body (repeat None (Z.to_nat n));; freeze arr.

(** [sched] is a legal execution order of a K2_EVAL loop over [0..n-1]. *)
Definition is_sched (n : Z) (sched : list Z) : Prop :=
  Permutation sched (zrange n).

(** ExclusiveSum (array_ops_inl.h ExclusiveSum, with one extra element):
    the running sums [0; x0; x0+x1; ...]. *)
Fixpoint exsum_from (acc : Z) (l : list Z) : list Z :=
  match l with
  | [] => [acc]
  | x :: t => acc :: exsum_from (acc + x) t
  end.
Definition exsum (l : list Z) : list Z := exsum_from 0 l.

Fixpoint zsum (l : list Z) : Z :=
  match l with [] => 0 | x :: t => x + zsum t end.

(** ** Lemmas *)

Lemma zlen_nonneg {A} (l : list A) : 0 <= zlen l.
Proof. unfold zlen; lia. Qed.

Lemma zlen_nil (A : Type) : zlen (@nil A) = 0.
Proof. reflexivity. Qed.

Lemma zlen_cons {A} (x : A) l : zlen (x :: l) = 1 + zlen l.
Proof. unfold zlen; simpl length; lia. Qed.

Lemma zlen_app {A} (l l' : list A) : zlen (l ++ l') = zlen l + zlen l'.
Proof. unfold zlen; rewrite app_length; lia. Qed.

Lemma zlen_map {A B} (f : A -> B) l : zlen (map f l) = zlen l.
Proof. unfold zlen; rewrite map_length; reflexivity. Qed.

Lemma zlen_repeat {A} (x : A) n : zlen (repeat x n) = Z.of_nat n.
Proof. unfold zlen; rewrite repeat_length; reflexivity. Qed.

Lemma zrange_length n : length (zrange n) = Z.to_nat n.
Proof. unfold zrange; rewrite map_length, seq_length; reflexivity. Qed.

Lemma zlen_zrange n : 0 <= n -> zlen (zrange n) = n.
Proof. unfold zlen; rewrite zrange_length; lia. Qed.

Lemma zlen_tab {A} n (v : Z -> A) : 0 <= n -> zlen (tab n v) = n.
Proof. intros; unfold tab; rewrite zlen_map, zlen_zrange; auto. Qed.

Lemma in_zrange n i : In i (zrange n) <-> 0 <= i < n.
Proof.
  unfold zrange; rewrite in_map_iff; split.
  - intros (k & <- & Hk); apply in_seq in Hk; lia.
  - intros H; exists (Z.to_nat i); split; [lia|apply in_seq; lia].
Qed.

Lemma NoDup_zrange n : NoDup (zrange n).
Proof.
  unfold zrange. apply FinFun.Injective_map_NoDup; [intros x y; lia|apply seq_NoDup].
Qed.

Lemma in_sched n sched i : is_sched n sched -> In i sched <-> 0 <= i < n.
Proof.
  intros H; rewrite <- in_zrange; split; apply Permutation_in; auto.
  now apply Permutation_sym.
Qed.

Lemma is_sched_zrange n : is_sched n (zrange n).
Proof. apply Permutation_refl. Qed.

Lemma rd_Some_bound {A} (l : list A) i x : rd l i = Some x -> 0 <= i < zlen l.
Proof.
  unfold rd, zlen; destruct (i <? 0) eqn:E; [discriminate|].
  intros H; assert (Z.to_nat i < length l)%nat by (apply nth_error_Some; congruence).
  lia.
Qed.

Lemma rd_None {A} (l : list A) i : rd l i = None <-> (i < 0 \/ zlen l <= i).
Proof.
  unfold rd, zlen; destruct (i <? 0) eqn:E; [lia || (split; auto; lia)|].
  rewrite nth_error_None; lia.
Qed.

Lemma rd_in_bound {A} (l : list A) i : 0 <= i < zlen l -> exists x, rd l i = Some x.
Proof.
  intros H; destruct (rd l i) eqn:E; eauto.
  apply rd_None in E; lia.
Qed.

Lemma rd_nth {A} (l : list A) (k : nat) : rd l (Z.of_nat k) = nth_error l k.
Proof. unfold rd. replace (Z.of_nat k <? 0) with false by lia. now rewrite Nat2Z.id. Qed.

Lemma zlen_0_nil {A} (l : list A) : zlen l = 0 -> l = [].
Proof. destruct l; auto. rewrite zlen_cons. pose proof (zlen_nonneg l). lia. Qed.

Lemma rd_nil {A} i : rd (@nil A) i = None.
Proof. apply rd_None; change (zlen (@nil A)) with 0; lia. Qed.

Lemma rd_cons_0 {A} (x : A) l : rd (x :: l) 0 = Some x.
Proof. reflexivity. Qed.

Lemma rd_cons {A} (x : A) l i :
  rd (x :: l) i = if i =? 0 then Some x else rd l (i - 1).
Proof.
  destruct (i =? 0) eqn:E0.
  - replace i with 0 by lia; reflexivity.
  - unfold rd. destruct (i <? 0) eqn:E.
    + replace (i - 1 <? 0) with true by lia; reflexivity.
    + replace (i - 1 <? 0) with false by lia.
      replace (Z.to_nat i) with (S (Z.to_nat (i - 1))) by lia; reflexivity.
Qed.

Lemma rd_cons_S {A} (x : A) l i : 0 <= i -> rd (x :: l) (i + 1) = rd l i.
Proof. intros; rewrite rd_cons. replace (i + 1 =? 0) with false by lia. f_equal; lia. Qed.

Lemma rd_app_l {A} (l l' : list A) i : i < zlen l -> rd (l ++ l') i = rd l i.
Proof.
  intros H; unfold rd, zlen in *; destruct (i <? 0) eqn:E; auto.
  apply nth_error_app1; lia.
Qed.

Lemma rd_app_r {A} (l l' : list A) i :
  zlen l <= i -> rd (l ++ l') i = rd l' (i - zlen l).
Proof.
  intros H; unfold rd, zlen in *.
  replace (i <? 0) with false by lia.
  replace (i - Z.of_nat (length l) <? 0) with false by lia.
  rewrite nth_error_app2 by lia. f_equal; lia.
Qed.

Lemma rd_app {A} (l l' : list A) i :
  rd (l ++ l') i = if i <? zlen l then rd l i else rd l' (i - zlen l).
Proof.
  destruct (i <? zlen l) eqn:E; [apply rd_app_l|apply rd_app_r]; lia.
Qed.

Lemma rd_map {A B} (f : A -> B) l i : rd (map f l) i = option_map f (rd l i).
Proof.
  unfold rd; destruct (i <? 0); auto. apply nth_error_map.
Qed.

Lemma rd_zrange n i : 0 <= i < n -> rd (zrange n) i = Some i.
Proof.
  intros H; unfold zrange; rewrite rd_map.
  replace i with (Z.of_nat (Z.to_nat i)) at 1 by lia.
  rewrite rd_nth. rewrite (nth_error_nth' _ 0%nat) by (rewrite seq_length; lia).
  rewrite seq_nth by lia. simpl; f_equal; lia.
Qed.

Lemma rd_tab {A} n (v : Z -> A) i : 0 <= i < n -> rd (tab n v) i = Some (v i).
Proof. intros H; unfold tab; rewrite rd_map, rd_zrange; auto. Qed.

Lemma rd_tab_None {A} n (v : Z -> A) i : 0 <= n -> ~ (0 <= i < n) -> rd (tab n v) i = None.
Proof. intros H H0; apply rd_None; rewrite zlen_tab; lia. Qed.

Lemma rd_repeat {A} (x : A) n i : 0 <= i < Z.of_nat n -> rd (repeat x n) i = Some x.
Proof.
  intros H; unfold rd; replace (i <? 0) with false by lia.
  apply nth_error_repeat; lia.
Qed.

Lemma rd_In {A} (l : list A) i x : rd l i = Some x -> In x l.
Proof. unfold rd; destruct (i <? 0); [discriminate|]; apply nth_error_In. Qed.

Lemma In_rd {A} (l : list A) x : In x l -> exists i, 0 <= i < zlen l /\ rd l i = Some x.
Proof.
  intros H; apply In_nth_error in H as [k Hk].
  exists (Z.of_nat k); rewrite rd_nth; split; auto.
  apply (rd_Some_bound l _ x). now rewrite rd_nth.
Qed.

Lemma list_ext_nth {A} (l : list A) : forall l', (forall k, nth_error l k = nth_error l' k) -> l = l'.
Proof.
  induction l as [|x l IH]; intros [|y l'] H; auto.
  - specialize (H 0%nat); discriminate.
  - specialize (H 0%nat); discriminate.
  - f_equal.
    + specialize (H 0%nat); simpl in H; congruence.
    + apply IH; intros k; apply (H (S k)).
Qed.

Lemma list_ext_rd {A} (l l' : list A) :
  zlen l = zlen l' -> (forall i, 0 <= i < zlen l -> rd l i = rd l' i) -> l = l'.
Proof.
  intros HL H; apply list_ext_nth; intros k.
  destruct (Nat.lt_ge_cases k (length l)) as [Hk|Hk].
  - specialize (H (Z.of_nat k)); rewrite !rd_nth in H; apply H; unfold zlen; lia.
  - unfold zlen in HL.
    rewrite (proj2 (nth_error_None l k)) by lia.
    rewrite (proj2 (nth_error_None l' k)) by lia. reflexivity.
Qed.

Lemma tab_ext {A} n (v v' : Z -> A) :
  (forall i, 0 <= i < n -> v i = v' i) -> tab n v = tab n v'.
Proof.
  intros H; unfold tab; apply map_ext_in; intros i Hi; apply H; now apply in_zrange.
Qed.

Lemma tab_rd {A} (l : list A) (v : Z -> A) :
  (forall i, 0 <= i < zlen l -> rd l i = Some (v i)) -> l = tab (zlen l) v.
Proof.
  intros H; apply list_ext_rd.
  - rewrite zlen_tab; auto using zlen_nonneg.
  - intros i Hi; rewrite H, rd_tab; auto.
Qed.

Lemma zrange_app n m : 0 <= n -> 0 <= m ->
  zrange (n + m) = zrange n ++ map (fun i => n + i) (zrange m).
Proof.
  intros; unfold zrange. rewrite Z2Nat.inj_add, seq_app, map_app by lia.
  f_equal. rewrite map_map.
  replace (0 + Z.to_nat n)%nat with (Z.to_nat n) by lia.
  rewrite <- (Nat.add_0_r (Z.to_nat n)) at 1.
  assert (G : forall a b, map Z.of_nat (seq (Z.to_nat n + a) b) =
                          map (fun x => n + Z.of_nat x) (seq a b)).
  { intros a b; revert a; induction b; intros a; simpl; auto.
    f_equal; [lia|]. rewrite <- IHb. repeat f_equal; lia. }
  apply G.
Qed.

Lemma zrange_0 n : n <= 0 -> zrange n = [].
Proof. intros; unfold zrange; replace (Z.to_nat n) with 0%nat by lia; reflexivity. Qed.

Lemma zrange_S n : 0 <= n -> zrange (n + 1) = zrange n ++ [n].
Proof. intros; rewrite zrange_app by lia. f_equal. simpl. f_equal; lia. Qed.

Lemma zrange_cons n : 0 < n -> zrange n = 0 :: map (fun i => 1 + i) (zrange (n - 1)).
Proof. intros; replace n with (1 + (n - 1)) at 1 by lia. rewrite zrange_app by lia. reflexivity. Qed.

Lemma tab_app {A} n m (v : Z -> A) : 0 <= n -> 0 <= m ->
  tab (n + m) v = tab n v ++ tab m (fun i => v (n + i)).
Proof. intros; unfold tab. rewrite zrange_app, map_app, map_map; auto. Qed.

Lemma map_tab {A B} n (v : Z -> A) (f : A -> B) : map f (tab n v) = tab n (fun i => f (v i)).
Proof. unfold tab; now rewrite map_map. Qed.

(** mapM *)
Lemma mapM_Some_iff {A B} (f : A -> option B) l ys :
  mapM f l = Some ys <-> Forall2 (fun x y => f x = Some y) l ys.
Proof.
  revert ys; induction l as [|x l IH]; intros ys; simpl.
  - split; [intros [= <-]; constructor|]. intros H; inversion H; auto.
  - destruct (f x) as [y|] eqn:E.
    + destruct (mapM f l) as [ys'|] eqn:E2.
      * split.
        -- intros [= <-]; constructor; auto. now apply IH.
        -- intros H; inversion H; subst. rewrite E in H2; injection H2 as ->.
           apply IH in H4. congruence.
      * split; [discriminate|]. intros H; inversion H; subst. apply IH in H4; discriminate.
    + split; [discriminate|]. intros H; inversion H; subst; congruence.
Qed.

Lemma mapM_Some_map {A B} (f : A -> option B) (g : A -> B) l :
  (forall x, In x l -> f x = Some (g x)) -> mapM f l = Some (map g l).
Proof.
  induction l as [|x l IH]; intros H; simpl; auto.
  rewrite H by (now left). rewrite IH; auto. intros; apply H; now right.
Qed.

Lemma mapM_length {A B} (f : A -> option B) l ys : mapM f l = Some ys -> length ys = length l.
Proof. intros H; apply mapM_Some_iff in H. induction H; simpl; auto. Qed.

Lemma mapM_rd {A B} (f : A -> option B) l ys i y :
  mapM f l = Some ys -> rd ys i = Some y -> exists x, rd l i = Some x /\ f x = Some y.
Proof.
  intros H; apply mapM_Some_iff in H. revert i; induction H as [|a b l l' Hab H IH]; intros i Hi.
  - now rewrite rd_nil in Hi.
  - rewrite rd_cons in Hi; rewrite rd_cons. destruct (i =? 0); [injection Hi as <-; eauto|auto].
Qed.

(** writes *)
Lemma wr_nat_Some {A} (l : list A) k v :
  (k < length l)%nat -> exists l', wr_nat l k v = Some l' /\ length l' = length l /\
    forall j, nth_error l' j = if Nat.eqb j k then Some v else nth_error l j.
Proof.
  revert k; induction l as [|x l IH]; intros k Hk; simpl in Hk; [lia|].
  destruct k as [|k].
  - simpl. eexists; repeat split; eauto. intros [|j]; reflexivity.
  - destruct (IH k ltac:(lia)) as (l' & H1 & H2 & H3). simpl. rewrite H1.
    eexists; repeat split; simpl; auto. intros [|j]; auto. simpl. apply H3.
Qed.

Lemma wr_Some {A} (l : list A) i v :
  0 <= i < zlen l -> exists l', wr l i v = Some l' /\ zlen l' = zlen l /\
    forall j, rd l' j = if j =? i then Some v else rd l j.
Proof.
  intros H; unfold wr. replace (i <? 0) with false by lia.
  destruct (wr_nat_Some l (Z.to_nat i) v) as (l' & H1 & H2 & H3).
  { unfold zlen in H; lia. }
  exists l'; repeat split; auto.
  - unfold zlen; lia.
  - intros j; unfold rd. destruct (j <? 0) eqn:E.
    + replace (j =? i) with false by lia; auto.
    + rewrite H3. destruct (j =? i) eqn:E1.
      * replace (Nat.eqb (Z.to_nat j) (Z.to_nat i)) with true; auto.
        symmetry; apply Nat.eqb_eq; lia.
      * replace (Nat.eqb (Z.to_nat j) (Z.to_nat i)) with false; auto.
        symmetry; apply Nat.eqb_neq; lia.
Qed.

Lemma wr_None {A} (l : list A) i v : ~ (0 <= i < zlen l) -> wr l i v = None.
Proof.
  intros H; unfold wr. destruct (i <? 0) eqn:E; auto.
  assert (G : forall (l : list A) k, (length l <= k)%nat -> wr_nat l k v = None).
  { clear. induction l as [|x l IH]; intros [|k] Hk; simpl in *; auto; try lia.
    rewrite IH; auto; lia. }
  apply G. unfold zlen in H; lia.
Qed.

Definition agrees {A} (n : Z) (v : Z -> A) (w : Z * A) : Prop :=
  0 <= fst w < n /\ snd w = v (fst w).

Lemma wrs_agrees {A} n (v : Z -> A) ws : Forall (agrees n v) ws -> forall arr,
  zlen arr = n ->
  exists arr', wrs arr ws = Some arr' /\ zlen arr' = n /\
    forall j, 0 <= j < n ->
      rd arr' j = if existsb (fun w => fst w =? j) ws then Some (Some (v j)) else rd arr j.
Proof.
  induction 1 as [|[i x] ws [Hb Hv] H IH]; intros arr Hn; simpl in *.
  - exists arr; auto.
  - destruct (wr_Some arr i (Some x)) as (a1 & H1 & H2 & H3); [lia|].
    rewrite H1. destruct (IH a1 ltac:(lia)) as (a2 & H4 & H5 & H6).
    exists a2; repeat split; auto. intros j Hj. rewrite H6, H3 by auto.
    destruct (i =? j) eqn:E; simpl.
    + replace i with j in * by lia. rewrite Hv.
      replace (j =? j) with true by lia. destruct existsb; auto.
    + replace (j =? i) with false by lia. auto.
Qed.

Lemma k2_eval_agrees {A} n (v : Z -> A) body sched :
  (forall i, In i sched -> exists ws, body i = Some ws /\ Forall (agrees n v) ws) ->
  forall arr, zlen arr = n ->
  exists arr', k2_eval sched body arr = Some arr' /\ zlen arr' = n /\
    forall j, 0 <= j < n ->
      (rd arr j = Some (Some (v j)) \/
       (exists i ws, In i sched /\ body i = Some ws /\ In j (map fst ws))) ->
      rd arr' j = Some (Some (v j)).
Proof.
  induction sched as [|i t IH]; intros Hb arr Hn; simpl.
  - exists arr; repeat split; auto. intros j Hj [H|(i & ws & [] & _)]; auto.
  - destruct (Hb i (or_introl eq_refl)) as (ws & Hw & Ha). rewrite Hw.
    destruct (wrs_agrees n v ws Ha arr Hn) as (a1 & H1 & H2 & H3). rewrite H1.
    destruct (IH (fun k Hk => Hb k (or_intror Hk)) a1 H2) as (a2 & H4 & H5 & H6).
    exists a2; repeat split; auto. intros j Hj HH. apply H6; auto.
    destruct HH as [HH|(k & ws' & [->|Hk] & Hw' & Hin)].
    + left. rewrite H3 by auto. destruct existsb; auto.
    + left. rewrite Hw in Hw'; injection Hw' as <-. rewrite H3 by auto.
      replace (existsb _ ws) with true; auto. symmetry; apply existsb_exists.
      apply in_map_iff in Hin as (w & Hw1 & Hw2). exists w; split; auto; lia.
    + right. eauto 6.
Qed.

Lemma freeze_tab {A} n (v : Z -> A) arr :
  zlen arr = n -> (forall j, 0 <= j < n -> rd arr j = Some (Some (v j))) ->
  freeze arr = Some (tab n v).
Proof.
  intros Hn H. assert (E : arr = map Some (tab n v)).
  { apply list_ext_rd.
    - rewrite zlen_map, zlen_tab; auto. subst; apply zlen_nonneg.
    - intros i Hi. rewrite H by lia. rewrite rd_map, rd_tab by lia. reflexivity. }
  rewrite E. unfold freeze. clear. induction (tab n v); simpl; auto. now rewrite IHl.
Qed.

(** The main lemma on parallel loops: if all writes agree on one value per
    cell, all are in bounds and every cell is written by someone, then under
    every execution order the loop produces exactly that array. *)
Lemma k2_fill_spec {A} n m (v : Z -> A) body sched :
  0 <= n -> is_sched m sched ->
  (forall i, 0 <= i < m -> exists ws, body i = Some ws /\ Forall (agrees n v) ws) ->
  (forall j, 0 <= j < n -> exists i ws, 0 <= i < m /\ body i = Some ws /\ In j (map fst ws)) ->
  k2_fill n sched body = Some (tab n v).
Proof.
  intros Hn Hs Hb Hc. unfold k2_fill.
  destruct (k2_eval_agrees n v body sched) with (arr := repeat (@None A) (Z.to_nat n))
    as (arr' & H1 & H2 & H3).
  - intros i Hi; apply Hb. now apply (in_sched m sched).
  - rewrite zlen_repeat; lia.
  - rewrite H1. apply freeze_tab; auto. intros j Hj; apply H3; auto. right.
    destruct (Hc j Hj) as (i & ws & Hi & Hw). exists i, ws; split; auto.
    now apply (in_sched m sched).
Qed.

(** The frequent special case: index i writes exactly cell i. *)
Lemma k2_fill_map {A} n (v : Z -> A) body sched :
  0 <= n -> is_sched n sched ->
  (forall i, 0 <= i < n -> body i = Some [(i, v i)]) ->
  k2_fill n sched body = Some (tab n v).
Proof.
  intros Hn Hs Hb. apply k2_fill_spec with (m := n); auto.
  - intros i Hi; rewrite Hb by auto. eexists; split; eauto.
    repeat constructor; simpl; lia.
  - intros j Hj. exists j. rewrite Hb by auto. eexists; repeat split; eauto; try lia.
    now left.
Qed.

(** exclusive sums *)
Lemma exsum_from_length acc l : length (exsum_from acc l) = S (length l).
Proof. revert acc; induction l; intros; simpl; auto. Qed.

Lemma zlen_exsum l : zlen (exsum l) = zlen l + 1.
Proof. unfold zlen, exsum; rewrite exsum_from_length; lia. Qed.

Lemma rd_exsum_from acc l i : 0 <= i <= zlen l ->
  rd (exsum_from acc l) i = Some (acc + zsum (firstn (Z.to_nat i) l)).
Proof.
  revert acc i; induction l as [|x l IH]; intros acc i Hi; simpl.
  - change (zlen (@nil Z)) with 0 in Hi. assert (i = 0) by lia. subst i.
    change (Z.to_nat 0) with 0%nat. simpl. rewrite rd_cons_0. f_equal; lia.
  - rewrite zlen_cons in Hi. rewrite rd_cons. destruct (i =? 0) eqn:E.
    + replace (Z.to_nat i) with 0%nat by lia. simpl. f_equal; lia.
    + rewrite IH by lia. replace (Z.to_nat i) with (S (Z.to_nat (i - 1))) by lia.
      simpl. f_equal; lia.
Qed.

Lemma rd_exsum l i : 0 <= i <= zlen l ->
  rd (exsum l) i = Some (zsum (firstn (Z.to_nat i) l)).
Proof. intros; unfold exsum. rewrite rd_exsum_from by auto. f_equal; lia. Qed.

Lemma zsum_app l l' : zsum (l ++ l') = zsum l + zsum l'.
Proof. induction l; simpl; lia. Qed.

Lemma zsum_nonneg l : Forall (fun x => 0 <= x) l -> 0 <= zsum l.
Proof. induction 1; simpl; lia. Qed.

Lemma zsum_map_perm {A} (f : A -> Z) l l' :
  Permutation l l' -> zsum (map f l) = zsum (map f l').
Proof. induction 1; simpl; lia. Qed.

Lemma Forall_firstn {A} (P : A -> Prop) n l : Forall P l -> Forall P (firstn n l).
Proof. intros H; revert n; induction H; intros [|n]; simpl; auto. Qed.

(** Checks that a literal list is a schedule (used in examples only). *)
Ltac solve_sched :=
  unfold is_sched; vm_compute; apply NoDup_Permutation;
  [ repeat (constructor; [simpl; intuition discriminate|]); constructor
  | repeat (constructor; [simpl; intuition discriminate|]); constructor
  | intros; simpl; intuition auto ].

Lemma k2_eval_no_writes {A} (body : Z -> option (list (Z * A))) arr sched :
  (forall i, In i sched -> body i = Some []) -> k2_eval sched body arr = Some arr.
Proof.
  induction sched as [|i t IH]; intros H; simpl; auto.
  rewrite H by (now left). simpl. apply IH. intros; apply H; now right.
Qed.

(** All writes agree with [out] and every cell is written. *)
Lemma k2_fill_list {A} (out : list A) m body sched : is_sched m sched ->
  (forall i, 0 <= i < m -> exists ws, body i = Some ws /\
     Forall (fun w => rd out (fst w) = Some (snd w)) ws) ->
  (forall j, 0 <= j < zlen out -> exists i ws, 0 <= i < m /\ body i = Some ws /\ In j (map fst ws)) ->
  k2_fill (zlen out) sched body = Some out.
Proof.
  intros Hs Hb Hc. destruct out as [|d out'].
  - unfold k2_fill. rewrite k2_eval_no_writes; [reflexivity|].
    intros i Hi. apply (in_sched m) in Hi; auto. destruct (Hb i Hi) as (ws & E & F).
    destruct ws as [|w ws]; auto. inversion F as [|? ? F1 F2]; subst.
    now rewrite rd_nil in F1.
  - set (out := d :: out') in *.
    set (v := fun j => match rd out j with Some x => x | None => d end).
    rewrite (k2_fill_spec (zlen out) m v); auto using zlen_nonneg.
    + f_equal. symmetry. apply tab_rd. intros i Hi. unfold v.
      destruct (rd_in_bound out i Hi) as (x & ->). auto.
    + intros i Hi. destruct (Hb i Hi) as (ws & E & F). exists ws; split; auto.
      eapply Forall_impl; [|exact F]. intros w Hw. split.
      * exact (rd_Some_bound _ _ _ Hw).
      * unfold v. now rewrite Hw.
Qed.

(** Same, for loops in which index i performs writes described by [ws i]. *)
Lemma k2_fill_list_fun {A} (out : list A) m body sched ws : is_sched m sched ->
  (forall i, 0 <= i < m -> body i = Some (ws i)) ->
  (forall i w, 0 <= i < m -> In w (ws i) -> rd out (fst w) = Some (snd w)) ->
  (forall j, 0 <= j < zlen out -> exists i, 0 <= i < m /\ In j (map fst (ws i))) ->
  k2_fill (zlen out) sched body = Some out.
Proof.
  intros Hs Hb Hw Hc. apply (k2_fill_list out m); auto.
  - intros i Hi. exists (ws i). split; auto. apply Forall_forall. intros; eapply Hw; eauto.
  - intros j Hj. destruct (Hc j Hj) as (i & Hi & Hin). exists i, (ws i). auto.
Qed.

(** map with index *)
Fixpoint imap {A B} (f : Z -> A -> B) (k : Z) (l : list A) : list B :=
  match l with
  | [] => []
  | x :: t => f k x :: imap f (k + 1) t
  end.

Lemma zlen_imap {A B} (f : Z -> A -> B) l : forall k, zlen (imap f k l) = zlen l.
Proof. induction l; intros; simpl; auto. now rewrite !zlen_cons, IHl. Qed.

Lemma rd_imap {A B} (f : Z -> A -> B) l : forall k i,
  rd (imap f k l) i = option_map (f (k + i)) (rd l i).
Proof.
  induction l as [|x l IH]; intros k i; simpl; [now rewrite !rd_nil|].
  rewrite !rd_cons. destruct (i =? 0) eqn:E.
  - simpl. do 2 f_equal; lia.
  - rewrite IH. replace (k + 1 + (i - 1)) with (k + i) by lia. auto.
Qed.

Lemma map_imap {A B C} (g : B -> C) (f : Z -> A -> B) l : forall k,
  map g (imap f k l) = imap (fun i x => g (f i x)) k l.
Proof. induction l; intros; simpl; auto. now rewrite IHl. Qed.

Lemma imap_const {A B} (f : A -> B) l : forall k, imap (fun _ x => f x) k l = map f l.
Proof. induction l; intros; simpl; auto. now rewrite IHl. Qed.

Lemma imap_ext {A B} (f g : Z -> A -> B) l : forall k,
  (forall i x, rd l i = Some x -> f (k + i) x = g (k + i) x) -> imap f k l = imap g k l.
Proof.
  induction l as [|x l IH]; intros k H; simpl; auto. f_equal.
  - specialize (H 0 x eq_refl). now replace (k + 0) with k in H by lia.
  - apply IH. intros i y Hi. pose proof (rd_Some_bound _ _ _ Hi).
    specialize (H (i + 1) y). rewrite rd_cons_S in H by lia.
    replace (k + (i + 1)) with (k + 1 + i) in H by lia. auto.
Qed.

Lemma imap_app {A B} (f : Z -> A -> B) l l' : forall k,
  imap f k (l ++ l') = imap f k l ++ imap f (k + zlen l) l'.
Proof.
  induction l as [|x l IH]; intros k; simpl.
  - f_equal. change (zlen (@nil A)) with 0. lia.
  - rewrite IH. rewrite zlen_cons. do 3 f_equal; lia.
Qed.

Lemma imap_index {A} (l : list A) : forall k, imap (fun i _ => i) k l = map (fun i => k + i) (zrange (zlen l)).
Proof.
  intros k. apply list_ext_rd.
  - rewrite zlen_imap, zlen_map, zlen_zrange; auto using zlen_nonneg.
  - intros i Hi. rewrite zlen_imap in Hi. rewrite rd_imap, rd_map, rd_zrange by auto.
    destruct (rd_in_bound l i Hi) as (x & ->). auto.
Qed.
