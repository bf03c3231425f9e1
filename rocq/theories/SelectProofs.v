(** * Selecting a subset of the elements of a ragged array. *)
From Coq Require Import ZArith List Lia Bool Permutation.
From Coq Require Import ZifyBool ZifyNat.
From Verif Require Import Base RaggedModel RaggedSpec RaggedProofs FsaSpec FsaLemmas.
Import ListNotations.
Open Scope Z_scope.

(** elements of [xs] whose flag is set *)
Fixpoint select {A} (keep : list bool) (xs : list A) : list A :=
  match keep, xs with
  | b :: k, x :: t => if b then x :: select k t else select k t
  | _, _ => []
  end.

Lemma mapM_app {A B} (f : A -> option B) l l' :
  mapM f (l ++ l') = (ys <- mapM f l;; ys' <- mapM f l';; Some (ys ++ ys')).
Proof.
  induction l as [|x l IH]; simpl.
  - destruct (mapM f l'); auto.
  - destruct (f x); auto. rewrite IH. destruct (mapM f l); auto. destruct (mapM f l'); auto.
Qed.

Lemma mapM_kept {A} keep : forall (pre xs : list A), length keep = length xs ->
  mapM (rd (pre ++ xs)) (kept_from (zlen pre) keep) = Some (select keep xs).
Proof.
  induction keep as [|b k IH]; intros pre [|x xs] H; try discriminate; simpl; auto.
  specialize (IH (pre ++ [x]) xs). rewrite <- app_assoc in IH. simpl in IH.
  rewrite zlen_app in IH. change (zlen [x]) with 1 in IH. injection H as H.
  rewrite mapM_app. rewrite IH by auto. destruct b; simpl; auto.
  rewrite rd_app_r by lia. replace (zlen pre - zlen pre) with 0 by lia. reflexivity.
Qed.

Lemma mapM_kept0 {A} keep (xs : list A) : length keep = length xs ->
  mapM (rd xs) (kept_from 0 keep) = Some (select keep xs).
Proof. intros H. exact (mapM_kept keep [] xs H). Qed.

Lemma select_filter {A} (P : A -> bool) l : select (map P l) l = filter P l.
Proof. induction l; simpl; auto. destruct (P a); now rewrite IHl. Qed.

Lemma select_app {A} k1 : forall k2 (x1 x2 : list A), length k1 = length x1 ->
  select (k1 ++ k2) (x1 ++ x2) = select k1 x1 ++ select k2 x2.
Proof.
  induction k1 as [|b k1 IH]; intros k2 [|x x1] x2 H; try discriminate; simpl; auto.
  injection H as H. rewrite IH by auto. destruct b; auto.
Qed.

Lemma select_repeat {A B} (P : A -> bool) (x : B) l :
  select (map P l) (repeat x (length l)) = repeat x (length (filter P l)).
Proof. induction l; simpl; auto. destruct (P a); simpl; now rewrite IHl. Qed.

Lemma select_ids {A} (P : A -> bool) ll : forall r,
  select (map P (concat ll)) (ids_from r ll) = ids_from r (map (filter P) ll).
Proof.
  induction ll as [|l ll IH]; intros r; simpl; auto.
  rewrite map_app, select_app by now rewrite map_length, repeat_length.
  now rewrite select_repeat, IH.
Qed.

Lemma length_ids_from {A} (ll : list (list A)) r : length (ids_from r ll) = length (concat ll).
Proof. pose proof (zlen_ids_from ll r). unfold zlen in *. lia. Qed.

(** Index on the last axis with the kept positions filters every row. *)
Lemma index_last_filter {A} (P : A -> bool) (ll : list (list A)) :
  index_last (ids_of ll) (zlen ll) (kept_from 0 (map P (concat ll))) =
  Some (splits_of (map (filter P) ll), ids_of (map (filter P) ll)).
Proof.
  unfold index_last. rewrite mapM_kept0 by (unfold ids_of; now rewrite map_length, length_ids_from).
  unfold ids_of. rewrite select_ids. fold (ids_of (map (filter P) ll)).
  replace (zlen ll) with (zlen (map (filter P) ll)) by apply zlen_map.
  now rewrite splits_of_row_ids.
Qed.

Lemma gather_filter {A} (P : A -> bool) (l : list A) :
  mapM (rd l) (kept_from 0 (map P l)) = Some (filter P l).
Proof. rewrite mapM_kept0 by now rewrite map_length. now rewrite select_filter. Qed.

Lemma filter_concat {A} (P : A -> bool) ll : filter P (concat ll) = concat (map (filter P) ll).
Proof. induction ll; simpl; auto. now rewrite filter_app, IHll. Qed.
