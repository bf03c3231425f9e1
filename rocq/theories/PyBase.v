(** * Python dictionaries and strings.

    Models of the parts of the Python language the python layer of k2 relies
    on: insertion-ordered dictionaries and str operations.  A str is the list
    of its code points. *)
From Coq Require Import ZArith List Lia Bool Permutation Sorted.
From Coq Require Import ZifyBool ZifyNat.
From Coq Require Decimal DecimalFacts DecimalPos DecimalN DecimalZ.
From Verif Require Import Base.
Import ListNotations.
Open Scope Z_scope.

(** ** Dictionaries *)
Class Eqd (K : Type) := eqd : forall a b : K, {a = b} + {a <> b}.
#[global] Instance Eqd_Z : Eqd Z := Z.eq_dec.
#[global] Instance Eqd_list {A} (d : Eqd A) : Eqd (list A) := list_eq_dec d.

Definition dict (K V : Type) := list (K * V).

Section Dict.
  Context {K V : Type} {EQ : Eqd K}.

  (** d[k] / d.get(k) *)
  Fixpoint dget (d : dict K V) (k : K) : option V :=
    match d with
    | [] => None
    | (k', v) :: t => if eqd k' k then Some v else dget t k
    end.
  (** k in d *)
  Definition dmem (d : dict K V) (k : K) : bool :=
    match dget d k with Some _ => true | None => false end.
  (** d[k] = v : keeps the position of an existing key, else appends *)
  Fixpoint dset (d : dict K V) (k : K) (v : V) : dict K V :=
    match d with
    | [] => [(k, v)]
    | (k', v') :: t => if eqd k' k then (k, v) :: t else (k', v') :: dset t k v
    end.
  (** del d[k] *)
  Fixpoint ddel (d : dict K V) (k : K) : dict K V :=
    match d with
    | [] => []
    | (k', v') :: t => if eqd k' k then t else (k', v') :: ddel t k
    end.
  (** {**d, **e} *)
  Definition dmerge (d e : dict K V) : dict K V :=
    fold_left (fun acc kv => dset acc (fst kv) (snd kv)) e d.
  Definition keys (d : dict K V) : list K := map fst d.

  Lemma dget_dset d k v k' : dget (dset d k v) k' = if eqd k k' then Some v else dget d k'.
  Proof.
    induction d as [|[k0 v0] d IH]; simpl; auto.
    destruct (eqd k0 k) as [->|N]; simpl.
    - destruct (eqd k k'); auto.
    - destruct (eqd k0 k') as [->|]; auto. destruct (eqd k k'); congruence.
  Qed.

  Lemma dget_dset_same d k v : dget (dset d k v) k = Some v.
  Proof. rewrite dget_dset. destruct (eqd k k); congruence. Qed.

  Lemma dget_In d k v : dget d k = Some v -> In (k, v) d.
  Proof.
    induction d as [|[k0 v0] d IH]; simpl; [discriminate|].
    destruct (eqd k0 k) as [->|]; [intros [= ->]; auto|auto].
  Qed.

  Lemma In_dget d k v : NoDup (keys d) -> In (k, v) d -> dget d k = Some v.
  Proof.
    induction d as [|[k0 v0] d IH]; simpl; [tauto|]. intros H Hin.
    inversion H; subst. destruct (eqd k0 k) as [->|N].
    - destruct Hin as [[= <-]|Hin]; auto. exfalso. apply H2. now apply (in_map fst) in Hin.
    - destruct Hin as [[= <- <-]|Hin]; [congruence|auto].
  Qed.

  Lemma dget_None d k : dget d k = None <-> ~ In k (keys d).
  Proof.
    induction d as [|[k0 v0] d IH]; simpl; [tauto|].
    destruct (eqd k0 k) as [->|N]; [split; [discriminate|tauto]|]. rewrite IH. tauto.
  Qed.

  Lemma dget_key d k : In k (keys d) -> exists v, dget d k = Some v.
  Proof.
    intros H. destruct (dget d k) eqn:E; eauto. apply dget_None in E. tauto.
  Qed.

  Lemma dmem_key d k : dmem d k = true <-> In k (keys d).
  Proof.
    unfold dmem. destruct (dget d k) eqn:E.
    - split; auto. intros _. apply dget_In in E. now apply (in_map fst) in E.
    - apply dget_None in E. split; [discriminate|tauto].
  Qed.

  Lemma dset_keys d k v k' : In k' (keys (dset d k v)) <-> k' = k \/ In k' (keys d).
  Proof.
    induction d as [|[k0 v0] d IH]; simpl; [intuition congruence|].
    destruct (eqd k0 k) as [->|N]; simpl; [intuition congruence|]. rewrite IH. tauto.
  Qed.

  Lemma NoDup_dset d k v : NoDup (keys d) -> NoDup (keys (dset d k v)).
  Proof.
    induction d as [|[k0 v0] d IH]; simpl; intros H; [constructor; auto|].
    inversion H; subst. destruct (eqd k0 k) as [->|N]; simpl; constructor; auto.
    intros Hin. apply dset_keys in Hin. intuition congruence.
  Qed.

  Lemma dset_new d k v : ~ In k (keys d) -> dset d k v = d ++ [(k, v)].
  Proof.
    induction d as [|[k0 v0] d IH]; simpl; intros H; auto.
    destruct (eqd k0 k) as [->|N]; [tauto|]. f_equal. tauto.
  Qed.

  Lemma NoDup_dmerge e : forall d, NoDup (keys d) -> NoDup (keys (dmerge d e)).
  Proof.
    unfold dmerge. induction e as [|kv e IH]; simpl; auto. intros d H. apply IH. now apply NoDup_dset.
  Qed.

  Lemma dget_dmerge e : forall d k, NoDup (keys e) ->
    dget (dmerge d e) k = match dget e k with Some v => Some v | None => dget d k end.
  Proof.
    unfold dmerge. induction e as [|[k0 v0] e IH]; simpl; auto. intros d k H. inversion H; subst.
    rewrite IH by auto. rewrite dget_dset. destruct (eqd k0 k) as [->|N].
    - destruct (dget e k) eqn:Ek; auto. apply dget_In, (in_map fst) in Ek. tauto.
    - reflexivity.
  Qed.

  Lemma dget_app d e k : dget (d ++ e) k = match dget d k with Some v => Some v | None => dget e k end.
  Proof. induction d as [|[k0 v0] d IH]; simpl; auto. destruct (eqd k0 k); auto. Qed.

  Lemma dget_ddel d k k' : NoDup (keys d) -> dget (ddel d k) k' = if eqd k k' then None else dget d k'.
  Proof.
    induction d as [|[k0 v0] d IH]; simpl; intros H.
    - destruct (eqd k k'); auto.
    - inversion H; subst. destruct (eqd k0 k) as [->|N]; simpl.
      + destruct (eqd k k') as [->|]; auto. now apply dget_None.
      + destruct (eqd k0 k') as [->|N']; [destruct (eqd k k'); congruence|auto].
  Qed.

  Lemma ddel_keys d k x : In x (keys (ddel d k)) -> In x (keys d).
  Proof.
    induction d as [|[k0 v0] d IH]; simpl; auto. destruct (eqd k0 k); simpl; [auto|]. intros [|]; auto.
  Qed.

  Lemma NoDup_ddel d k : NoDup (keys d) -> NoDup (keys (ddel d k)).
  Proof.
    induction d as [|[k0 v0] d IH]; simpl; intros H; auto. inversion H; subst.
    destruct (eqd k0 k); simpl; auto. constructor; auto. intros Hin. now apply ddel_keys in Hin.
  Qed.
End Dict.

(** ** Strings *)
Notation str := (list Z).

(** str.isspace code points (Objects/unicodetype_db.h, the set used by
    str.split() and str.strip()). *)
Definition is_ws (c : Z) : bool :=
  ((9 <=? c) && (c <=? 13)) || ((28 <=? c) && (c <=? 32)) || (c =? 133) || (c =? 160) ||
  (c =? 5760) || ((8192 <=? c) && (c <=? 8202)) || (c =? 8232) || (c =? 8233) ||
  (c =? 8239) || (c =? 8287) || (c =? 12288).

(** s.split(sep) for a one-character separator. *)
Fixpoint split_at (sep : Z) (cur : str) (s : str) : list str :=
  match s with
  | [] => [rev cur]
  | c :: t => if c =? sep then rev cur :: split_at sep [] t else split_at sep (c :: cur) t
  end.
Definition split_on (sep : Z) (s : str) : list str := split_at sep [] s.

(** s.split(): maximal runs of non-whitespace. *)
Fixpoint words_at (cur : str) (s : str) : list str :=
  match s with
  | [] => match cur with [] => [] | _ => [rev cur] end
  | c :: t => if is_ws c then match cur with [] => words_at [] t | _ => rev cur :: words_at [] t end
              else words_at (c :: cur) t
  end.
Definition words (s : str) : list str := words_at [] s.

(** s.strip() *)
Fixpoint lstrip (s : str) : str :=
  match s with
  | c :: t => if is_ws c then lstrip t else s
  | [] => []
  end.
Definition strip_ws (s : str) : str := rev (lstrip (rev (lstrip s))).

(** Decimal printing of an int (str(i), f'{i}', C++ operator<<): *)
Fixpoint uint_chars (u : Decimal.uint) : str :=
  match u with
  | Decimal.Nil => []
  | Decimal.D0 u => 48 :: uint_chars u
  | Decimal.D1 u => 49 :: uint_chars u
  | Decimal.D2 u => 50 :: uint_chars u
  | Decimal.D3 u => 51 :: uint_chars u
  | Decimal.D4 u => 52 :: uint_chars u
  | Decimal.D5 u => 53 :: uint_chars u
  | Decimal.D6 u => 54 :: uint_chars u
  | Decimal.D7 u => 55 :: uint_chars u
  | Decimal.D8 u => 56 :: uint_chars u
  | Decimal.D9 u => 57 :: uint_chars u
  end.
Definition print_int (i : Z) : str :=
  match Z.to_int i with
  | Decimal.Pos u => uint_chars u
  | Decimal.Neg u => 45 :: uint_chars u
  end.

(** Decimal parsing (int(s)): an optional sign and at least one ASCII digit.
    (Python also accepts underscores and non-ASCII digits; those inputs are
    rejected here.) *)
Fixpoint parse_uint (s : str) : option Decimal.uint :=
  match s with
  | [] => Some Decimal.Nil
  | c :: t =>
      u <- parse_uint t;;
      if c =? 48 then Some (Decimal.D0 u) else
      if c =? 49 then Some (Decimal.D1 u) else
      if c =? 50 then Some (Decimal.D2 u) else
      if c =? 51 then Some (Decimal.D3 u) else
      if c =? 52 then Some (Decimal.D4 u) else
      if c =? 53 then Some (Decimal.D5 u) else
      if c =? 54 then Some (Decimal.D6 u) else
      if c =? 55 then Some (Decimal.D7 u) else
      if c =? 56 then Some (Decimal.D8 u) else
      if c =? 57 then Some (Decimal.D9 u) else None
  end.
Definition parse_int (s : str) : option Z :=
  match s with
  | [] => None
  | c :: t =>
      if c =? 45 then (match t with [] => None | _ => u <- parse_uint t;; Some (Z.of_int (Decimal.Neg u)) end)
      else if c =? 43 then (match t with [] => None | _ => u <- parse_uint t;; Some (Z.of_int (Decimal.Pos u)) end)
      else u <- parse_uint s;; Some (Z.of_int (Decimal.Pos u))
  end.

Lemma parse_uint_chars u : parse_uint (uint_chars u) = Some u.
Proof. induction u; simpl; auto; rewrite IHu; reflexivity. Qed.

Lemma uint_chars_digit u c : In c (uint_chars u) -> 48 <= c <= 57.
Proof. induction u; simpl; intros H; try tauto; destruct H as [<-|H]; auto; lia. Qed.

Lemma uint_chars_nonempty z : uint_chars (match Z.to_int z with Decimal.Pos u => u | Decimal.Neg u => u end) <> [].
Proof.
  assert (P : forall p, Pos.to_uint p <> Decimal.Nil).
  { intros p H. pose proof (DecimalPos.Unsigned.to_uint_nonnil p). congruence. }
  destruct z; simpl.
  - discriminate.
  - destruct (Pos.to_uint p) eqn:E; simpl; try discriminate. now apply P in E.
  - destruct (Pos.to_uint p) eqn:E; simpl; try discriminate. now apply P in E.
Qed.

Lemma parse_print_int i : parse_int (print_int i) = Some i.
Proof.
  pose proof (uint_chars_nonempty i) as NE. unfold print_int.
  pose proof (DecimalZ.of_to i) as R. destruct (Z.to_int i) as [u|u].
  - destruct (uint_chars u) as [|c t] eqn:E; [congruence|].
    unfold parse_int. assert (H : 48 <= c <= 57) by (apply (uint_chars_digit u); rewrite E; now left).
    replace (c =? 45) with false by lia. replace (c =? 43) with false by lia.
    rewrite <- E, parse_uint_chars. now rewrite R.
  - unfold parse_int. change (45 =? 45) with true. cbv iota.
    destruct (uint_chars u) as [|c t] eqn:E; [congruence|].
    rewrite <- E, parse_uint_chars. now rewrite R.
Qed.

Lemma print_int_chars i c : In c (print_int i) -> c = 45 \/ 48 <= c <= 57.
Proof.
  unfold print_int. destruct (Z.to_int i) as [u|u]; simpl.
  - intros H. right. eapply uint_chars_digit; eauto.
  - intros [<-|H]; auto. right. eapply uint_chars_digit; eauto.
Qed.

Lemma print_int_nonempty i : print_int i <> [].
Proof.
  pose proof (uint_chars_nonempty i). unfold print_int. destruct (Z.to_int i); auto. discriminate.
Qed.

Lemma print_int_no_ws i : Forall (fun c => is_ws c = false) (print_int i).
Proof.
  apply Forall_forall. intros c Hc. apply print_int_chars in Hc. unfold is_ws.
  destruct Hc as [->|H]; [reflexivity|].
  repeat (apply orb_false_iff; split); lia.
Qed.

(** ** Splitting *)
Lemma split_at_line sep l rest : forall cur, ~ In sep l ->
  split_at sep cur (l ++ sep :: rest) = (rev cur ++ l) :: split_on sep rest.
Proof.
  induction l as [|c l IH]; intros cur H; simpl.
  - rewrite Z.eqb_refl, app_nil_r. reflexivity.
  - replace (c =? sep) with false by (symmetry; apply Z.eqb_neq; intros ->; apply H; now left).
    rewrite IH by (intros ?; apply H; now right). simpl. now rewrite <- app_assoc.
Qed.

Lemma split_on_line sep l rest : ~ In sep l -> split_on sep (l ++ sep :: rest) = l :: split_on sep rest.
Proof. intros H. unfold split_on at 1. now rewrite split_at_line. Qed.

Lemma split_at_last sep l : forall cur, ~ In sep l -> split_at sep cur l = [rev cur ++ l].
Proof.
  induction l as [|c l IH]; intros cur H; simpl; [now rewrite app_nil_r|].
  replace (c =? sep) with false by (symmetry; apply Z.eqb_neq; intros ->; apply H; now left).
  rewrite IH by (intros ?; apply H; now right). simpl. now rewrite <- app_assoc.
Qed.

Lemma split_on_last sep l : ~ In sep l -> split_on sep l = [l].
Proof. intros H. unfold split_on. now rewrite split_at_last. Qed.

Definition no_ws (s : str) : Prop := Forall (fun c => is_ws c = false) s.

Lemma words_at_run w rest : forall cur, no_ws w -> words_at cur (w ++ rest) = words_at (rev w ++ cur) rest.
Proof.
  induction w as [|c w IH]; intros cur H; simpl; auto. inversion H; subst.
  rewrite H2, IH by auto. now rewrite <- app_assoc.
Qed.

Lemma words_sep w c rest : no_ws w -> w <> [] -> is_ws c = true ->
  words (w ++ c :: rest) = w :: words rest.
Proof.
  intros H Hne Hc. unfold words. rewrite words_at_run by auto. rewrite app_nil_r.
  simpl. rewrite Hc. destruct (rev w) eqn:E.
  - apply (f_equal (@rev Z)) in E. rewrite rev_involutive in E. simpl in E. congruence.
  - rewrite <- E, rev_involutive. reflexivity.
Qed.

Lemma words_last w : no_ws w -> w <> [] -> words w = [w].
Proof.
  intros H Hne. unfold words. rewrite <- (app_nil_r w) at 1. rewrite words_at_run by auto. rewrite app_nil_r.
  simpl. destruct (rev w) eqn:E.
  - apply (f_equal (@rev Z)) in E. rewrite rev_involutive in E. simpl in E. congruence.
  - now rewrite <- E, rev_involutive.
Qed.

Lemma no_ws_no_nl s : no_ws s -> ~ In 10 s.
Proof. intros H Hin. unfold no_ws in H. rewrite Forall_forall in H. apply H in Hin. discriminate. Qed.

Lemma lstrip_id c s : is_ws c = false -> lstrip (c :: s) = c :: s.
Proof. intros H. simpl. now rewrite H. Qed.

(** strip() of a text whose first and last-but-trailing characters are not
    whitespace removes the trailing newline only *)
Lemma strip_ws_line c m d : is_ws c = false -> is_ws d = false ->
  strip_ws (c :: m ++ [d] ++ [10]) = c :: m ++ [d].
Proof.
  intros Hc Hd. unfold strip_ws. rewrite lstrip_id by auto.
  replace (rev (c :: m ++ [d] ++ [10])) with (10 :: d :: rev m ++ [c]).
  - simpl lstrip. change (is_ws 10) with true. cbv iota. rewrite Hd.
    simpl rev. rewrite rev_app_distr, rev_involutive. simpl. reflexivity.
  - simpl. rewrite rev_app_distr. simpl. reflexivity.
Qed.
