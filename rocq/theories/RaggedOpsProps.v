(** * Properties C07 (index, cat, list conversion), C08 (sort), C09 (pad,
    remove_axis).  A ragged tensor with n+1 axes is the flat form
    ([layers_of], [values_of]) of an n-times nested list. *)
From Coq Require Import ZArith List Lia Bool Permutation Sorting.Sorted.
From Verif Require Import Base RaggedModel RaggedSpec RaggedProofs FsaSpec FsaLemmas.
From Verif Require Import RaggedOpsModel RaggedOpsSpec RaggedOpsProofs RaggedCatProofs RaggedListProofs
  FromListModel FromListProofs.
Import ListNotations.
Open Scope Z_scope.

(** C07: creating a two-axis tensor from vectors and reading it back. *)
Theorem C07_create_to_list : forall (A : Type) (x : list (list A)),
  let r := create_ragged2 x in
  r = (splits_of x, concat x) /\ to_vec_vec (fst r) (snd r) = Some x.
Proof. intros. unfold r. rewrite create_ragged2_ok. split; [reflexivity|apply to_vec_vec_ok]. Qed.
Print Assumptions C07_create_to_list.

(** C07: RaggedTensor(data).tolist() for data nested to any uniform depth
    ([unif (S m)]: numbers occur exactly at depth m+1; empty lists may occur
    anywhere).  If the data has no numbers, or the first list reached by
    always descending into first elements is one at the deepest level, the
    tensor is built, its values are the numbers in order, and tolist() returns
    the data; otherwise the constructor raises. *)
Theorem C07_from_list_tolist : forall (A : Type) (m : nat) (data : list (pyval A)),
  Forall (unif (S m)) data ->
  ((flat_map leaves data = [] \/ exists v t, data = v :: t /\ ftl v = Z.of_nat (S m)) ->
   exists rss, from_list data = Some (rss, flat_map leaves data) /\
               tolist rss (flat_map leaves data) = Some data) /\
  (~ (flat_map leaves data = [] \/ exists v t, data = v :: t /\ ftl v = Z.of_nat (S m)) ->
   from_list data = None).
Proof.
  intros A m data H. pose proof (vals_leaves (S m) data H) as V. destruct (from_list_ok m data H) as (H1 & H2).
  rewrite V in H1.
  assert (E : good (S m) (-1) 0 data <->
    (flat_map leaves data = [] \/ exists v t, data = v :: t /\ ftl v = Z.of_nat (S m))).
  { unfold good. rewrite V. unfold d_after. change (-1 =? -1) with true. cbv iota.
    destruct data as [|v t]; [split; auto|]. split; intros [K|K]; auto; right.
    - exists v, t. split; [reflexivity|lia].
    - destruct K as (v' & t' & K1 & K2). injection K1 as -> ->. lia. }
  split; intros K; [apply H1|apply H2]; now rewrite E.
Qed.
Print Assumptions C07_from_list_tolist.

(** C07: not every properly nested list is accepted, although the comment in
    the code (ragged_any.cu:120, 130) says [ [], [[1]] ] is valid. *)
Theorem C07_from_list_refuted : exists data : list (pyval Z),
  Forall (unif 2) data /\ data = [PList []; PList [PList [PElem 1]]] /\ from_list data = None.
Proof.
  exists [PList []; PList [PList [PElem 1]]]. split; [repeat constructor|]. split; reflexivity.
Qed.
Print Assumptions C07_from_list_refuted.

(** ... and one that is not uniformly nested is accepted and silently changed. *)
Theorem C07_from_list_ragged_depth_refuted : exists (data data' : list (pyval Z)) r,
  from_list data = Some r /\ tolist (fst r) (snd r) = Some data' /\ data' <> data.
Proof.
  exists [PList [PElem 1]; PList [PList []]], [PList [PList [PElem 1]]; PList []]. eexists.
  split; [reflexivity|]. split; [reflexivity|discriminate].
Qed.
Print Assumptions C07_from_list_ragged_depth_refuted.

(** C07: Index on axis 0 of a tensor with any number of axes returns the
    selected sublists in order (empty for -1), and [value_indexes] are the
    positions the values come from. *)
Theorem C07_index_axis0 : forall (A : Type) (m : nat) (x : list (nest A (S m))) (idx : list Z),
  index_ok x idx ->
  exists el,
    ragged_index (layers_of (S m) x) (values_of (S m) x) idx =
      Some (layers_of (A:=A) (S m) (map (pick x) idx),
            values_of (A:=A) (S m) (map (pick x) idx), el) /\
    mapM (rd (values_of (S m) x)) el = Some (values_of (A:=A) (S m) (map (pick x) idx)).
Proof.
  intros A m x idx H. destruct (index_axis0_ok m x idx H) as (el & E1 & E2).
  exists el. split; auto. unfold ragged_index. rewrite E1. cbn [fst snd].
  exact (f_equal (fun o => v <- o ;; Some (layers_of (A:=A) (S m) (map (pick x) idx), v, el)) E2).
Qed.
Print Assumptions C07_index_axis0.

(** C07: indexing with a ragged index (and removing the axis) concatenates the
    selected sublists of each index list. *)
Theorem C07_index_ragged : forall (A : Type) (x : list (list A)) (y : list (list Z)),
  Forall (index_ok x) y ->
  ragged_index_ragged (layers_of (A:=A) 1 x) (concat x) (layers_of (A:=Z) 1 y) (concat y) true =
    let z := map (fun js => concat (map (pick x) js)) y in
    Some (layers_of (A:=A) 1 z, concat z).
Proof. intros. now apply ragged_index_ragged_ok. Qed.
Print Assumptions C07_index_ragged.

(** C07: Cat along axis 0 of tensors with any number of axes is list
    concatenation. *)
Theorem C07_cat_axis0 : forall (A : Type) (m : nat) (xs : list (list (nest A (S m)))), xs <> [] ->
  ragged_cat0 (map (fun x => (layers_of (S m) x, values_of (S m) x)) xs) =
  Some (layers_of (A:=A) (S m) (concat xs), values_of (A:=A) (S m) (concat xs)).
Proof. intros. now apply ragged_cat0_ok. Qed.
Print Assumptions C07_cat_axis0.

(** C07: Cat along axis 1 of two-axis tensors with equally many rows: row i is
    the concatenation of the rows i. *)
Theorem C07_cat_axis1 : forall (A : Type) (xs : list (list (list A))) rows, xs <> [] ->
  Forall (fun x => zlen x = rows) xs ->
  ragged_cat1 (map (fun x => (mk_layer (splits_of x) (ids_of x), concat x)) xs) =
  let y := cat_rows xs rows in Some (mk_layer (splits_of y) (ids_of y), concat y).
Proof. intros. now apply ragged_cat1_ok. Qed.
Print Assumptions C07_cat_axis1.

Lemma mapM_perm {A B} (f : A -> option B) l l' : Permutation l l' -> forall s s',
  mapM f l = Some s -> mapM f l' = Some s' -> Permutation s s'.
Proof.
  induction 1 as [|a l l' P IH|a b l|l l' l'' P1 IH1 P2 IH2]; intros s s' E E'; simpl in *.
  - injection E as <-. injection E' as <-. constructor.
  - destruct (f a); [|discriminate]. destruct (mapM f l) eqn:M; [|discriminate].
    destruct (mapM f l') eqn:M'; [|discriminate]. injection E as <-. injection E' as <-. constructor. now apply IH.
  - destruct (f a), (f b); try discriminate. destruct (mapM f l); [|discriminate].
    injection E as <-. injection E' as <-. apply perm_swap.
  - assert (G : exists mid, mapM f l' = Some mid).
    { clear - P1 E. revert s E. induction P1; intros s E; simpl in *; eauto.
      - destruct (f x); [|discriminate]. destruct (mapM f l) eqn:M; [|discriminate].
        destruct (IHP1 _ eq_refl) as (m & ->). eauto.
      - destruct (f x), (f y); try discriminate. destruct (mapM f l); [|discriminate]. eauto.
      - destruct (IHP1_1 _ E) as (m & M). eauto. }
    destruct G as (mid & M). exact (perm_trans (IH1 _ _ E M) (IH2 _ _ M E')).
Qed.

(** C08: for a strict weak order, SortSublists succeeds on every tensor; per
    row: the order map is a permutation of the row's own positions (so it
    never crosses a boundary), the new values are the old ones at those
    positions, they are sorted, and ties keep their order. *)
Theorem C08_sort_sublists : forall (A : Type) (lt : A -> A -> bool),
  (forall a b, lt a b = true -> lt b a = false) ->
  (forall a b c, lt a c = true -> lt a b = true \/ lt b c = true) ->
  forall x : list (list A), exists outs,
    sort_sublists lt (splits_of x) (concat x) = Some (concat (map fst outs), concat (map snd outs)) /\
    zlen outs = zlen x /\
    forall i row, rd x i = Some row -> exists vals order, rd outs i = Some (vals, order) /\
      Permutation order (map (fun k => zlen (concat (firstn (Z.to_nat i) x)) + k) (zrange (zlen row))) /\
      mapM (rd (concat x)) order = Some vals /\
      Permutation row vals /\
      StronglySorted (fun p q => exists a b, rd (concat x) p = Some a /\ rd (concat x) q = Some b /\
         lt b a = false /\ (lt a b = false -> p < q)) order /\
      StronglySorted (fun a b => lt b a = false) vals.
Proof.
  intros A lt H1 H2 x. destruct (sort_sublists_ok lt H1 H2 x) as (outs & E1 & E2 & E3).
  exists outs. split; [exact E1|]. split; [exact E2|]. intros i row Hr.
  destruct (E3 i row Hr) as ((vals & order) & F1 & F2 & F3 & F4). cbn [fst snd] in *.
  exists vals, order. split; [exact F1|]. split; [now apply Permutation_sym|]. split; [exact F3|].
  split; [|split; [exact F4|]].
  - assert (V : mapM (rd (concat x)) (map (fun k => off1 x i + k) (zrange (zlen row))) = Some row).
    { rewrite mapM_map. pose proof (slice_ok x i row Hr) as S. unfold slice in S. rewrite (off1_next x i row Hr) in S.
      replace (off1 x i + zlen row - off1 x i) with (zlen row) in S by lia. exact S. }
    exact (mapM_perm _ _ _ F2 _ _ V F3).
  - clear - F3 F4. revert vals F3. induction F4 as [|p l HS IH HF]; intros vals F3; simpl in F3.
    + injection F3 as <-. constructor.
    + destruct (rd (concat x) p) as [a|] eqn:Ea; [|discriminate].
      destruct (mapM (rd (concat x)) l) as [s|] eqn:Es; [|discriminate]. injection F3 as <-.
      constructor; [now apply IH|]. apply Forall_forall. intros b Hb.
      apply In_rd in Hb as (j & _ & Hb). destruct (mapM_rd _ _ _ _ _ Es Hb) as (q & Q1 & Q2).
      rewrite Forall_forall in HF. destruct (HF q (rd_In _ _ _ Q1)) as (a' & b' & A1 & A2 & A3 & _). congruence.
Qed.
Print Assumptions C08_sort_sublists.

(** C09: padding.  M is the largest row length; every row is kept and extended
    by the padding value (or, in 'replicate' mode, by its own last - or, when
    padding on the left, first - element; by the padding value if empty). *)
Theorem C09_pad : forall (A : Type) (x : list (list A)) is_constant pad_left padding,
  exists M, (forall row, In row x -> zlen row <= M) /\ (M = 0 \/ exists row, In row x /\ zlen row = M) /\
  pad_ragged (splits_of x) (concat x) is_constant pad_left padding =
  Some (map (fun row =>
          let fill := if is_constant then padding
                      else if pad_left then hd padding row else last row padding in
          let p := repeat fill (Z.to_nat (M - zlen row)) in
          if pad_left then p ++ row else row ++ p) x).
Proof.
  intros. exists (fold_left Z.max (map zlen x) 0). split; [|split].
  - intros row Hr. apply fold_max_ge. now apply in_map.
  - destruct (fold_max_in (map zlen x) 0) as [H|H]; auto. right.
    apply in_map_iff in H as (row & <- & Hr). eauto.
  - apply pad_ragged_ok.
Qed.
Print Assumptions C09_pad.

(** C09: removing axis k of a tensor with three or more axes flattens exactly
    that nesting level; the values are unchanged. *)
Theorem C09_remove_axis : forall (A : Type) (k n : nat) (x : list (nest A (S (S n)))), (k <= S n)%nat ->
  remove_axis (layers_of (S (S n)) x) k = Some (layers_of (A:=A) (S n) (flatten_axis k (S n) x)) /\
  values_of (A:=A) (S n) (flatten_axis k (S n) x) = values_of (S (S n)) x.
Proof. intros. now apply remove_axis_ok. Qed.
Print Assumptions C09_remove_axis.

(** ** The hypotheses are satisfiable; concrete instances. *)
Definition ex_x : list (nest Z 2) := [ [[1;2];[];[3]]; []; [[4]] ].
Example ex_index : index_ok ex_x [2; -1; 0; 2; 1].
Proof. unfold index_ok. repeat constructor; unfold zlen; simpl; lia. Qed.
Example ex_index_run :
  exists el, ragged_index (layers_of (A:=Z) 2 ex_x) (values_of (A:=Z) 2 ex_x) [2; -1; 0] =
  Some (layers_of (A:=Z) 2 [ [[4]]; []; [[1;2];[];[3]] ], [4;1;2;3], el) /\ el = [3;0;1;2].
Proof. eexists. split; reflexivity. Qed.
Example ex_cat0_run : ragged_cat0 [(layers_of (A:=Z) 2 ex_x, values_of (A:=Z) 2 ex_x);
    (layers_of (A:=Z) 2 [ []; [[];[9]] ], [9])] =
  Some (layers_of (A:=Z) 2 (ex_x ++ [ []; [[];[9]] ]), [1;2;3;4;9]).
Proof. reflexivity. Qed.
Example ex_cat1_run :
  ragged_cat1 (map (fun x => (mk_layer (splits_of x) (ids_of x), concat x))
    [ [[1];[];[2;3]]; [[7;8];[9];[]] ]) =
  let y := [[1;7;8];[9];[2;3]] in Some (mk_layer (splits_of y) (ids_of y), concat y).
Proof. reflexivity. Qed.
Example ex_index_ragged_hyp : Forall (index_ok [[1;2];[];[3]]) [[0;2];[];[1;-1;0]].
Proof. repeat constructor; unfold zlen; simpl; lia. Qed.
Example ex_sort_order : (forall a b, Z.ltb a b = true -> Z.ltb b a = false) /\
  (forall a b c, Z.ltb a c = true -> Z.ltb a b = true \/ Z.ltb b c = true).
Proof. split; intros; lia. Qed.
Example ex_sort_run : sort_sublists Z.ltb (splits_of [[3;1;2];[];[5;4;5;4]]) [3;1;2;5;4;5;4] =
  Some ([1;2;3;4;4;5;5], [1;2;0;4;6;3;5]).
Proof. reflexivity. Qed.
Example ex_pad_run : pad_ragged (splits_of [[1;2;3];[];[4]]) [1;2;3;4] false true 9 =
  Some [[1;2;3];[9;9;9];[4;4;4]].
Proof. reflexivity. Qed.
Example ex_remove_axis_run : remove_axis (layers_of (A:=Z) 2 ex_x) 1 = Some (layers_of (A:=Z) 1 [[1;2;3];[];[4]]).
Proof. reflexivity. Qed.
Example ex_from_list : let data := [PList [PList [PElem 1; PElem 2]; PList []]; PList []; PList [PList [PElem 3]]] in
  Forall (unif 2) data /\ (exists v t, data = v :: t /\ ftl v = 2) /\
  from_list data = Some ([[0;2;2;3];[0;2;2;3]], [1;2;3]).
Proof. split; [repeat constructor|]. split; [eexists; eexists; split; reflexivity|reflexivity]. Qed.
