(** * C73: the text form of ragged tensors *)
From Coq Require Import ZArith List Lia Bool.
From Coq Require Import ZifyBool.
From Verif Require Import Base RaggedModel RaggedSpec RaggedProofs FsaSpec FsaLemmas PyBase FsaTextModel FsaTextSpec FsaTextProofs FromListModel FromListProofs RaggedOpsModel RaggedOpsSpec RaggedOpsProofs RaggedCatProofs RaggedListProofs RaggedTextModel RaggedTextSpec RaggedTextProofs.
Import ListNotations.
Open Scope Z_scope.

(** Any text of a uniformly nested list, in whatever layout, is read as the tensor with
    these sublists. *)
Theorem C73_read m data s w1 w2 : Forall (unif (S m)) data -> spells (PList data) s -> gap w1 -> blank w2 ->
  exists rss, ragged_of_text (w1 ++ s ++ w2) = Some (rss, flat_map leaves data) /\ tolist rss (flat_map leaves data) = Some data.
Proof.
  intros HU Hs H1 H2. destruct (text_ok m data s w1 w2 HU Hs H1) as (D & HT & E). rewrite E.
  assert (B : skip_ws w2 = []) by (rewrite <- (app_nil_r w2); rewrite skip_ws_app by exact H2; reflexivity).
  rewrite B. cbn [is_nil]. rewrite <- (vals_leaves (S m) data HU).
  eexists. split; [reflexivity|]. destruct D as [|D].
  - rewrite (trim_0 _ _ HT). reflexivity.
  - cbn [rows firstn]. unfold tolist. cbn [hd_error]. rewrite splits_rows, zlen_map.
    change (splits_of (map kids data) :: firstn D (rows m (concat (map kids data)))) with (firstn (S D) (rows (S m) data)).
    pose proof (zlen_nonneg data). rewrite to_list_ok by (auto; lia). f_equal.
    unfold sub. change (Z.to_nat 0) with 0%nat. simpl skipn. apply firstn_all2. unfold zlen. lia.
Qed.
(** Its number of axes is the depth of the nesting, if there is a sublist at the last level. *)
Theorem C73_read_axes m data s w1 w2 rss vs : Forall (unif (S m)) data -> spells (PList data) s -> gap w1 -> blank w2 ->
  last (rows (S m) data) [0] <> [0] -> ragged_of_text (w1 ++ s ++ w2) = Some (rss, vs) -> rss = rows (S m) data.
Proof.
  intros HU Hs H1 H2 HL. destruct (text_ok m data s w1 w2 HU Hs H1) as (D & HT & E). rewrite E.
  destruct (is_nil (skip_ws w2)); [|discriminate]. intros K. injection K as <- _.
  destruct (Nat.eq_dec D (S m)) as [->|N].
  - change (match firstn (S m) (rows (S m) data) with [] => [[0]] | q => q end = rows (S m) data).
    rewrite firstn_all2 by (rewrite (length_rows (S m) data); lia). reflexivity.
  - exfalso. apply HL. destruct HT as (T1 & T2). rewrite <- (firstn_skipn D (rows (S m) data)), T2.
    replace (S m - D)%nat with (S (m - D)) by lia.
    assert (G : forall n (l : list (list Z)), last (l ++ repeat [0] (S n)) [0] = [0]).
    { clear. intros n l. replace (repeat [0] (S n)) with (repeat [0] n ++ [[0]]) by (symmetry; apply repeat_cons). rewrite app_assoc. apply last_last. }
    apply G.
Qed.
(** Anything but white space after the last bracket is refused. *)
Theorem C73_read_trailing m data s w1 w2 c r : Forall (unif (S m)) data -> spells (PList data) s -> gap w1 -> blank w2 -> cws c = false ->
  ragged_of_text (w1 ++ s ++ w2 ++ c :: r) = None.
Proof.
  intros HU Hs H1 H2 Hc. destruct (text_ok m data s w1 (w2 ++ c :: r) HU Hs H1) as (D & HT & E). rewrite E.
  rewrite skip_ws_app by exact H2. rewrite skip_ws_id by exact Hc. reflexivity.
Qed.

(** ** Printing *)
Lemma gap1 c : cws c = true -> gap [c].
Proof. intros H. constructor; [now left|constructor]. Qed.
Definition int32s (l : list Z) : Prop := Forall (fun v => in32 v = true) l.

Lemma mapM_Forall2 {A B} (f : A -> option B) l ys : mapM f l = Some ys -> Forall2 (fun a b => f a = Some b) l ys.
Proof.
  revert ys. induction l as [|a l IH]; intros ys H; cbn in H; [injection H as <-; constructor|].
  destruct (f a) as [b|] eqn:E; [|discriminate]. destruct (mapM f l) as [bs|]; [|discriminate]. injection H as <-. constructor; auto.
Qed.
Lemma Forall2_impl {A B} (P Q : A -> B -> Prop) l m : (forall a b, P a b -> Q a b) -> Forall2 P l m -> Forall2 Q l m.
Proof. induction 2; constructor; auto. Qed.
Lemma print_items (f : Z -> option str) ds l :
  Forall2 (fun d v => exists x, f d = Some (x ++ [32]) /\ spells v x) ds l ->
  exists parts, mapM f ds = Some parts /\ spells_in l (concat parts ++ [93]).
Proof.
  induction 1 as [|d v ds l (x & E & Hx) H IH].
  - exists []. split; [reflexivity|]. apply (in_end []). constructor.
  - destruct IH as (parts & E2 & Hp). cbn [mapM]. rewrite E, E2. eexists. split; [reflexivity|]. cbn [concat]. rewrite <- !app_assoc.
    apply (in_item [] v x l); [constructor|exact Hx|apply gap_before; [now apply gap1|exact Hp]|destruct v; [reflexivity|exact I]].
Qed.
Lemma print_part_ok rss values : int32s values -> forall b e l, to_list rss values b e = Some l ->
  exists p, print_part rss values b e = Some p /\ spells_in l (p ++ [93]).
Proof.
  intros HI. induction rss as [|rs rss IH]; intros b e l H; cbn [to_list print_part] in *; apply mapM_Forall2 in H.
  - destruct (print_items (fun d => v <- rd values d;; Some (print_int v ++ [32])) (map (fun i => b + i) (zrange (e - b))) l) as (parts & -> & Hp); [|eauto].
    eapply Forall2_impl; [|exact H]. intros d v Hd. cbn beta in Hd. destruct (rd values d) as [z|] eqn:E; [|discriminate]. injection Hd as <-.
    exists (print_int z). split; [reflexivity|]. constructor. apply print_int_tok. apply rd_In in E. unfold int32s in HI. rewrite Forall_forall in HI. auto.
  - destruct (print_items (fun d => lo <- rd rs d;; hi <- rd rs (d + 1);; p <- print_part rss values lo hi;; Some ([91; 32] ++ p ++ [93; 32])) (map (fun i => b + i) (zrange (e - b))) l) as (parts & E & Hp).
    2:{ rewrite E. eauto. }
    eapply Forall2_impl; [|exact H]. intros d v Hd. cbn beta in *. destruct (rd rs d) as [lo|]; [|discriminate]. destruct (rd rs (d + 1)) as [hi|]; [|discriminate].
    destruct (to_list rss values lo hi) as [l'|] eqn:E; [|discriminate]. injection Hd as <-. destruct (IH _ _ _ E) as (p & -> & Hp).
    exists (91 :: [32] ++ p ++ [93]). split; [cbn [app]; rewrite <- !app_assoc; reflexivity|]. constructor. apply gap_before; [now apply gap1|exact Hp].
Qed.
Lemma py_items (item : Z -> option str) before after : gap before -> gap after -> (exists g, after ++ before = 44 :: g) -> forall ds l,
  Forall2 (fun d v => exists x, item d = Some x /\ spells v x) ds l -> forall first,
  exists p, py_loop item before after ds first = Some p /\ spells_in l (p ++ [93]) /\
    (ds <> [] -> first = false -> exists q, p = before ++ q).
Proof.
  intros Hb Ha (g & Hg) ds l H. induction H as [|d v ds l (x & E & Hx) H IH]; intros first.
  - exists []. split; [reflexivity|]. split; [|congruence]. apply (in_end []). constructor.
  - destruct (IH false) as (p & E2 & Hp & Hq). cbn [py_loop]. rewrite E, E2. eexists. split; [reflexivity|]. split.
    2:{ intros _ ->. eauto. }
    rewrite <- !app_assoc. 
    assert (K : spells_in (v :: l) ([] ++ x ++ match ds with [] => [] | _ :: _ => after end ++ p ++ [93])).
    { apply in_item; [constructor|exact Hx| |].
      - apply gap_before; [destruct ds; [constructor|exact Ha]|exact Hp].
      - destruct v; [|exact I]. cbn [ends]. destruct ds as [|d' ds].
        + cbn in E2. injection E2 as <-. reflexivity.
        + destruct (Hq ltac:(discriminate) eq_refl) as (q & ->). rewrite <- app_assoc, app_assoc, Hg. reflexivity. }
    apply gap_before; [destruct first; [constructor|exact Hb]|exact K].
Qed.
Lemma gap_spaces n : gap (repeat 32 n).
Proof. induction n; constructor; auto. Qed.
Lemma py_part_ok compact rss values : int32s values -> forall indent b e l, to_list rss values b e = Some l ->
  exists p, py_part compact indent rss values b e = Some p /\ spells_in l (p ++ [93]).
Proof.
  intros HI. induction rss as [|rs rss IH]; intros indent b e l H; cbn [to_list py_part] in *; apply mapM_Forall2 in H.
  - edestruct (py_items (fun d => v <- rd values d;; Some (print_int v)) [44; 32] []) as (p & E & Hp & _); [| | | |rewrite E; eauto].
    + constructor; [now right|now apply gap1].
    + constructor.
    + eexists. reflexivity.
    + eapply Forall2_impl; [|exact H]. intros d v Hd. cbn beta in Hd. destruct (rd values d) as [z|] eqn:E; [|discriminate]. injection Hd as <-.
      exists (print_int z). split; [reflexivity|]. constructor. apply print_int_tok. apply rd_In in E. unfold int32s in HI. rewrite Forall_forall in HI. auto.
  - edestruct (py_items (fun d => lo <- rd rs d;; hi <- rd rs (d + 1);; p <- py_part compact (S indent) rss values lo hi;; Some ([91] ++ p ++ [93]))
       (if compact then [] else repeat 32 (S indent)) (if compact then [44; 32] else [44; 10])) as (p & E & Hp & _); [| | | |rewrite E; eauto].
    + destruct compact; [constructor|apply gap_spaces].
    + destruct compact; (constructor; [now right|now apply gap1]).
    + destruct compact; eexists; reflexivity.
    + eapply Forall2_impl; [|exact H]. intros d v Hd. cbn beta in *. destruct (rd rs d) as [lo|]; [|discriminate]. destruct (rd rs (d + 1)) as [hi|]; [|discriminate].
      destruct (to_list rss values lo hi) as [l'|] eqn:E; [|discriminate]. injection Hd as <-. destruct (IH (S indent) _ _ _ E) as (p & -> & Hp).
      exists ([91] ++ p ++ [93]). split; [reflexivity|]. cbn [app]. constructor. exact Hp.
Qed.
(** What is printed denotes the nested list of the tensor: C++ operator<<, and the
    list inside of str(x) (compact = false) and x.to_str_simple() (compact = true). *)
Theorem C73_print rss values data : tolist rss values = Some data -> int32s values ->
  (exists s, print_ragged rss values = Some s /\ spells (PList data) s) /\
  (forall compact, exists s, py_text compact rss values = Some s /\ spells (PList data) s).
Proof.
  unfold tolist, print_ragged, py_text. destruct (hd_error rss) as [rs|]; [|discriminate]. intros H HI. split.
  - destruct (print_part_ok rss values HI _ _ _ H) as (p & -> & Hp). eexists. split; [reflexivity|]. constructor.
    apply (gap_before _ (p ++ [93]) [32]); [now apply gap1|exact Hp].
  - intros compact. destruct (py_part_ok compact rss values HI 13 _ _ _ H) as (p & -> & Hp). eexists. split; [reflexivity|]. constructor. exact Hp.
Qed.
Lemma Forall2_In_r {A B} (P : A -> B -> Prop) l m b : Forall2 P l m -> In b m -> exists a, P a b.
Proof. induction 1 as [|x y l m H H2 IH]; intros [<-|K] || intros []; eauto. Qed.
Lemma to_list_unif {A} (rss : list (list Z)) (values : list A) : forall b e l, to_list rss values b e = Some l -> Forall (unif (length rss)) l.
Proof.
  induction rss as [|rs rss IH]; intros b e l H; cbn [to_list] in H; apply mapM_Forall2 in H; apply Forall_forall; intros v Hv;
    destruct (Forall2_In_r _ _ _ v H Hv) as (d & Hd); cbn beta in Hd.
  - destruct (rd values d); [|discriminate]. injection Hd as <-. exact I.
  - destruct (rd rs d); [|discriminate]. destruct (rd rs (d + 1)); [|discriminate]. destruct (to_list rss values z z0) eqn:E; [|discriminate].
    injection Hd as <-. cbn [length unif]. eauto.
Qed.
(** Only texts of uniformly nested lists are read. *)
Theorem C73_read_only s rss vs : ragged_of_text s = Some (rss, vs) ->
  exists m data w1 t w2, s = w1 ++ t ++ w2 /\ gap w1 /\ blank w2 /\ spells (PList data) t /\ Forall (unif (S m)) data.
Proof.
  unfold ragged_of_text. destruct (rag_loop (S (length s)) (skip_ws s) 0 [] []) as [[[rss1 vs1] r]|] eqn:E; [|discriminate].
  destruct (hd_error rss1) as [top|]; [|discriminate]. destruct (zlen top =? 2); [|discriminate].
  match goal with |- context [zlen vs1 =? ?q] => destruct (zlen vs1 =? q); [|discriminate] end.
  destruct (is_nil (skip_ws r)) eqn:Er; [|discriminate]. intros _.
  destruct (loop_sound _ s 0%nat _ _ _ _ _ E (Z.le_refl 0)) as (_ & _ & (w & t & l & Hw & -> & Ht & N1 & HF)).
  destruct (skip_ws_split r) as (w2 & Hw2 & Er2). destruct (skip_ws r); [|discriminate]. rewrite app_nil_r in Er2. subst w2.
  destruct (Z.eq_dec (zlen rss1) 1) as [L|L].
  - destruct l as [|v l].
    + exists 0%nat, [], w, t, r. repeat (split; auto).
    + inversion HF; subst. destruct H1 as (_ & K). lia.
  - exists (Z.to_nat (zlen rss1 - 2)), l, w, t, r. repeat (split; auto). eapply Forall_impl; [|exact HF]. intros v (K & _).
    replace (S (Z.to_nat (zlen rss1 - 2))) with (Z.to_nat (zlen rss1 - 1)) by lia. exact K.
Qed.
(** Reading back what was printed gives the same nested list. *)
Theorem C73_roundtrip rss values data : tolist rss values = Some data -> int32s values ->
  (exists s rss', print_ragged rss values = Some s /\ ragged_of_text s = Some (rss', flat_map leaves data) /\ tolist rss' (flat_map leaves data) = Some data) /\
  (forall compact, exists s rss', py_text compact rss values = Some s /\ ragged_of_text s = Some (rss', flat_map leaves data) /\ tolist rss' (flat_map leaves data) = Some data).
Proof.
  intros H HI. destruct (C73_print rss values data H HI) as ((s & E & Hs) & P2). unfold tolist in H. destruct rss as [|rs rss]; [discriminate|]. cbn [hd_error] in H.
  assert (U : Forall (unif (S (length rss))) data).
  { destruct rss as [|rs2 rss]; [|]; apply to_list_unif in H; exact H. }
  assert (R : forall s, spells (PList data) s -> exists rss', ragged_of_text s = Some (rss', flat_map leaves data) /\ tolist rss' (flat_map leaves data) = Some data).
  { intros s' Hs'. destruct (C73_read (length rss) data s' [] [] U Hs') as (rss' & K); [constructor|constructor|]. cbn [app] in K. rewrite app_nil_r in K. eauto. }
  split.
  - destruct (R s Hs) as (rss' & K1 & K2). eauto.
  - intros compact. destruct (P2 compact) as (s' & E' & Hs'). destruct (R s' Hs') as (rss' & K1 & K2). eauto.
Qed.

(** A tensor of three axes without a list on the last one: the number of axes is lost. *)
Theorem C73_axes_refuted : exists rss s rss', length rss = 2%nat /\ length rss' = 1%nat /\
  tolist rss (@nil Z) = tolist rss' (@nil Z) /\ print_ragged rss [] = Some s /\ ragged_of_text s = Some (rss', []).
Proof.
  exists [[0; 0; 0]; [0]], [91; 32; 91; 32; 93; 32; 91; 32; 93; 32; 93], [[0; 0; 0]].
  split; [reflexivity|]. split; [reflexivity|]. split; [reflexivity|]. split; vm_compute; reflexivity.
Qed.
(** Mixed depths are refused in either order, and so is a flat list, a list that is not
    closed, two lists, and a number that does not fit in 32 bits:
    "[[1] [[]]]", "[[[]] [1]]", "[1]", "[[1]", "[[1]][]", "[[2147483648]]". *)
Theorem C73_refused :
  ragged_of_text [91; 91; 49; 93; 32; 91; 91; 93; 93; 93] = None /\
  ragged_of_text [91; 91; 91; 93; 93; 32; 91; 49; 93; 93] = None /\
  ragged_of_text [91; 49; 93] = None /\ ragged_of_text [91; 91; 49; 93] = None /\
  ragged_of_text [91; 91; 49; 93; 93; 91; 93] = None /\
  ragged_of_text [91; 91; 50; 49; 52; 55; 52; 56; 51; 54; 52; 56; 93; 93] = None.
Proof. repeat split; vm_compute; reflexivity. Qed.
(** RaggedTensor(str(x)): [[[7, -3], []], [], [[12]]] *)
Example C73_ex :
  let rss := [[0; 2; 2; 3]; [0; 2; 2; 3]] in let vs := [7; -3; 12] in
  let data := [PList [PList [PElem 7; PElem (-3)]; PList []]; PList []; PList [PList [PElem 12]]] in
  tolist rss vs = Some data /\ int32s vs /\ Forall (unif 2) data /\ last (rows 2 data) [0] <> [0] /\
  print_ragged rss vs = Some [91;32;91;32;91;32;55;32;45;51;32;93;32;91;32;93;32;93;32;91;32;93;32;91;32;91;32;49;50;32;93;32;93;32;93] /\
  py_text true rss vs = Some [91;91;91;55;44;32;45;51;93;44;32;91;93;93;44;32;91;93;44;32;91;91;49;50;93;93;93] /\
  ragged_of_text [91;91;91;55;44;32;45;51;93;44;32;91;93;93;44;32;91;93;44;32;91;91;49;50;93;93;93;10] = Some (rss, vs).
Proof.
  cbv zeta. split; [reflexivity|]. split; [repeat constructor|]. split; [repeat constructor|]. split; [vm_compute; congruence|].
  split; [vm_compute; reflexivity|]. split; vm_compute; reflexivity.
Qed.

Print Assumptions C73_read.
Print Assumptions C73_read_axes.
Print Assumptions C73_read_trailing.
Print Assumptions C73_read_only.
Print Assumptions C73_print.
Print Assumptions C73_roundtrip.
Print Assumptions C73_axes_refuted.
Print Assumptions C73_refused.

(** The tensor of a nested list, written to text and read back, is the same tensor: the
    same row splits on every axis and the same values. *)
Lemma tolist_rows {A} m (data : list (pyval A)) : Forall (unif (S m)) data -> tolist (rows (S m) data) (flat_map leaves data) = Some data.
Proof.
  intros HU. rewrite <- (vals_leaves (S m) data HU). unfold tolist. cbn [rows hd_error]. rewrite splits_rows, zlen_map.
  change (splits_of (map kids data) :: rows m (concat (map kids data))) with (rows (S m) data).
  rewrite <- (firstn_all2 (n := S m) (rows (S m) data)) by (rewrite (length_rows (S m) data); lia).
  pose proof (zlen_nonneg data).
  assert (T : trim (S m) (S m) data).
  { split; [lia|]. rewrite skipn_all2 by (rewrite (length_rows (S m) data); lia). now rewrite Nat.sub_diag. }
  rewrite (to_list_ok (S m) (S m) data) by (auto; lia). f_equal.
  unfold sub. change (Z.to_nat 0) with 0%nat. simpl skipn. apply firstn_all2. unfold zlen. lia.
Qed.
Theorem C73_roundtrip_exact m data : Forall (unif (S m)) data -> last (rows (S m) data) [0] <> [0] -> int32s (flat_map leaves data) ->
  (exists s, print_ragged (rows (S m) data) (flat_map leaves data) = Some s /\ ragged_of_text s = Some (rows (S m) data, flat_map leaves data)) /\
  (forall compact, exists s, py_text compact (rows (S m) data) (flat_map leaves data) = Some s /\ ragged_of_text s = Some (rows (S m) data, flat_map leaves data)).
Proof.
  intros HU HL HI. destruct (C73_print _ _ _ (tolist_rows m data HU) HI) as ((s & E & Hs) & P2).
  assert (R : forall s, spells (PList data) s -> ragged_of_text s = Some (rows (S m) data, flat_map leaves data)).
  { intros s' Hs'. assert (B : blank []) by constructor. assert (G : gap []) by constructor. destruct (C73_read m data s' [] [] HU Hs' G B) as (rss' & K & _).
    pose proof (C73_read_axes m data s' [] [] _ _ HU Hs' G B HL K) as <-. cbn [app] in K. now rewrite app_nil_r in K. }
  split.
  - exists s. auto.
  - intros compact. destruct (P2 compact) as (s' & E' & Hs'). exists s'. auto.
Qed.
Print Assumptions C73_roundtrip_exact.
