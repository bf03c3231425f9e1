(** * Proofs about list conversion, padding and per-row sorting of ragged tensors *)
From Coq Require Import ZArith List Lia Bool Permutation Sorting.Sorted.
From Verif Require Import Base RaggedModel RaggedSpec RaggedProofs FsaSpec FsaLemmas.
From Verif Require Import RaggedOpsModel RaggedOpsSpec RaggedOpsProofs RaggedCatProofs.
Import ListNotations.
Open Scope Z_scope.

Lemma mapM_map {A B C} (g : A -> B) (f : B -> option C) l : mapM f (map g l) = mapM (fun a => f (g a)) l.
Proof. induction l; simpl; auto. destruct (f (g a)); auto. now rewrite IHl. Qed.

(** ** CreateRagged2 and ToVecVec *)
Lemma exsum_from_snoc l : forall s v, exsum_from s (l ++ [v]) = exsum_from s l ++ [s + zsum l + v].
Proof. induction l; intros; simpl; [f_equal; f_equal; lia|]. rewrite IHl. do 3 f_equal. lia. Qed.

Lemma splits_of_snoc {A} (x : list (list A)) v : splits_of (x ++ [v]) = splits_of x ++ [zlen (concat (x ++ [v]))].
Proof.
  unfold splits_of, exsum. rewrite map_app. cbn [map]. rewrite exsum_from_snoc. do 2 f_equal.
  rewrite zsum_zlen_concat, concat_app, zlen_app. simpl. rewrite app_nil_r. lia.
Qed.

Lemma create_ragged2_ok {A} (x : list (list A)) : create_ragged2 x = (splits_of x, concat x).
Proof.
  unfold create_ragged2. rewrite <- fold_left_rev_right.
  match goal with |- fold_right ?g _ _ = _ => set (f := g) end.
  assert (G : forall y, fold_right f ([0], @nil A) y = (splits_of (rev y), concat (rev y))).
  { induction y as [|v y IH]; [reflexivity|].
    change (fold_right f ([0], []) (v :: y)) with (f v (fold_right f ([0], []) y)). rewrite IH.
    unfold f. cbn [fst snd rev].
    rewrite splits_of_snoc, concat_app. simpl. now rewrite app_nil_r. }
  rewrite G, rev_involutive. reflexivity.
Qed.

Lemma slice_ok {A} (x : list (list A)) i row : rd x i = Some row ->
  slice (concat x) (off1 x i) (off1 x (i + 1)) = Some row.
Proof.
  intros H. unfold slice. rewrite (off1_next x i row H). pose proof (zlen_nonneg row).
  replace (off1 x i + zlen row - off1 x i) with (zlen row) by lia.
  apply mapM_zrange; auto. intros j Hj. destruct (rd_in_bound row j Hj) as (e & He). rewrite He.
  eapply rd_concat_off; eauto.
Qed.

Lemma to_vec_vec_ok {A} (x : list (list A)) : to_vec_vec (splits_of x) (concat x) = Some x.
Proof.
  unfold to_vec_vec. rewrite splits_rows. apply mapM_zrange; auto; [apply zlen_nonneg|].
  intros i Hi. rewrite !rd_splits_off by lia. pose proof (off1_mono x i (i+1)).
  replace (_ <=? _) with true by lia. destruct (rd_in_bound x i Hi) as (row & Hr). rewrite Hr.
  now apply slice_ok.
Qed.

(** ** PadRagged *)
Lemma fold_max_ge l : forall m, m <= fold_left Z.max l m /\ forall v, In v l -> v <= fold_left Z.max l m.
Proof.
  induction l as [|a l IH]; intros m; simpl; [split; [lia|tauto]|].
  destruct (IH (Z.max m a)) as (H1 & H2). split; [lia|]. intros v [->|Hv]; [lia|auto].
Qed.
Lemma fold_max_in l : forall m, fold_left Z.max l m = m \/ In (fold_left Z.max l m) l.
Proof.
  induction l as [|a l IH]; intros m; simpl; auto.
  destruct (IH (Z.max m a)) as [H|H]; auto. rewrite H. destruct (Z.max_spec m a) as [(_ & ->)|(_ & ->)]; auto.
Qed.

Lemma max_size_ok {A} (x : list (list A)) : max_size (splits_of x) = Some (fold_left Z.max (map zlen x) 0).
Proof.
  unfold max_size. rewrite splits_rows. rewrite (mapM_zrange _ _ (map zlen x)); auto.
  - apply zlen_nonneg.
  - apply zlen_map.
  - intros i Hi. rewrite row_len_ok by auto. rewrite rd_map. unfold pick.
    destruct (rd_in_bound x i Hi) as (l & ->). reflexivity.
Qed.

(** What one row of the padded matrix must be. *)
Definition pad_row {A} (is_constant pad_left : bool) (padding : A) (m : Z) (row : list A) : list A :=
  let fill := if is_constant then padding
              else if pad_left then hd padding row else last row padding in
  let p := repeat fill (Z.to_nat (m - zlen row)) in
  if pad_left then p ++ row else row ++ p.

Lemma rd_repeat {A} (a : A) n i : 0 <= i < Z.of_nat n -> rd (repeat a n) i = Some a.
Proof.
  intros H. unfold rd. replace (i <? 0) with false by lia.
  replace n with (Z.to_nat i + S (n - S (Z.to_nat i)))%nat by lia.
  rewrite repeat_app, nth_error_app2; rewrite repeat_length; [|lia].
  now rewrite Nat.sub_diag.
Qed.
Lemma zlen_repeat {A} (a : A) n : zlen (repeat a n) = Z.of_nat n.
Proof. unfold zlen. now rewrite repeat_length. Qed.

Lemma rd_last {A} (l : list A) d : l <> [] -> rd l (zlen l - 1) = Some (last l d).
Proof.
  intros H. destruct (exists_last H) as (l' & a & ->). rewrite last_last, zlen_app.
  change (zlen [a]) with 1. rewrite rd_app_r by lia.
  replace (zlen l' + 1 - 1 - zlen l') with 0 by lia. reflexivity.
Qed.

Lemma pad_ragged_ok {A} (x : list (list A)) is_constant pad_left padding :
  pad_ragged (splits_of x) (concat x) is_constant pad_left padding =
  Some (map (pad_row is_constant pad_left padding (fold_left Z.max (map zlen x) 0)) x).
Proof.
  unfold pad_ragged. rewrite max_size_ok, splits_rows.
  set (m := fold_left Z.max (map zlen x) 0).
  destruct (fold_max_ge (map zlen x) 0) as (M0 & M1). fold m in M0, M1.
  apply mapM_zrange; [apply zlen_nonneg|apply zlen_map|].
  intros i Hi. rewrite rd_map. destruct (rd_in_bound x i Hi) as (row & Hr). rewrite Hr. simpl option_map.
  assert (Lr : zlen row <= m) by (apply M1, in_map; eapply rd_In; eauto).
  pose proof (zlen_nonneg row) as Lr0.
  apply mapM_zrange; auto.
  - unfold pad_row. destruct pad_left; rewrite zlen_app, zlen_repeat; lia.
  - intros j Hj. unfold pad_cell. rewrite !rd_splits_off by lia. rewrite (off1_next x i row Hr).
    replace (off1 x i + zlen row - off1 x i) with (zlen row) by lia. cbv zeta.
    assert (In_row : forall k, 0 <= k < zlen row -> rd (concat x) (off1 x i + k) = rd row k).
    { intros k Hk. destruct (rd_in_bound row k Hk) as (e & E). rewrite E. eapply rd_concat_off; eauto. }
    unfold pad_row. set (q := Z.to_nat (m - zlen row)).
    assert (Hq : Z.of_nat q = m - zlen row) by (unfold q; lia).
    assert (LL : forall fill, m - zlen row <= j -> rd (repeat fill q ++ row) j = rd row (j - (m - zlen row))).
    { intros f Hf. rewrite <- Hq. rewrite rd_app, zlen_repeat.
      replace (j <? Z.of_nat q) with false by lia. reflexivity. }
    assert (LP : forall fill, j < m - zlen row -> rd (repeat fill q ++ row) j = Some fill).
    { intros f Hf. rewrite rd_app, zlen_repeat. replace (j <? Z.of_nat q) with true by lia.
      apply rd_repeat. lia. }
    assert (RL : forall fill, j < zlen row -> rd (row ++ repeat fill q) j = rd row j).
    { intros f Hf. rewrite rd_app. now replace (j <? zlen row) with true by lia. }
    assert (RP : forall fill, zlen row <= j -> rd (row ++ repeat fill q) j = Some fill).
    { intros f Hf. rewrite rd_app. replace (j <? zlen row) with false by lia. apply rd_repeat. lia. }
    destruct is_constant, pad_left.
    + destruct (j <? m - zlen row) eqn:E; [rewrite LP by lia; reflexivity|].
      rewrite LL by lia. rewrite <- In_row by lia. f_equal. lia.
    + destruct (j >=? zlen row) eqn:E; [rewrite RP by lia; reflexivity|].
      rewrite RL by lia. now rewrite In_row by lia.
    + destruct (zlen row =? 0) eqn:Z0.
      * assert (row = []) by (apply zlen_0_nil; lia). subst row.
        change (zlen (@nil A)) with 0 in *. rewrite LP by lia. reflexivity.
      * destruct (j <? m - zlen row) eqn:E.
        -- rewrite LP by lia. replace (off1 x i) with (off1 x i + 0) by lia. rewrite In_row by lia.
           destruct row; [discriminate|reflexivity].
        -- rewrite LL by lia. rewrite <- In_row by lia. f_equal. lia.
    + destruct (zlen row =? 0) eqn:Z0.
      * assert (row = []) by (apply zlen_0_nil; lia). subst row.
        change (zlen (@nil A)) with 0 in *. rewrite RP by lia. reflexivity.
      * destruct (j >=? zlen row) eqn:E.
        -- rewrite RP by lia. replace (off1 x i + zlen row - 1) with (off1 x i + (zlen row - 1)) by lia.
           rewrite In_row by lia. apply rd_last. intros ->. discriminate.
        -- rewrite RL by lia. now rewrite In_row by lia.
Qed.

(** ** SortSublists *)
Section Sort.
Context {A : Type} (lt : A -> A -> bool).

Lemma ins_perm {B} (l : B -> B -> bool) x y : Permutation (x :: y) (ins l x y).
Proof.
  induction y as [|a y IH]; simpl; auto. destruct (l a x); auto.
  eapply perm_trans; [apply perm_swap|]. now constructor.
Qed.
Lemma stable_sort_perm {B} (l : B -> B -> bool) y : Permutation y (stable_sort l y).
Proof. induction y; simpl; auto. eapply perm_trans; [|apply ins_perm]. now constructor. Qed.

(** A sorted segment of indexes, stable: later never smaller, ties by index. *)
Definition before (v : Z -> option A) (p q : Z) : Prop :=
  exists a b, v p = Some a /\ v q = Some b /\ lt b a = false /\ (lt a b = false -> p < q).

Hypothesis asym : forall a b, lt a b = true -> lt b a = false.
Hypothesis negtrans : forall a b c, lt a c = true -> lt a b = true \/ lt b c = true.

Definition cmpv (v : Z -> option A) (p q : Z) : bool :=
  match v p, v q with Some a, Some b => lt a b | _, _ => false end.

Lemma ins_before v p l : (exists a, v p = Some a) -> (forall q, In q l -> p < q) ->
  StronglySorted (before v) l -> (forall q, In q l -> exists b, v q = Some b) ->
  StronglySorted (before v) (ins (cmpv v) p l).
Proof.
  intros (a & Ha) Hl HS Hv. induction HS as [|q l HS IH HF]; simpl; [repeat constructor|].
  destruct (Hv q) as (b & Hb); [now left|].
  assert (C : cmpv v q p = lt b a) by (unfold cmpv; now rewrite Hb, Ha). rewrite C.
  destruct (lt b a) eqn:E.
  - constructor; [apply IH; intros; (apply Hl || apply Hv); now right|].
    apply Forall_forall. intros r Hr. apply (Permutation_in _ (Permutation_sym (ins_perm _ _ _))) in Hr.
    destruct Hr as [<-|Hr]; [|rewrite Forall_forall in HF; auto].
    exists b, a. repeat split; auto. intros; congruence.
  - constructor; [now constructor|]. apply Forall_forall. intros r [<-|Hr].
    + exists a, b. repeat split; auto. intros; apply Hl; now left.
    + rewrite Forall_forall in HF. destruct (HF r Hr) as (b' & c & B1 & B2 & B3 & B4).
      assert (b' = b) by congruence; subst b'.
      exists a, c. repeat split; auto; [|intros; apply Hl; now right].
      destruct (lt c a) eqn:E2; auto. destruct (negtrans c b a E2); congruence.
Qed.

Lemma stable_sort_before v l : StronglySorted Z.lt l -> (forall q, In q l -> exists b, v q = Some b) ->
  StronglySorted (before v) (stable_sort (cmpv v) l).
Proof.
  intros HS Hv. induction HS as [|p l HS IH HF]; simpl; [constructor|].
  apply ins_before; [apply Hv; now left| |apply IH; intros; apply Hv; now right|].
  - intros q Hq. apply (Permutation_in _ (Permutation_sym (stable_sort_perm _ _))) in Hq.
    rewrite Forall_forall in HF; auto.
  - intros q Hq. apply (Permutation_in _ (Permutation_sym (stable_sort_perm _ _))) in Hq. apply Hv; now right.
Qed.

Lemma mapM_ins v p a l s : v p = Some a -> mapM v l = Some s ->
  mapM v (ins (cmpv v) p l) = Some (ins lt a s).
Proof.
  intros Ha. revert s. induction l as [|q l IH]; intros s Hs; simpl in Hs.
  - injection Hs as <-. simpl. now rewrite Ha.
  - destruct (v q) as [b|] eqn:Hb; [|discriminate]. destruct (mapM v l) as [s'|] eqn:E; [|discriminate].
    injection Hs as <-. simpl. assert (C : cmpv v q p = lt b a) by (unfold cmpv; now rewrite Hb, Ha).
    rewrite C. destruct (lt b a).
    + simpl. rewrite Hb. now rewrite (IH s').
    + simpl. now rewrite Ha, Hb, E.
Qed.
Lemma mapM_stable_sort v l : forall s, mapM v l = Some s ->
  mapM v (stable_sort (cmpv v) l) = Some (stable_sort lt s).
Proof.
  induction l as [|p l IH]; intros s Hs; simpl in Hs.
  - injection Hs as <-. reflexivity.
  - destruct (v p) as [b|] eqn:Hb; [|discriminate]. destruct (mapM v l) as [s'|] eqn:E; [|discriminate].
    injection Hs as <-. simpl. apply mapM_ins; auto.
Qed.

Lemma zrange_sorted c n : StronglySorted Z.lt (map (fun k => c + k) (zrange n)).
Proof.
  unfold zrange. rewrite map_map. generalize (Z.to_nat n) as k. intros k.
  assert (G : forall s, StronglySorted Z.lt (map (fun x => c + Z.of_nat x) (seq s k))).
  { induction k; intros; simpl; constructor; auto. apply Forall_forall. intros z Hz.
    apply in_map_iff in Hz as (y & <- & Hy). apply in_seq in Hy. lia. }
  apply G.
Qed.

(** What the per-row sort must produce for row [i] (starting at position
    [off]): the indexes of the row in sorted, stable order, and the values at
    those indexes. *)
Definition row_sorted (vals : list A) (off n : Z) (out : list A * list Z) : Prop :=
  Permutation (map (fun k => off + k) (zrange n)) (snd out) /\
  mapM (rd vals) (snd out) = Some (fst out) /\
  StronglySorted (before (rd vals)) (snd out).

Lemma sort_sublists_ok (x : list (list A)) :
  exists outs, sort_sublists lt (splits_of x) (concat x) =
    Some (concat (map fst outs), concat (map snd outs)) /\
  zlen outs = zlen x /\
  forall i row, rd x i = Some row -> exists out, rd outs i = Some out /\
    row_sorted (concat x) (off1 x i) (zlen row) out.
Proof.
  unfold sort_sublists. rewrite splits_rows.
  set (outs := imap (fun i row =>
     (stable_sort lt row, stable_sort (cmpv (rd (concat x))) (map (fun k => off1 x i + k) (zrange (zlen row))))) 0 x).
  exists outs. assert (L : zlen outs = zlen x) by apply zlen_imap.
  rewrite (mapM_zrange _ _ outs); auto; [|apply zlen_nonneg|].
  2:{ intros i Hi. rewrite !rd_splits_off by lia. destruct (rd_in_bound x i Hi) as (row & Hr).
      rewrite (off1_next x i row Hr). pose proof (zlen_nonneg row).
      replace (_ <=? _) with true by lia.
      pose proof (slice_ok x i row Hr) as S. rewrite (off1_next x i row Hr) in S. rewrite S.
      replace (off1 x i + zlen row - off1 x i) with (zlen row) by lia.
      unfold outs. rewrite rd_imap, Hr. reflexivity. }
  split; [reflexivity|]. split; [exact L|]. intros i row Hr.
  eexists. split; [unfold outs; rewrite rd_imap, Hr; reflexivity|]. cbn [Z.add].
  replace (0 + i) with i by lia. unfold row_sorted. cbn [fst snd].
  assert (V : mapM (rd (concat x)) (map (fun k => off1 x i + k) (zrange (zlen row))) = Some row).
  { rewrite mapM_map. pose proof (slice_ok x i row Hr) as S. unfold slice in S. rewrite (off1_next x i row Hr) in S.
    replace (off1 x i + zlen row - off1 x i) with (zlen row) in S by lia. exact S. }
  split; [apply stable_sort_perm|]. split; [now apply mapM_stable_sort|].
  apply stable_sort_before; [apply zrange_sorted|].
  intros q Hq. apply in_map_iff in Hq as (k & <- & Hk). apply in_zrange in Hk.
  destruct (rd_in_bound row k Hk) as (e & He). exists e. eapply rd_concat_off; eauto.
Qed.
End Sort.
