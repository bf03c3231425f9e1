(** * Proofs about RaggedTensor(list) and tolist() *)
From Coq Require Import ZArith List Lia Bool.
From Coq Require Import ZifyBool.
From Verif Require Import Base RaggedModel RaggedSpec RaggedProofs FsaSpec FsaLemmas.
From Verif Require Import RaggedOpsModel RaggedOpsSpec RaggedOpsProofs RaggedCatProofs RaggedListProofs FromListModel.
Import ListNotations.
Open Scope Z_scope.

Section S.
Context {A : Type}.
Implicit Types (v : pyval A) (l y : list (pyval A)).

Definition kids v := match v with PList l => l | PElem _ => [] end.
Definition elem_of v := match v with PElem a => [a] | PList _ => [] end.
(** Nested to depth exactly m (with possibly empty lists anywhere). *)
Fixpoint unif (m : nat) (v : pyval A) : Prop :=
  match m, v with
  | O, PElem _ => True
  | S m', PList l => Forall (unif m') l
  | _, _ => False
  end.
Fixpoint rows (m : nat) (y : list (pyval A)) : list (list Z) :=
  match m with O => [] | S m' => splits_of (map kids y) :: rows m' (concat (map kids y)) end.
Fixpoint vals (m : nat) (y : list (pyval A)) : list A :=
  match m with O => flat_map elem_of y | S m' => vals m' (concat (map kids y)) end.
Fixpoint ftl (v : pyval A) : Z :=
  match v with
  | PList (h :: _) => match h with PList _ => 1 + ftl h | PElem _ => 1 end
  | _ => 1
  end.

Lemma length_rows m : forall y, length (rows m y) = m.
Proof. induction m; intros; simpl; auto. Qed.
Lemma rows_nil m : rows m [] = repeat [0] m.
Proof. induction m; simpl; auto. now rewrite IHm. Qed.
Lemma vals_nil m : vals m [] = [].
Proof. induction m; simpl; auto. Qed.
Lemma vals_app m : forall y y', vals m (y ++ y') = vals m y ++ vals m y'.
Proof.
  induction m; intros; simpl; [apply flat_map_app|]. now rewrite map_app, concat_app, IHm.
Qed.

Definition trim (D m : nat) y := (D <= m)%nat /\ skipn D (rows m y) = repeat [0] (m - D).

Lemma trim_full m y : trim m m y.
Proof.
  split; auto. rewrite Nat.sub_diag. rewrite skipn_all2; auto. rewrite length_rows; auto.
Qed.
Lemma splits_of_0 {B} (x : list (list B)) : splits_of x = [0] -> x = [].
Proof.
  intros H. pose proof (zlen_splits_of x) as L. rewrite H in L. change (zlen [0]) with 1 in L.
  apply zlen_0_nil. lia.
Qed.
Lemma trim_0 m y : trim 0 (S m) y -> y = [].
Proof.
  intros (_ & H). simpl in H. injection H as H _. apply splits_of_0 in H. now destruct y.
Qed.
Lemma trim_S D m y : trim (S D) (S m) y <-> trim D m (concat (map kids y)).
Proof. unfold trim. simpl. split; intros (H1 & H2); split; auto; lia. Qed.
Lemma trim_vals D : forall m y, trim D m y -> (D < m)%nat -> vals m y = [].
Proof.
  induction D; intros m y H Hl; destruct m; try lia.
  - now rewrite (trim_0 _ _ H), vals_nil.
  - simpl. apply IHD; [now apply trim_S|lia].
Qed.
Lemma trim_up D m y : trim D m y -> (D < m)%nat -> trim (S D) m y /\ firstn (S D) (rows m y) = firstn D (rows m y) ++ [[0]].
Proof.
  revert m y; induction D; intros m y H Hl; destruct m; try lia.
  - pose proof (trim_0 _ _ H) as ->. split; [apply trim_S; simpl|reflexivity].
    split; [lia|]. simpl. rewrite rows_nil. f_equal. lia.
  - destruct (IHD m (concat (map kids y))) as (H1 & H2); [now apply trim_S|lia|].
    split; [now apply trim_S|]. simpl firstn at 2. cbn [rows].
    change (firstn (S (S D)) (splits_of (map kids y) :: rows m (concat (map kids y)))) with
      (splits_of (map kids y) :: firstn (S D) (rows m (concat (map kids y)))). rewrite H2. reflexivity.
Qed.

Lemma push_at_ok pre r rest (v0 : Z) : push_at (pre ++ r :: rest) (zlen pre) v0 = Some (pre ++ (r ++ [v0]) :: rest).
Proof.
  unfold push_at. rewrite rd_app_r by lia. rewrite Z.sub_diag, rd_cons_0.
  assert (B : 0 <= zlen pre < zlen (pre ++ r :: rest)).
  { rewrite zlen_app, zlen_cons. pose proof (zlen_nonneg pre). pose proof (zlen_nonneg rest). lia. }
  destruct (wr_Some _ _ (r ++ [v0]) B) as (l' & -> & L & R). f_equal.
  apply list_ext_rd; [rewrite L, !zlen_app, !zlen_cons; lia|].
  intros i Hi. rewrite R. destruct (i =? zlen pre) eqn:E.
  - apply Z.eqb_eq in E; subst i. rewrite rd_app_r by lia. now rewrite Z.sub_diag, rd_cons_0.
  - rewrite !rd_app. destruct (i <? zlen pre) eqn:E2; auto. rewrite !rd_cons.
    replace (i - zlen pre =? 0) with false by lia. reflexivity.
Qed.

Lemma unif_S m v : unif (S m) v -> v = PList (kids v) /\ Forall (unif m) (kids v).
Proof. destruct v; simpl; [tauto|auto]. Qed.
Lemma unif_kids m y : Forall (unif (S m)) y -> Forall (unif m) (concat (map kids y)).
Proof.
  intros H. induction H as [|v l Hv HF IH]; [constructor|]. cbn [map concat].
  apply Forall_app; split; auto. exact (proj2 (unif_S _ _ Hv)).
Qed.
Lemma ftl_bound m : forall v, unif (S m) v -> 1 <= ftl v <= Z.of_nat (S m).
Proof.
  induction m; intros v H; destruct (unif_S _ _ H) as (-> & HF); destruct (kids v) as [|h t]; simpl; try lia.
  - apply Forall_inv in HF. destruct h; [lia|]. simpl in HF. tauto.
  - apply Forall_inv in HF. destruct h as [|lh]; [lia|]. specialize (IHm _ HF).
    change (1 <= 1 + ftl (PList lh) <= Z.of_nat (S (S m))). lia.
Qed.

(** one unfolding of the recursive function *)
Lemma iter_unfold data lvl st : from_list_iter (PList data) lvl st =
  (let cur := lvl + 1 in
   let rss := fl_rss st ++ repeat [0] (Z.to_nat (cur - zlen (fl_rss st))) in
   let st := mk_fl (fl_deepest st) rss (fl_elems st) in
   st <- match data with
         | PList _ :: _ => from_list_loop data cur st
         | _ =>
             let sz := zlen data in
             check (negb (negb (fl_deepest st =? -1) && (0 <? sz) && negb (fl_deepest st =? cur)));;
             let deepest := if fl_deepest st =? -1 then cur else fl_deepest st in
             check (negb ((0 <? sz) && negb (cur =? zlen (fl_rss st))));;
             tmp <- cast_elems data;;
             Some (mk_fl deepest (fl_rss st) (fl_elems st ++ tmp))
         end;;
   n <- (if lvl + 1 >=? zlen (fl_rss st) then Some (zlen (fl_elems st))
         else r <- rd (fl_rss st) (lvl + 1);; Some (zlen r - 1));;
   rss' <- push_at (fl_rss st) lvl n;;
   (Some (mk_fl (fl_deepest st) rss' (fl_elems st)) : option (fl_state A))).
Proof.
  assert (G : forall l cur st, (fix go (l : list (pyval A)) (st : fl_state A) : option (fl_state A) :=
                   match l with
                   | [] => Some st
                   | d :: t => st' <- from_list_iter d cur st;; go t st'
                   end) l st = from_list_loop l cur st).
  { induction l as [|d t IH]; intros cur s0; [reflexivity|]. cbn [from_list_loop].
    destruct (from_list_iter d cur s0); auto. }
  destruct data as [|[a|lh] t]; [reflexivity|reflexivity|]. cbv zeta. rewrite <- G. reflexivity.
Qed.

Definition d_after (d lvl : Z) (l : list (pyval A)) : Z :=
  if d =? -1 then match l with [] => -1 | v :: _ => lvl + ftl v end else d.
Definition rep pre (D m : nat) y (st : fl_state A) : Prop :=
  fl_rss st = pre ++ firstn D (rows m y) /\ trim D m y /\ fl_elems st = vals m y /\ Forall (unif m) y.
Definition good (m : nat) (d lvl : Z) (l : list (pyval A)) : Prop :=
  vals m l = [] \/ d_after d lvl l = lvl + Z.of_nat m.

Definition iter_spec (m : nat) : Prop := forall v lvl pre y D st,
  unif (S m) v -> zlen pre = lvl -> rep pre D (S m) y st ->
  (good (S m) (fl_deepest st) lvl [v] ->
   exists st' D', from_list_iter v lvl st = Some st' /\ fl_deepest st' = d_after (fl_deepest st) lvl [v] /\
     rep pre D' (S m) (y ++ [v]) st' /\ (1 <= D')%nat) /\
  (~ good (S m) (fl_deepest st) lvl [v] -> from_list_iter v lvl st = None).

Definition loop_spec (m : nat) : Prop := forall l lvl pre y D st,
  Forall (unif (S m)) l -> zlen pre = lvl -> rep pre D (S m) y st ->
  (good (S m) (fl_deepest st) lvl l ->
   exists st' D', from_list_loop l lvl st = Some st' /\ fl_deepest st' = d_after (fl_deepest st) lvl l /\
     rep pre D' (S m) (y ++ l) st' /\ (l <> [] -> (1 <= D')%nat)) /\
  (~ good (S m) (fl_deepest st) lvl l -> from_list_loop l lvl st = None).

Lemma loop_of_iter m : iter_spec m -> loop_spec m.
Proof.
  intros HI l. induction l as [|v l IH]; intros lvl pre y D st HF Hp Hr.
  - split; [|intros H; exfalso; apply H; left; apply vals_nil]. intros _. exists st, D.
    rewrite app_nil_r. split; [reflexivity|]. split; [unfold d_after; destruct (_ =? _) eqn:E; auto; lia|].
    split; [exact Hr|congruence].
  - inversion HF as [|? ? Hv HF']; subst. destruct (HI v (zlen pre) pre y D st Hv eq_refl Hr) as (I1 & I2).
    pose proof (ftl_bound m v Hv) as Fb. pose proof (zlen_nonneg pre).
    assert (Ed : d_after (fl_deepest st) (zlen pre) (v :: l) = d_after (fl_deepest st) (zlen pre) [v]) by reflexivity.
    assert (Nd : d_after (fl_deepest st) (zlen pre) [v] <> -1).
    { unfold d_after. destruct (_ =? _) eqn:E; lia. }
    assert (Ev : vals (S m) (v :: l) = vals (S m) [v] ++ vals (S m) l).
    { change (v :: l) with ([v] ++ l). apply vals_app. }
    assert (Gd : {good (S m) (fl_deepest st) (zlen pre) [v]} + {~ good (S m) (fl_deepest st) (zlen pre) [v]}).
    { unfold good. destruct (vals (S m) [v]); [left; auto|].
      destruct (Z.eq_dec (d_after (fl_deepest st) (zlen pre) [v]) (zlen pre + Z.of_nat (S m))); [left; auto|].
      right. intros [?|?]; [discriminate|auto]. }
    cbn [from_list_loop]. destruct Gd as [G|G].
    + destruct (I1 G) as (st1 & D1 & E1 & E2 & E3 & E4). rewrite E1.
      destruct (IH (zlen pre) pre (y ++ [v]) D1 st1 HF' eq_refl E3) as (J1 & J2).
      assert (Ed1 : d_after (fl_deepest st1) (zlen pre) l = d_after (fl_deepest st) (zlen pre) (v :: l)).
      { rewrite E2, Ed. unfold d_after at 1. destruct (_ =? -1) eqn:E; [lia|reflexivity]. }
      assert (GG : good (S m) (fl_deepest st1) (zlen pre) l <-> good (S m) (fl_deepest st) (zlen pre) (v :: l)).
      { unfold good in *. rewrite Ed1, Ev. split; intros [K|K]; auto.
        - destruct G as [G|G]; [|right; now rewrite Ed]. left. now rewrite G, K.
        - apply app_eq_nil in K. tauto. }
      split.
      * intros K. apply GG in K. destruct (J1 K) as (st' & D' & F1 & F2 & F3 & F4).
        exists st', D'. split; [exact F1|]. split; [now rewrite F2, Ed1|].
        rewrite <- app_assoc in F3. split; [exact F3|]. intros _.
        destruct l as [|v' l']; [|apply F4; discriminate].
        simpl in F1. injection F1 as <-. rewrite app_nil_r in *.
        destruct D'; [|lia]. exfalso. destruct F3 as (R1 & R2 & _). apply trim_0 in R2.
        destruct y; discriminate.
      * intros K. apply J2. intros K'. apply K. now apply GG.
    + rewrite I2 by exact G. split; [|auto]. intros K. exfalso. apply G. unfold good in *.
      rewrite Ev, Ed in K. destruct K as [K|K]; auto. apply app_eq_nil in K. tauto.
Qed.

(** the value pushed at the end, and the resulting state *)
Lemma finish_ok m pre y t D (st : fl_state A) :
  fl_rss st = (pre ++ [splits_of (map kids y)]) ++ firstn D (rows m (concat (map kids y) ++ t)) ->
  trim D m (concat (map kids y) ++ t) -> fl_elems st = vals m (concat (map kids y) ++ t) ->
  Forall (unif (S m)) y -> Forall (unif m) t ->
  exists st', (n <- (if zlen pre + 1 >=? zlen (fl_rss st) then Some (zlen (fl_elems st))
         else r <- rd (fl_rss st) (zlen pre + 1);; Some (zlen r - 1));;
   rss' <- push_at (fl_rss st) (zlen pre) n;;
   Some (mk_fl (fl_deepest st) rss' (fl_elems st))) = Some st' /\ fl_deepest st' = fl_deepest st /\
   rep pre (S D) (S m) (y ++ [PList t]) st'.
Proof.
  intros H1 H2 H3 H5 H6.
  assert (H4 : Forall (unif m) (concat (map kids y) ++ t)).
  { apply Forall_app; split; auto. now apply unif_kids. }
  set (z := concat (map kids y) ++ t) in *.
  assert (N : (if zlen pre + 1 >=? zlen (fl_rss st) then Some (zlen (fl_elems st))
         else r <- rd (fl_rss st) (zlen pre + 1);; Some (zlen r - 1)) = Some (zlen z)).
  { rewrite H1, !zlen_app. change (zlen [_]) with 1. pose proof (zlen_nonneg (firstn D (rows m z))) as Z0.
    destruct D as [|D].
    - simpl firstn. change (zlen (@nil (list Z))) with 0. replace (_ >=? _) with true by lia. f_equal. rewrite H3.
      destruct m as [|m]; [|now rewrite (trim_0 _ _ H2), vals_nil].
      clear - H4. simpl. induction H4 as [|[a|lv] l Hv HF IH]; simpl in *; try tauto.
      rewrite !zlen_cons. lia.
    - destruct H2 as (Hl & _). destruct m as [|m]; [lia|]. simpl rows. simpl firstn. rewrite zlen_cons.
      pose proof (zlen_nonneg (firstn D (rows m (concat (map kids z))))) as Z1.
      replace (_ >=? _) with false by lia.
      rewrite rd_app_r by (rewrite zlen_app; change (zlen [_]) with 1; lia).
      rewrite zlen_app. change (zlen [_]) with 1. rewrite Z.sub_diag, rd_cons_0. rewrite splits_rows. now rewrite zlen_map. }
  rewrite N. rewrite H1. rewrite <- app_assoc. simpl app at 2. rewrite push_at_ok.
  eexists. split; [reflexivity|]. split; [reflexivity|].
  assert (Ez : concat (map kids (y ++ [PList t])) = z).
  { rewrite map_app, concat_app. simpl. now rewrite app_nil_r. }
  unfold rep. cbn [fl_rss fl_elems fl_deepest]. split; [|split; [|split]].
  - f_equal. simpl rows. simpl firstn. rewrite Ez. f_equal.
    rewrite map_app. cbn [map kids]. rewrite splits_of_snoc. do 2 f_equal.
    change [t] with (map kids [PList t]). rewrite <- map_app, Ez. reflexivity.
  - apply trim_S. now rewrite Ez.
  - cbn [vals]. now rewrite Ez.
  - apply Forall_app; split; auto.
Qed.

Lemma cast_elems_ok l : Forall (unif 0) l -> cast_elems l = Some (flat_map elem_of l).
Proof.
  unfold cast_elems. induction 1 as [|[a|lv] l Hv HF IH]; simpl in *; try tauto. now rewrite IH.
Qed.

Lemma iter_step m : (m = 0%nat \/ exists m', m = S m' /\ loop_spec m') -> iter_spec m.
Proof.
  intros HL v lvl pre y D st Hv Hp (R1 & R2 & R3 & R4).
  destruct (unif_S _ _ Hv) as (Ev & Ht). set (t := kids v) in *. clearbody t. subst v lvl.
  pose proof (zlen_nonneg pre) as P0.
  (* after the resize *)
  assert (Rs : exists D1, (1 <= D1)%nat /\ trim D1 (S m) y /\
     fl_rss st ++ repeat [0] (Z.to_nat (zlen pre + 1 - zlen (fl_rss st))) = pre ++ firstn D1 (rows (S m) y)).
  { rewrite R1. destruct D as [|D].
    - exists 1%nat. destruct (trim_up 0 (S m) y R2) as (T1 & T2); [lia|]. split; [lia|]. split; [exact T1|].
      rewrite T2. simpl firstn. rewrite app_nil_r. replace (Z.to_nat _) with 1%nat by lia. reflexivity.
    - exists (S D). split; [lia|]. split; [exact R2|].
      replace (Z.to_nat _) with 0%nat; [now rewrite app_nil_r|]. rewrite zlen_app. simpl. rewrite zlen_cons.
      pose proof (zlen_nonneg (firstn D (rows m (concat (map kids y))))). lia. }
  destruct Rs as (D1 & Rd & Rt & Rr). destruct D1 as [|D1]; [lia|].
  rewrite iter_unfold. cbv zeta. rewrite Rr. cbn [fl_deepest fl_rss fl_elems].
  assert (Rr' : pre ++ firstn (S D1) (rows (S m) y) =
     (pre ++ [splits_of (map kids y)]) ++ firstn D1 (rows m (concat (map kids y)))).
  { simpl. now rewrite <- app_assoc. }
  rewrite Rr'. apply trim_S in Rt.
  (* lists of elements, or an empty list *)
  assert (Term : (m = 0%nat \/ t = []) ->
    forall X, (X = (check (negb (negb (fl_deepest st =? -1) && (0 <? zlen t) && negb (fl_deepest st =? zlen pre + 1)));;
             check (negb ((0 <? zlen t) && negb (zlen pre + 1 =? zlen ((pre ++ [splits_of (map kids y)]) ++ firstn D1 (rows m (concat (map kids y)))))));;
             tmp <- cast_elems t;;
             Some (mk_fl (if fl_deepest st =? -1 then zlen pre + 1 else fl_deepest st) ((pre ++ [splits_of (map kids y)]) ++ firstn D1 (rows m (concat (map kids y)))) (fl_elems st ++ tmp)))) ->
  (good (S m) (fl_deepest st) (zlen pre) [PList t] ->
   exists st' D',  (st0 <- X;; n <- (if zlen pre + 1 >=? zlen (fl_rss st0) then Some (zlen (fl_elems st0))
         else r <- rd (fl_rss st0) (zlen pre + 1);; Some (zlen r - 1));;
   rss' <- push_at (fl_rss st0) (zlen pre) n;;
   Some (mk_fl (fl_deepest st0) rss' (fl_elems st0))) = Some st' /\ fl_deepest st' = d_after (fl_deepest st) (zlen pre) [PList t] /\
     rep pre D' (S m) (y ++ [PList t]) st' /\ (1 <= D')%nat) /\
  (~ good (S m) (fl_deepest st) (zlen pre) [PList t] -> (st0 <- X;; n <- (if zlen pre + 1 >=? zlen (fl_rss st0) then Some (zlen (fl_elems st0))
         else r <- rd (fl_rss st0) (zlen pre + 1);; Some (zlen r - 1));;
   rss' <- push_at (fl_rss st0) (zlen pre) n;;
   Some (mk_fl (fl_deepest st0) rss' (fl_elems st0))) = None)).
  { intros Hm X ->.
    assert (F1 : ftl (PList t) = 1).
    { destruct Hm as [->| ->]; [|reflexivity]. destruct t as [|[a|lh] t']; auto.
      apply Forall_inv in Ht. simpl in Ht. tauto. }
    assert (Sz : (0 <? zlen t) = true -> m = 0%nat /\ D1 = 0%nat).
    { intros H. destruct Hm as [->| ->]; [|discriminate]. split; auto. destruct Rt. lia. }
    assert (Ce : cast_elems t = Some (vals m t)).
    { destruct Hm as [->| ->]; [now apply cast_elems_ok|]. now rewrite vals_nil. }
    assert (V1 : vals (S m) [PList t] = vals m t) by (simpl; now rewrite app_nil_r).
    assert (Len : (0 <? zlen t) = true -> vals m t <> []).
    { intros H. destruct (Sz H) as (-> & _). destruct t as [|[a|lh] t']; [discriminate| |].
      - discriminate.
      - apply Forall_inv in Ht. simpl in Ht. tauto. }
    assert (Da : d_after (fl_deepest st) (zlen pre) [PList t] = if fl_deepest st =? -1 then zlen pre + 1 else fl_deepest st).
    { unfold d_after. now rewrite F1. }
    assert (C2 : negb ((0 <? zlen t) && negb (zlen pre + 1 =? zlen ((pre ++ [splits_of (map kids y)]) ++ firstn D1 (rows m (concat (map kids y)))))) = true).
    { destruct (0 <? zlen t) eqn:E; [|reflexivity]. destruct (Sz eq_refl) as (-> & ->).
      rewrite !zlen_app. simpl firstn. change (zlen [_]) with 1. change (zlen (@nil (list Z))) with 0.
      replace (_ =? _) with true by lia. reflexivity. }
    rewrite C2. unfold good. rewrite V1, Da.
    destruct (negb (negb (fl_deepest st =? -1) && (0 <? zlen t) && negb (fl_deepest st =? zlen pre + 1))) eqn:C1.
    - split.
      + intros _. rewrite Ce.
        destruct (finish_ok m pre y t D1 (mk_fl (if fl_deepest st =? -1 then zlen pre + 1 else fl_deepest st)
           ((pre ++ [splits_of (map kids y)]) ++ firstn D1 (rows m (concat (map kids y)))) (fl_elems st ++ vals m t)))
          as (st' & G1 & G2 & G3); auto.
        * cbn [fl_rss]. f_equal. destruct Hm as [->| ->]; [|now rewrite app_nil_r]. destruct Rt.
          replace D1 with 0%nat by lia. reflexivity.
        * destruct Hm as [->| ->]; [|now rewrite app_nil_r]. destruct Rt.
          replace D1 with 0%nat by lia. apply trim_full.
        * cbn [fl_elems]. rewrite R3, vals_app. reflexivity.
        * exists st', (S D1). split; [exact G1|]. split; [exact G2|]. split; [exact G3|lia].
      + intros G. exfalso. apply G.
        destruct (0 <? zlen t) eqn:E.
        * right. destruct (Sz eq_refl) as (-> & _). destruct (fl_deepest st =? -1) eqn:E1; [lia|].
          simpl in C1. lia.
        * left. assert (t = []) as -> by (apply zlen_0_nil; pose proof (zlen_nonneg t); lia). apply vals_nil.
    - split; [|auto]. intros G. exfalso.
      destruct (fl_deepest st =? -1) eqn:E1; [discriminate|].
      destruct (0 <? zlen t) eqn:E; [|discriminate]. specialize (Len eq_refl).
      destruct (Sz eq_refl) as (-> & _). destruct G as [G|G]; [congruence|]. lia. }
  destruct t as [|[a|lh] t'].
  - apply Term; auto.
  - apply Term; [|reflexivity]. left. destruct m; auto. apply Forall_inv in Ht. simpl in Ht. tauto.
  - clear Term. destruct HL as [->|(m' & -> & HL)].
    { apply Forall_inv in Ht. simpl in Ht. tauto. }
    set (t := PList lh :: t') in *.
    set (st1 := mk_fl (fl_deepest st) ((pre ++ [splits_of (map kids y)]) ++ firstn D1 (rows (S m') (concat (map kids y)))) (fl_elems st)).
    assert (Rep1 : rep (pre ++ [splits_of (map kids y)]) D1 (S m') (concat (map kids y)) st1).
    { split; [reflexivity|]. split; [exact Rt|]. split; [exact R3|]. now apply unif_kids. }
    assert (Lp : zlen (pre ++ [splits_of (map kids y)]) = zlen pre + 1) by (rewrite zlen_app; reflexivity).
    destruct (HL t (zlen pre + 1) _ _ _ st1 Ht Lp Rep1) as (L1 & L2).
    assert (Da : d_after (fl_deepest st) (zlen pre) [PList t] = d_after (fl_deepest st1) (zlen pre + 1) t).
    { unfold d_after, t, st1. cbn [fl_deepest]. destruct (_ =? _); auto.
      change (ftl (PList (PList lh :: t'))) with (1 + ftl (PList lh)). lia. }
    assert (GG : good (S (S m')) (fl_deepest st) (zlen pre) [PList t] <-> good (S m') (fl_deepest st1) (zlen pre + 1) t).
    { unfold good. rewrite Da.
      change (vals (S (S m')) [PList t]) with (vals (S m') (t ++ [])). rewrite app_nil_r.
      split; intros [K|K]; auto; right; lia. }
    split.
    + intros G. apply GG in G. destruct (L1 G) as (st2 & D2 & F1 & F2 & F3 & F4). rewrite F1.
      destruct F3 as (Q1 & Q2 & Q3 & Q4).
      destruct (finish_ok (S m') pre y t D2 st2 Q1 Q2 Q3 R4 Ht) as (st' & G1 & G2 & G3).
      exists st', (S D2). split; [exact G1|]. split; [rewrite G2, F2; now rewrite Da|]. split; [exact G3|lia].
    + intros G. rewrite L2; [reflexivity|]. intros K. apply G. now apply GG.
Qed.

Lemma loop_ok m : loop_spec m.
Proof.
  induction m as [|m IH]; apply loop_of_iter, iter_step; [now left|right; eauto].
Qed.

(** ** tolist *)
Lemma unif_lists m y : Forall (unif (S m)) y -> map PList (map kids y) = y.
Proof.
  induction 1 as [|v l Hv HF IH]; simpl; auto. rewrite IH. now destruct (unif_S _ _ Hv) as (<- & _).
Qed.

Lemma sub_nil {B} lo hi : sub (@nil B) lo hi = [].
Proof. unfold sub. now rewrite skipn_nil, firstn_nil. Qed.

Lemma to_list_ok m : forall D y b e, Forall (unif m) y -> trim D m y -> 0 <= b <= e -> e <= zlen y ->
  to_list (firstn D (rows m y)) (vals m y) b e = Some (sub y b e).
Proof.
  induction m as [|m IH]; intros D y b e HU HT Hb He.
  - destruct HT as (HT & _). replace D with 0%nat by lia. simpl firstn. cbn [to_list].
    apply mapM_by_rd; [rewrite zlen_map, zlen_zrange, zlen_sub; lia|].
    intros i x Hi. pose proof (rd_Some_bound _ _ _ Hi) as B. rewrite zlen_map, zlen_zrange in B by lia.
    rewrite rd_map, rd_zrange in Hi by lia. simpl in Hi. injection Hi as <-.
    rewrite rd_sub by lia.
    assert (E : forall k, (v <- rd (vals 0 y) k;; Some (PElem v)) = rd y k).
    { clear - HU. simpl. induction HU as [|[a|lv] l Hv HF IH]; intros k; simpl in *; try tauto.
      - now rewrite !rd_nil.
      - rewrite !rd_cons. destruct (k =? 0); auto. }
    apply E.
  - destruct D as [|D].
    + apply trim_0 in HT. subst y. change (zlen (@nil (pyval A))) with 0 in He.
      assert (b = 0) by lia. assert (e = 0) by lia. subst. simpl firstn. cbn [to_list]. now rewrite sub_nil.
    + apply trim_S in HT. simpl rows. simpl firstn. cbn [to_list].
      apply mapM_by_rd; [rewrite zlen_map, zlen_zrange, zlen_sub; lia|].
      intros i x Hi. pose proof (rd_Some_bound _ _ _ Hi) as B. rewrite zlen_map, zlen_zrange in B by lia.
      rewrite rd_map, rd_zrange in Hi by lia. simpl in Hi. injection Hi as <-. rewrite rd_sub by lia.
      pose proof (zlen_map kids y) as Lk.
      rewrite !rd_splits_off by lia. set (q := b + i) in *.
      destruct (rd_in_bound y q ltac:(lia)) as (v & Hv). rewrite Hv.
      assert (Hk : rd (map kids y) q = Some (kids v)) by now rewrite rd_map, Hv.
      pose proof (off1_nonneg (map kids y) q). pose proof (off1_mono (map kids y) q (q + 1) ltac:(lia)).
      cbn [vals]. rewrite IH; auto.
      * rewrite <- concat_sub by lia.
        assert (Es : sub (map kids y) q (q + 1) = [kids v]).
        { apply list_ext_rd; [rewrite zlen_sub by lia; change (zlen [kids v]) with 1; lia|].
          intros j Hj. rewrite zlen_sub in Hj by lia. rewrite rd_sub by lia.
          replace j with 0 by lia. rewrite Z.add_0_r, Hk. reflexivity. }
        rewrite Es. simpl. rewrite app_nil_r. rewrite Forall_forall in HU.
        destruct (unif_S _ _ (HU v (rd_In _ _ _ Hv))) as (<- & _). reflexivity.
      * now apply unif_kids.
      * apply off1_bound.
Qed.

Lemma last_rows D : forall m y, trim D m y -> Forall (unif m) y -> (1 <= D)%nat ->
  last (last (firstn D (rows m y)) [0]) 0 = zlen (vals m y).
Proof.
  induction D as [|D IH]; intros m y HT HU HD; [lia|]. destruct m as [|m]; [destruct HT; lia|].
  assert (HU' : Forall (unif m) (concat (map kids y))).
  { now apply unif_kids. }
  apply trim_S in HT. simpl rows. simpl firstn.
  destruct D as [|D].
  - simpl last at 2. cbn [last firstn].
    assert (El : last (splits_of (map kids y)) 0 = zlen (concat (map kids y))).
    { pose proof (rd_splits_last (map kids y)) as R.
      pose proof (rd_last (splits_of (map kids y)) 0) as R2. rewrite zlen_splits_of in R2.
      replace (zlen (map kids y) + 1 - 1) with (zlen (map kids y)) in R2 by lia. rewrite R in R2.
      assert (splits_of (map kids y) <> []) by (unfold splits_of, exsum; destruct (map zlen (map kids y)); discriminate). specialize (R2 H). congruence. }
    rewrite El. cbn [vals]. destruct m as [|m].
    + clear - HU'. induction HU' as [|[a|lv] l Hv HF IH]; simpl in *; try tauto. rewrite !zlen_cons. lia.
    + now rewrite (trim_0 _ _ HT), vals_nil.
  - cbn [vals]. rewrite <- (IH m (concat (map kids y)) HT HU') by lia. f_equal.
    destruct m as [|m]; [destruct HT; lia|]. reflexivity.
Qed.

Lemma from_list_ok m l : Forall (unif (S m)) l ->
  (good (S m) (-1) 0 l -> exists rss, from_list l = Some (rss, vals (S m) l) /\ tolist rss (vals (S m) l) = Some l) /\
  (~ good (S m) (-1) 0 l -> from_list l = None).
Proof.
  intros HU. unfold from_list.
  assert (R0 : rep [] 0 (S m) [] (mk_fl (-1) [] (@nil A))).
  { split; [reflexivity|]. split; [|split; [cbn [fl_elems]; symmetry; apply vals_nil|constructor]].
    split; [lia|]. simpl. rewrite rows_nil. reflexivity. }
  destruct (loop_ok m l 0 [] [] 0%nat _ HU eq_refl R0) as (H1 & H2). split.
  - intros G. destruct (H1 G) as (st & D & E1 & E2 & (Q1 & Q2 & Q3 & _) & E3). rewrite E1. simpl app in *.
    rewrite Q3. destruct l as [|v l].
    { simpl in E1. injection E1 as <-. cbn [fl_rss]. rewrite vals_nil. exists [[0]]. split; reflexivity. }
    assert (HD : (1 <= D)%nat) by (apply E3; discriminate).
    assert (Hrss : match fl_rss st with [] => [[0]] | r => r end = firstn D (rows (S m) (v :: l))).
    { rewrite Q1. destruct D; [lia|]. reflexivity. }
    cbv zeta. rewrite Hrss.
    rewrite (last_rows D (S m) (v :: l)) by auto. rewrite Z.eqb_refl.
    eexists. split; [reflexivity|]. unfold tolist.
    assert (Hh : hd_error (firstn D (rows (S m) (v :: l))) = Some (splits_of (map kids (v :: l)))).
    { destruct D; [lia|]. reflexivity. }
    rewrite Hh, splits_rows, zlen_map. pose proof (zlen_nonneg (v :: l)).
    rewrite to_list_ok by (auto; lia). f_equal.
    unfold sub. change (Z.to_nat 0) with 0%nat. simpl skipn. apply firstn_all2. unfold zlen. lia.
  - intros G. now rewrite H2.
Qed.
(** All numbers of a nested list, in order. *)
Fixpoint leaves (v : pyval A) : list A :=
  match v with PElem a => [a] | PList l => flat_map leaves l end.

Lemma vals_leaves m : forall y, Forall (unif m) y -> vals m y = flat_map leaves y.
Proof.
  induction m as [|m IH]; intros y HU.
  - simpl. induction HU as [|[a|lv] l Hv HF IH]; simpl in *; try tauto. now rewrite IH.
  - cbn [vals]. rewrite IH by now apply unif_kids. induction HU as [|v l Hv HF IHy]; [reflexivity|].
    cbn [map concat flat_map]. rewrite flat_map_app, IHy.
    destruct (unif_S _ _ Hv) as (-> & _). reflexivity.
Qed.
End S.
