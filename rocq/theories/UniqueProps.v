(** * C56: RaggedTensor.unique keeps one copy of every sequence. *)
From Coq Require Import ZArith List Lia Bool Permutation Sorted.
From Coq Require Import ZifyBool ZifyNat.
From Verif Require Import Base RaggedModel RaggedSpec RaggedProofs FsaSpec FsaLemmas SelectProofs
  RaggedOpsModel RaggedOpsSpec RaggedOpsProofs RaggedCatProofs RaggedListProofs RaggedOpsProps PropsProps UniqueModel.
Import ListNotations.
Open Scope Z_scope.

Definition lay {A} (x : list (list A)) : layer := mk_layer (splits_of x) (ids_of x).

Lemma compute_hash_ok (x : list (list Z)) : compute_hash (splits_of x) (concat x) = Some (map hash_row x).
Proof.
  unfold compute_hash. rewrite splits_rows.
  apply RaggedOpsProofs.mapM_zrange; [apply zlen_nonneg|apply zlen_map|].
  intros i Hi. destruct (rd_in_bound x i Hi) as (row & Hr).
  rewrite !rd_splits_off by lia. rewrite (off1_next x i row Hr). pose proof (zlen_nonneg row).
  replace (_ <=? _) with true by lia.
  pose proof (slice_ok x i row Hr) as S. rewrite (off1_next x i row Hr) in S. rewrite S.
  rewrite rd_map, Hr. reflexivity.
Qed.

(** ** Runs of equal keys *)
Local Notation hp := (Z * Z)%type.                    (* hash, position *)
Fixpoint fl (prev : option Z) (l : list hp) : list bool :=
  match l with
  | [] => []
  | a :: t => (match prev with None => true | Some b => negb (fst a =? b) end) :: fl (Some (fst a)) t
  end.
Definition flag (g : list hp) : list bool := true :: repeat false (length g - 1).
Definition run (g : list hp) : Prop := g <> [] /\ forall p q, In p g -> In q g -> fst p = fst q.
Definition glt (g h : list hp) : Prop := forall p q, In p g -> In q h -> fst p < fst q.

Lemma grouping l : StronglySorted (fun p q : hp => fst p <= fst q) l ->
  exists gs, concat gs = l /\ Forall run gs /\ fl None l = concat (map flag gs) /\ StronglySorted glt gs.
Proof.
  induction 1 as [|a t HS IH HF]; [exists []; repeat split; auto; constructor|].
  destruct IH as (gs & E & R & F & SS). destruct gs as [|g gs].
  - simpl in E. subst t. exists [[a]]. split; [reflexivity|]. split; [|split].
    + constructor; [|constructor]. split; [discriminate|]. intros p q [<-|[]] [<-|[]]; auto.
    + reflexivity.
    + constructor; constructor.
  - destruct g as [|b g]; [inversion R as [|? ? R1 ?]; destruct R1; congruence|].
    simpl in E. assert (T : t = b :: (g ++ concat gs)) by auto. clear E. subst t.
    inversion R as [|? ? R1 R2]; subst. inversion SS as [|? ? S1 S2]; subst.
    cbn [fl map concat flag length] in F. cbn in F. injection F as F.
    rewrite Nat.sub_0_r in F.
    assert (Hab : fst a <= fst b) by (rewrite Forall_forall in HF; apply HF; now left).
    destruct (Z.eq_dec (fst b) (fst a)) as [Q|Q].
    + exists ((a :: b :: g) :: gs). split; [reflexivity|]. split; [|split].
      * constructor; auto. split; [discriminate|]. destruct R1 as (_ & R1).
        assert (W : forall p, In p (a :: b :: g) -> fst p = fst b).
        { intros p [<-|Hp]; auto. apply R1; [exact Hp|now left]. }
        intros p q Hp Hq. rewrite (W p Hp), (W q Hq). reflexivity.
      * cbn [fl map concat flag length]. rewrite Q, Z.eqb_refl. rewrite <- Q. rewrite F. reflexivity.
      * constructor; auto. rewrite Forall_forall in S2 |- *. intros h Hh p q [<-|Hp] Hq.
        -- rewrite <- Q. apply (S2 h Hh); [now left|auto].
        -- apply (S2 h Hh); auto.
    + exists ([a] :: (b :: g) :: gs). split; [reflexivity|]. split; [|split].
      * constructor; auto. split; [discriminate|]. intros p q [<-|[]] [<-|[]]; auto.
      * cbn [fl map concat flag length]. replace (fst b =? fst a) with false by lia. rewrite F.
        cbn. rewrite Nat.sub_0_r. reflexivity.
      * constructor; [constructor; auto|]. constructor.
        -- intros p q [<-|[]] Hq. destruct R1 as (_ & R1). rewrite (R1 q b Hq) by now left. lia.
        -- rewrite Forall_forall in S2 |- *. intros h Hh p q [<-|[]] Hq.
           specialize (S2 h Hh b q ltac:(now left) Hq). lia.
Qed.

Lemma length_fl l : forall p, length (fl p l) = length l.
Proof. induction l; intros; simpl; auto. Qed.
Lemma rd_fl l : forall prev k, 0 <= k < zlen l ->
  rd (fl prev l) k =
  if k =? 0 then (match prev with None => Some true | Some b => a <- rd l 0;; Some (negb (fst a =? b)) end)
  else a <- rd l k;; b <- rd l (k - 1);; Some (negb (fst a =? fst b)).
Proof.
  induction l as [|a l IH]; intros prev k Hk; [unfold zlen in Hk; simpl in Hk; lia|].
  cbn [fl]. rewrite zlen_cons in Hk. rewrite !rd_cons. change (0 =? 0) with true. cbv iota.
  destruct (k =? 0) eqn:K; [destruct prev; reflexivity|].
  rewrite IH by lia. destruct (k - 1 =? 0) eqn:K1.
  - replace (k - 1) with 0 by lia. reflexivity.
  - reflexivity.
Qed.

Lemma zlen_cat {X} (ll : list (list X)) : zlen (concat ll) = zsum (map zlen ll).
Proof. induction ll as [|l ll IH]; auto. cbn [concat map zsum]. now rewrite zlen_app, IH. Qed.
Lemma off1_sizes {X Y} (x : list (list X)) (y : list (list Y)) k : map zlen x = map zlen y -> off1 x k = off1 y k.
Proof. intros H. unfold off1. rewrite !zlen_cat, <- !firstn_map. now rewrite H. Qed.
Lemma sizes_zlen {X Y} (x : list (list X)) (y : list (list Y)) : map zlen x = map zlen y -> zlen x = zlen y.
Proof. intros H. apply (f_equal (@length Z)) in H. rewrite !map_length in H. unfold zlen. lia. Qed.
Lemma rd_concat_off1 {X} (ll : list (list X)) r l j e : rd ll r = Some l -> rd l j = Some e ->
  rd (concat ll) (off1 ll r + j) = Some e.
Proof. intros H1 H2. exact (proj1 (rd_concat_off ll r l j e H1 H2)). Qed.

Lemma keep_ok {A} (x : list (list A)) (R : list (list hp)) : map zlen R = map zlen x ->
  mapM (unique_keep (splits_of x) (ids_of x) (map fst (concat R))) (zrange (zlen (concat R))) =
  Some (concat (map (fl None) R)).
Proof.
  intros HL.
  assert (ES : splits_of x = splits_of R) by (unfold splits_of; now rewrite HL).
  assert (EI : ids_of x = ids_of R) by (symmetry; now apply ids_of_zlen).
  rewrite ES, EI.
  assert (LF : map zlen (map (fl None) R) = map zlen R).
  { rewrite map_map. apply map_ext. intros l. unfold zlen. now rewrite length_fl. }
  apply RaggedOpsProofs.mapM_zrange; [apply zlen_nonneg| |].
  { rewrite !zlen_cat. rewrite LF. reflexivity. }
  intros i Hi. destruct (rd_in_bound _ _ Hi) as (e & He).
  destruct (rd_concat_inv _ _ _ He) as (u & row & k & K1 & K2 & K3 & K4).
  pose proof (rd_Some_bound _ _ _ K1) as Bu. pose proof (rd_Some_bound _ _ _ K2) as Bk.
  fold (off1 R u) in K3.
  unfold unique_keep. rewrite K4, rd_splits_off by lia. rewrite !rd_map, He.
  assert (RF : rd (concat (map (fl None) R)) i = rd (fl None row) k).
  { assert (BF : 0 <= k < zlen (fl None row)) by (unfold zlen in *; rewrite length_fl; lia).
    destruct (rd_in_bound _ _ BF) as (b & Hb). rewrite Hb. rewrite K3.
    rewrite <- (off1_sizes _ _ u LF).
    eapply rd_concat_off1; eauto. rewrite rd_map, K1. reflexivity. }
  rewrite RF, rd_fl by lia. rewrite K2.
  destruct (k =? 0) eqn:Ek.
  - replace (i =? off1 R u) with true by lia. reflexivity.
  - replace (i =? off1 R u) with false by lia.
    destruct (rd_in_bound row (k - 1) ltac:(lia)) as (b & Hb).
    rewrite Hb. replace (i - 1) with (off1 R u + (k - 1)) by lia.
    rewrite (rd_concat_off1 R u row (k - 1) b K1 Hb). reflexivity.
Qed.

Fixpoint starts {X} (o : Z) (gs : list (list X)) : list Z :=
  match gs with [] => [] | g :: t => o :: starts (o + zlen g) t end.

Lemma kept_app a : forall o b, kept_from o (a ++ b) = kept_from o a ++ kept_from (o + zlen a) b.
Proof.
  induction a as [|c a IH]; intros; simpl; [now rewrite Z.add_0_r|].
  rewrite IH, zlen_cons, <- app_assoc. do 3 f_equal. lia.
Qed.
Lemma kept_false n : forall o, kept_from o (repeat false n) = [].
Proof. induction n; intros; simpl; auto. Qed.
Lemma kept_starts gs : Forall run gs -> forall o, kept_from o (concat (map flag gs)) = starts o gs.
Proof.
  induction 1 as [|g gs (Hg & _) HF IH]; intros o; auto.
  cbn [map concat starts]. rewrite kept_app, IH. unfold flag at 1. cbn [kept_from]. rewrite kept_false.
  unfold flag. rewrite zlen_cons, zlen_repeat. destruct g as [|b g]; [congruence|].
  simpl. f_equal. f_equal. rewrite zlen_cons. unfold zlen. lia.
Qed.
Lemma zlen_starts {X} (gs : list (list X)) : forall o, zlen (starts o gs) = zlen gs.
Proof. induction gs; intros; auto. cbn [starts]. rewrite !zlen_cons, IHgs. reflexivity. Qed.
Lemma rd_starts {X} (gs : list (list X)) : forall o i, 0 <= i < zlen gs -> rd (starts o gs) i = Some (o + off1 gs i).
Proof.
  induction gs as [|g gs IH]; intros o i Hi; [unfold zlen in Hi; simpl in Hi; lia|].
  cbn [starts]. rewrite rd_cons. rewrite zlen_cons in Hi. destruct (i =? 0) eqn:E.
  - replace i with 0 by lia. unfold off1. simpl. f_equal. unfold zlen; simpl; lia.
  - rewrite IH by lia. f_equal. unfold off1. replace (Z.to_nat i) with (S (Z.to_nat (i - 1))) by lia.
    cbn [firstn concat]. rewrite zlen_app. lia.
Qed.
Lemma off1_end {X} (gs : list (list X)) : off1 gs (zlen gs) = zlen (concat gs).
Proof. unfold off1, zlen. now rewrite Nat2Z.id, firstn_all. Qed.

Lemma repeats_ok (gs : list (list hp)) :
  mapM (unique_repeats (starts 0 gs) (zlen (concat gs))) (zrange (zlen gs)) = Some (map zlen gs).
Proof.
  apply RaggedOpsProofs.mapM_zrange; [apply zlen_nonneg|apply zlen_map|].
  intros i Hi. destruct (rd_in_bound gs i Hi) as (g & Hg). pose proof (off1_next gs i g Hg) as N.
  unfold unique_repeats. rewrite zlen_starts, rd_map, Hg. rewrite (rd_starts gs 0 i) by lia.
  destruct (i <? zlen gs - 1) eqn:E.
  - rewrite rd_starts by lia. cbn [option_map]. f_equal. lia.
  - replace (i + 1) with (zlen gs) in N by lia. rewrite off1_end in N. cbn [option_map]. f_equal. lia.
Qed.

Definition hdpos (g : list hp) : Z := snd (hd (0, 0) g).
Lemma heads_ok gs : Forall run gs ->
  mapM (rd (map snd (concat gs))) (starts 0 gs) = Some (map hdpos gs).
Proof.
  intros R. assert (E : starts 0 gs = map (off1 gs) (zrange (zlen gs))).
  { apply list_ext_rd; [rewrite zlen_starts, zlen_map, zlen_zrange; auto; apply zlen_nonneg|].
    intros i. destruct (rd (starts 0 gs) i) as [y|] eqn:Y.
    - pose proof (rd_Some_bound _ _ _ Y) as B. rewrite zlen_starts in B. rewrite rd_starts in Y by lia.
      rewrite rd_map, rd_zrange by lia. now rewrite <- Y.
    - apply rd_None in Y. rewrite zlen_starts in Y. symmetry. apply rd_None. rewrite zlen_map, zlen_zrange by apply zlen_nonneg. lia. }
  rewrite E, mapM_map. apply RaggedOpsProofs.mapM_zrange; [apply zlen_nonneg|apply zlen_map|].
  intros i Hi. destruct (rd_in_bound gs i Hi) as (g & Hg). rewrite !rd_map, Hg.
  rewrite Forall_forall in R. destruct (R g (rd_In _ _ _ Hg)) as (Ng & _). destruct g as [|b g]; [congruence|].
  replace (off1 gs i) with (off1 gs i + 0) by lia. rewrite (rd_concat_off1 gs i (b :: g) 0 b Hg eq_refl). reflexivity.
Qed.

(** ** Index on axis 1 *)
Lemma index_axis1_ok {A} (x : list (list (list A))) (K : list (list Z)) : zlen K = zlen x ->
  (forall u ks, rd K u = Some ks -> Forall (fun i => off1 x u <= i < off1 x (u + 1)) ks) ->
  let y := map (map (pick (concat x))) K in
  index_axis1 (lay x) (lay (concat x)) (concat (concat x)) (concat K) = Some (lay y, lay (concat y), concat (concat y)).
Proof.
  intros HK HR y. unfold index_axis1, lay. cbn [l_ids l_rs].
  assert (B : forall u ks i, rd K u = Some ks -> In i ks -> exists row e, rd x u = Some row /\
               rd (concat x) i = Some e /\ rd (ids_of x) i = Some u).
  { intros u ks i Hu Hi. pose proof (rd_Some_bound _ _ _ Hu) as Bu. rewrite HK in Bu.
    destruct (rd_in_bound x u Bu) as (row & Hrow). specialize (HR u ks Hu). rewrite Forall_forall in HR.
    specialize (HR i Hi). rewrite (off1_next x u row Hrow) in HR.
    destruct (rd_in_bound row (i - off1 x u) ltac:(lia)) as (e & He).
    destruct (rd_concat_off x u row _ e Hrow He) as (D1 & D2). exists row, e.
    replace (off1 x u + (i - off1 x u)) with i in * by lia. auto. }
  assert (I : mapM (rd (ids_of x)) (concat K) = Some (ids_of K)).
  { apply mapM_by_rd; [unfold ids_of; apply zlen_ids_from|].
    intros j i Hi. destruct (rd_concat_inv _ _ _ Hi) as (u & ks & k & K1 & K2 & K3 & K4).
    rewrite K4. destruct (B u ks i K1 (rd_In _ _ _ K2)) as (_ & _ & _ & _ & E). congruence. }
  unfold index_last. rewrite I. rewrite splits_rows, <- HK, splits_of_row_ids.
  cbn [fst snd].
  destruct (C07_index_axis0 A 0 (concat x) (concat K)) as (el & E1 & _).
  { unfold index_ok. apply Forall_forall. intros i Hi. apply in_concat in Hi as (ks & Hks & Hi).
    apply In_rd in Hks as (u & _ & Hu). destruct (B u ks i Hu Hi) as (_ & e & _ & E & _).
    pose proof (rd_Some_bound _ _ _ E). unfold nest. lia. }
  change (layers_of (A:=A) 1 (concat x)) with [mk_layer (splits_of (concat x)) (ids_of (concat x))] in E1.
  change (values_of (A:=A) 1 (concat x)) with (concat (concat x)) in E1.
  rewrite E1. cbn [fst snd].
  assert (CY : map (pick (concat x)) (concat K) = concat y) by (unfold y; apply concat_map).
  assert (SY : map zlen y = map zlen K) by (unfold y; rewrite map_map; apply map_ext; intros; apply zlen_map).
  change (layers_of (A:=A) 1 (map (pick (concat x)) (concat K))) with [mk_layer (splits_of (map (pick (concat x)) (concat K))) (ids_of (map (pick (concat x)) (concat K)))].
  change (values_of (A:=A) 1 (map (pick (concat x)) (concat K))) with (concat (map (pick (concat x)) (concat K))).
  cbn [l_rs]. rewrite splits_rows, zlen_map. unfold ids_of at 1. rewrite zlen_ids_from, Z.eqb_refl.
  rewrite CY. do 3 f_equal. unfold splits_of. rewrite SY. f_equal. symmetry. now apply ids_of_zlen.
Qed.

(** ** The grouped form of all rows *)
Lemma groupings R : Forall (StronglySorted (fun p q : hp => fst p <= fst q)) R ->
  exists Gu, map (@concat hp) Gu = R /\ Forall (Forall run) Gu /\
    map (fl None) R = map (fun gs => concat (map flag gs)) Gu /\ Forall (StronglySorted glt) Gu.
Proof.
  induction 1 as [|r R Hr HF IH]; [exists []; repeat split; constructor|].
  destruct IH as (Gu & E1 & E2 & E3 & E4). destruct (grouping r Hr) as (gs & F1 & F2 & F3 & F4).
  exists (gs :: Gu). split; [cbn [map]; congruence|]. split; [now constructor|]. split; [cbn [map]; congruence|now constructor].
Qed.

Lemma sorted_map {X Y} (f : X -> Y) (P : Y -> Y -> Prop) l :
  StronglySorted P (map f l) -> StronglySorted (fun p q => P (f p) (f q)) l.
Proof.
  induction l as [|a l IH]; intros H; [constructor|]. cbn [map] in H. inversion H as [|? ? H1 H2]; subst.
  constructor; [auto|]. rewrite Forall_map in H2. exact H2.
Qed.

Lemma filter_none {X} (f : X -> bool) l : (forall a, In a l -> f a = false) -> filter f l = [].
Proof. induction l as [|a l IH]; intros H; auto. simpl. rewrite (H a) by now left. apply IH. intros; apply H; now right. Qed.
Lemma filter_all {X} (f : X -> bool) l : (forall a, In a l -> f a = true) -> filter f l = l.
Proof. induction l as [|a l IH]; intros H; auto. simpl. rewrite (H a) by now left. f_equal. apply IH. intros; apply H; now right. Qed.

Lemma hd_in (g : list hp) : g <> [] -> In (hd (0, 0) g) g.
Proof. destruct g; [congruence|now left]. Qed.
Lemma filter_group gs g : StronglySorted glt gs -> Forall run gs -> In g gs ->
  filter (fun p => fst p =? fst (hd (0, 0) g)) (concat gs) = g.
Proof.
  induction gs as [|g' gs IH]; intros S R [].
  - subst g'. inversion R as [|? ? (R1 & R2) R3]; subst. inversion S as [|? ? S1 S2]; subst.
    cbn [concat]. rewrite filter_app, filter_all, filter_none; [now rewrite app_nil_r| |].
    + intros a Ha. apply in_concat in Ha as (h & Hh & Ha). rewrite Forall_forall in S2.
      specialize (S2 h Hh _ a (hd_in g R1) Ha). lia.
    + intros a Ha. rewrite (R2 a _ Ha (hd_in g R1)). lia.
  - inversion R as [|? ? (R1 & R2) R3]; subst. inversion S as [|? ? S1 S2]; subst.
    cbn [concat]. rewrite filter_app, filter_none, IH; auto.
    intros a Ha. rewrite Forall_forall in S2, R3. destruct (R3 g H) as (G1 & _).
    specialize (S2 g H a _ Ha (hd_in g G1)). lia.
Qed.
Lemma heads_nodup gs : StronglySorted glt gs -> Forall run gs -> NoDup (map (fun g => fst (hd (0, 0) g)) gs).
Proof.
  induction gs as [|g gs IH]; intros S R; [constructor|].
  inversion R as [|? ? (R1 & _) R3]; subst. inversion S as [|? ? S1 S2]; subst. cbn [map]. constructor; [|auto].
  intros Hin. apply in_map_iff in Hin as (g' & E & Hg'). rewrite Forall_forall in S2, R3. destruct (R3 g' Hg') as (G1 & _).
  specialize (S2 g' Hg' _ _ (hd_in g R1) (hd_in g' G1)). lia.
Qed.

Lemma perm_filter {X} (f : X -> bool) l l' : Permutation l l' -> Permutation (filter f l) (filter f l').
Proof.
  induction 1 as [|a l l' P IH|a b l|l l' l'' P1 IH1 P2 IH2]; simpl; auto.
  - destruct (f a); auto.
  - destruct (f a), (f b); auto. apply perm_swap.
  - eapply perm_trans; eauto.
Qed.
Lemma perm_zlen {X} (l l' : list X) : Permutation l l' -> zlen l = zlen l'.
Proof. intros H. unfold zlen. now rewrite (Permutation_length H). Qed.
Lemma filter_map_comm {X Y} (f : Y -> bool) (g : X -> Y) l : filter f (map g l) = map g (filter (fun a => f (g a)) l).
Proof. induction l as [|a l IH]; auto. simpl. destruct (f (g a)); simpl; now rewrite IH. Qed.
Lemma combine_fst {X Y} (a : list X) : forall b : list Y, length a = length b -> map fst (combine a b) = a.
Proof. induction a; intros [|y b] H; simpl in *; try discriminate; auto. f_equal. auto. Qed.
Lemma combine_snd {X Y} (a : list X) : forall b : list Y, length a = length b -> map snd (combine a b) = b.
Proof. induction a; intros [|y b] H; simpl in *; try discriminate; auto. f_equal. auto. Qed.

(** The sequences of one row whose hash is that of [s]. *)
Definition alike (row : list (list Z)) (s : list Z) : list (list Z) :=
  filter (fun t => hash_row t =? hash_row s) row.

(** C56, in terms of the hash: for every tensor with axes [utt][path][elem] and
    every schedule, unique succeeds.  The new2old indexes of utterance u are
    positions of paths of that utterance; path k of the result is the path at
    position new2old[k]; the hashes of the result's paths are distinct within
    the utterance, every path of the utterance is represented, and
    num_repeats[k] counts the paths represented by path k. *)
Theorem C56_unique_by_hash : forall (x : list (list (list Z))) (sched : Z -> list Z),
  (forall n, is_sched n (sched n)) ->
  exists (out : list (list (list Z))) (reps idx : list (list Z)),
    unique_sequences sched (lay x) (lay (concat x)) (concat (concat x)) =
      Some (lay out, lay (concat out), concat (concat out), concat reps, concat idx) /\
    zlen out = zlen x /\ map zlen reps = map zlen out /\ map zlen idx = map zlen out /\
    forall u row, rd x u = Some row -> exists o r ix,
      rd out u = Some o /\ rd reps u = Some r /\ rd idx u = Some ix /\
      Forall (fun i => off1 x u <= i < off1 x u + zlen row) ix /\
      mapM (rd (concat x)) ix = Some o /\
      NoDup (map hash_row o) /\
      (forall s, In s row -> exists s', In s' o /\ hash_row s' = hash_row s) /\
      (forall k s, rd o k = Some s -> rd r k = Some (zlen (alike row s))).
Proof.
  intros x sched HS. set (H := map (map hash_row) x).
  assert (CH : concat H = map hash_row (concat x)) by (unfold H; symmetry; apply concat_map).
  assert (SH : map zlen H = map zlen x) by (unfold H; rewrite map_map; apply map_ext; intros; apply zlen_map).
  assert (AS : forall a b, (a <? b) = true -> (b <? a) = false) by (intros; lia).
  assert (NT : forall a b c, (a <? c) = true -> (a <? b) = true \/ (b <? c) = true) by (intros; lia).
  destruct (C08_sort_sublists Z Z.ltb AS NT H) as (outs & E1 & E2 & E3).
  assert (E3' : forall u row, rd x u = Some row -> exists vals order, rd outs u = Some (vals, order) /\
            Permutation order (map (fun k => off1 x u + k) (zrange (zlen row))) /\
            mapM (rd (concat H)) order = Some vals /\ Permutation (map hash_row row) vals /\
            StronglySorted (fun a b => (b <? a) = false) vals).
  { intros u row Hu. destruct (E3 u (map hash_row row)) as (vals & order & F1 & F2 & F3 & F4 & _ & F5).
    { unfold H. now rewrite rd_map, Hu. }
    exists vals, order. rewrite zlen_map in F2.
    change (zlen (concat (firstn (Z.to_nat u) H))) with (off1 H u) in F2. rewrite (off1_sizes H x u SH) in F2. auto 10. }
  clear E3. set (R := map (fun o : list Z * list Z => combine (fst o) (snd o)) outs).
  assert (ZH : zlen H = zlen x) by (unfold H; apply zlen_map).
  assert (RR : forall u r, rd R u = Some r -> exists row vals order, rd x u = Some row /\ rd outs u = Some (vals, order) /\
            r = combine vals order /\ length vals = length order /\
            Permutation order (map (fun k => off1 x u + k) (zrange (zlen row))) /\
            mapM (rd (concat H)) order = Some vals /\ Permutation (map hash_row row) vals /\
            StronglySorted (fun a b => (b <? a) = false) vals).
  { intros u r Hr. pose proof (rd_Some_bound _ _ _ Hr) as B. unfold R in B. rewrite zlen_map, E2, ZH in B.
    destruct (rd_in_bound x u B) as (row & Hrow). destruct (E3' u row Hrow) as (vals & order & F1 & F2 & F3 & F4 & F5).
    exists row, vals, order. unfold R in Hr. rewrite rd_map, F1 in Hr. cbn in Hr. injection Hr as <-.
    pose proof (mapM_length _ _ _ F3). auto 12. }
  assert (SR : map zlen R = map zlen x).
  { apply list_ext_rd; [unfold R; rewrite !zlen_map; lia|]. intros u _. rewrite !rd_map.
    destruct (rd R u) as [r|] eqn:Er.
    - destruct (RR u r Er) as (row & vals & order & F1 & F2 & -> & F3 & F4 & _). rewrite F1. cbn [option_map]. apply f_equal.
      transitivity (zlen order); [unfold zlen; now rewrite combine_length, F3, Nat.min_id|].
      rewrite (perm_zlen _ _ F4), zlen_map, zlen_zrange; [reflexivity|apply zlen_nonneg].
    - apply rd_None in Er. unfold R in Er. rewrite zlen_map in Er.
      replace (rd x u) with (@None (list (list Z))); auto. symmetry. apply rd_None. lia. }
  assert (FV : concat (map fst outs) = map fst (concat R) /\ concat (map snd outs) = map snd (concat R)).
  { rewrite !concat_map. unfold R. rewrite !map_map. split; f_equal; apply map_ext_in; intros o Ho;
      apply In_rd in Ho as (u & _ & Hu);
      (assert (Hr : rd R u = Some (combine (fst o) (snd o))) by (unfold R; now rewrite rd_map, Hu));
      destruct (RR u _ Hr) as (row & vals & order & _ & F2 & _ & F3 & _); rewrite Hu in F2; injection F2 as ->; cbn [fst snd];
      symmetry; [now apply combine_fst|now apply combine_snd]. }
  destruct FV as (FV & FO).
  destruct (groupings R) as (Gu & G1 & G2 & G3 & G4).
  { apply Forall_forall. intros r Hr. apply In_rd in Hr as (u & _ & Hu).
    destruct (RR u r Hu) as (row & vals & order & _ & _ & -> & F3 & _ & _ & _ & F5).
    rewrite <- (combine_fst vals order F3) in F5. apply sorted_map in F5.
    clear - F5. induction F5 as [|a l S IH F]; constructor; auto. eapply Forall_impl; [|exact F]. cbn. intros; lia. }
  assert (CR : concat R = concat (concat Gu)) by (rewrite <- G1; apply concat_map_concat).
  assert (LG : zlen Gu = zlen x) by (rewrite <- (zlen_map (@concat hp) Gu), G1; unfold R; rewrite zlen_map; lia).
  assert (FG : Forall run (concat Gu)).
  { apply Forall_forall. intros g Hg. apply in_concat in Hg as (gs & Hgs & Hg). rewrite Forall_forall in G2.
    specialize (G2 gs Hgs). rewrite Forall_forall in G2. auto. }
  assert (POS : forall u gs g p, rd Gu u = Some gs -> In g gs -> In p g -> exists row s, rd x u = Some row /\ In s row /\
           off1 x u <= snd p < off1 x u + zlen row /\ rd (concat x) (snd p) = Some s /\ hash_row s = fst p).
  { intros u gs g p Hu Hg Hp.
    assert (Hr : rd R u = Some (concat gs)) by (rewrite <- G1, rd_map, Hu; auto).
    assert (Hin : In p (concat gs)) by (apply in_concat; eauto).
    destruct (RR u _ Hr) as (row & vals & order & F1 & _ & F2 & F3 & F4 & F5 & _).
    rewrite F2 in Hin. destruct p as (h, i). pose proof (in_combine_r _ _ _ _ Hin) as Hi.
    apply (Permutation_in _ F4) in Hi. apply in_map_iff in Hi as (k & <- & Hk). apply in_zrange in Hk.
    destruct (rd_in_bound row k Hk) as (s & Hs).
    pose proof (rd_concat_off1 x u row k s F1 Hs) as Hc.
    exists row, s. split; [auto|]. split; [eapply rd_In; eauto|]. cbn [fst snd]. split; [lia|]. split; [exact Hc|].
    assert (C : rd (concat H) (off1 x u + k) = Some h).
    { clear - Hin F5. revert vals F5 Hin. induction order as [|q order IH]; intros vals F5 Hin; simpl in F5.
      - injection F5 as <-. destruct Hin.
      - destruct (rd (concat H) q) as [v|] eqn:Ev; [|discriminate].
        destruct (mapM (rd (concat H)) order) as [vs|] eqn:Es; [|discriminate]. injection F5 as <-.
        cbn [combine] in Hin. destruct Hin as [Q|Q]; [injection Q as -> ->; auto|eauto]. }
    rewrite CH, rd_map, Hc in C. now injection C. }
  exists (map (map (pick (concat x))) (map (map hdpos) Gu)), (map (map zlen) Gu), (map (map hdpos) Gu).
  split; [|split; [|split; [|split]]].
  - unfold unique_sequences. cbn [l_rs l_ids lay]. rewrite compute_hash_ok, <- CH.
    replace (splits_of x) with (splits_of H) at 1 by (unfold splits_of; now rewrite SH). rewrite E1. cbn [fst snd].
    rewrite FV, FO.
    replace (zlen (concat H)) with (zlen (concat R)) by (rewrite !zlen_cat; congruence).
    rewrite (keep_ok x R SR).
    rewrite new2old_kept by apply HS. rewrite G3.
    replace (concat (map (fun gs => concat (map flag gs)) Gu)) with (concat (map flag (concat Gu)))
      by (rewrite concat_map, <- concat_map_concat, map_map; reflexivity).
    rewrite kept_starts by auto. rewrite CR, heads_ok by auto. rewrite zlen_starts, repeats_ok.
    rewrite !concat_map. change (mk_layer (splits_of x) (ids_of x)) with (lay x).
    fold (lay x). fold (lay (concat x)).
    rewrite (index_axis1_ok x (map (map hdpos) Gu)); [reflexivity|rewrite zlen_map; exact LG|].
    intros u ks Hks. rewrite rd_map in Hks. destruct (rd Gu u) as [gs|] eqn:Hu; [|discriminate]. injection Hks as <-.
    apply Forall_forall. intros i Hi. apply in_map_iff in Hi as (g & <- & Hg).
    rewrite Forall_forall in FG. destruct (FG g) as (Ng & _); [apply in_concat; exists gs; split; [eapply rd_In; eauto|auto]|].
    destruct (POS u gs g _ Hu Hg (hd_in g Ng)) as (row & s & P1 & _ & P2 & _). rewrite (off1_next x u row P1). exact P2.
  - now rewrite !zlen_map.
  - rewrite !map_map. apply map_ext. intros gs. now rewrite !zlen_map.
  - rewrite !map_map. apply map_ext. intros gs. now rewrite !zlen_map.
  - intros u row Hrow. pose proof (rd_Some_bound _ _ _ Hrow) as B. rewrite <- LG in B.
    destruct (rd_in_bound Gu u B) as (gs & Hu). rewrite !rd_map, Hu. cbn [option_map].
    exists (map (pick (concat x)) (map hdpos gs)), (map zlen gs), (map hdpos gs).
    do 3 (split; [reflexivity|]).
    assert (RU : Forall run gs) by (rewrite Forall_forall in G2; apply G2; eapply rd_In; eauto).
    assert (SU : StronglySorted glt gs) by (rewrite Forall_forall in G4; apply G4; eapply rd_In; eauto).
    assert (HD : forall g, In g gs -> exists s, In s row /\ off1 x u <= hdpos g < off1 x u + zlen row /\
              rd (concat x) (hdpos g) = Some s /\ hash_row s = fst (hd (0, 0) g)).
    { intros g Hg. rewrite Forall_forall in RU. destruct (RU g Hg) as (Ng & _).
      destruct (POS u gs g _ Hu Hg (hd_in g Ng)) as (row' & s & P1 & P2 & P3 & P4 & P5).
      assert (row' = row) by congruence. subst row'. exists s. auto. }
    assert (HH : forall g, In g gs -> hash_row (pick (concat x) (hdpos g)) = fst (hd (0, 0) g)).
    { intros g Hg. destruct (HD g Hg) as (s & _ & _ & E & P). unfold pick. rewrite E. exact P. }
    assert (Hr : rd R u = Some (concat gs)) by (rewrite <- G1, rd_map, Hu; auto).
    destruct (RR u _ Hr) as (row' & vals & order & F1 & _ & F2 & F3 & _ & _ & F6 & _).
    assert (row' = row) by congruence. subst row'.
    assert (VG : vals = map fst (concat gs)) by (rewrite F2; symmetry; now apply combine_fst).
    split; [|split; [|split; [|split]]].
    + apply Forall_forall. intros i Hi. apply in_map_iff in Hi as (g & <- & Hg). now destruct (HD g Hg) as (s & _ & P & _).
    + apply mapM_Some_map. intros i Hi. apply in_map_iff in Hi as (g & <- & Hg). destruct (HD g Hg) as (s & _ & _ & E & _).
      unfold pick. now rewrite E.
    + rewrite !map_map. rewrite (map_ext_in _ (fun g => fst (hd (0, 0) g))) by exact HH. now apply heads_nodup.
    + intros s Hs. assert (Hh : In (hash_row s) vals) by (eapply Permutation_in; [exact F6|now apply in_map]).
      rewrite VG in Hh. apply in_map_iff in Hh as (p & Ep & Hp). apply in_concat in Hp as (g & Hg & Hp).
      exists (pick (concat x) (hdpos g)). split; [apply in_map, in_map; exact Hg|].
      rewrite HH by auto. rewrite Forall_forall in RU. destruct (RU g Hg) as (Ng & CN).
      rewrite <- Ep. apply CN; [now apply hd_in|auto].
    + intros k s Hk. rewrite !rd_map in Hk. rewrite rd_map. destruct (rd gs k) as [g|] eqn:Eg; [|discriminate].
      cbn in Hk. injection Hk as <-. cbn [option_map]. f_equal.
      pose proof (rd_In _ _ _ Eg) as Hg. rewrite <- (filter_group gs g SU RU Hg) at 1.
      rewrite <- (HH g Hg). set (v := hash_row (pick (concat x) (hdpos g))).
      rewrite <- (zlen_map fst). rewrite <- (filter_map_comm (fun a => a =? v)). rewrite <- VG.
      rewrite <- (perm_zlen _ _ (perm_filter (fun a => a =? v) _ _ F6)).
      rewrite filter_map_comm, zlen_map. reflexivity.
Qed.
Print Assumptions C56_unique_by_hash.

Definition count (s : list Z) (row : list (list Z)) : Z :=
  Z.of_nat (count_occ (list_eq_dec Z.eq_dec) row s).

(** No two different sequences of one utterance have the same hash. *)
Definition no_collision (row : list (list Z)) : Prop :=
  forall s t, In s row -> In t row -> hash_row s = hash_row t -> s = t.

Lemma alike_count row s : In s row -> no_collision row -> zlen (alike row s) = count s row.
Proof.
  intros Hs H. unfold alike, count, zlen. f_equal.
  assert (G : forall l, incl l row -> length (filter (fun t => hash_row t =? hash_row s) l) = count_occ (list_eq_dec Z.eq_dec) l s).
  { induction l as [|t l IH]; intros I; auto. simpl. specialize (IH (fun a Ha => I a (or_intror Ha))).
    destruct (list_eq_dec Z.eq_dec t s) as [->|N].
    - rewrite Z.eqb_refl. simpl. now rewrite IH.
    - destruct (hash_row t =? hash_row s) eqn:E; auto. destruct N. apply H; auto; [apply I; now left|lia]. }
  apply G. apply incl_refl.
Qed.

(** C56: when no two different sequences of one utterance have the same hash,
    unique returns every distinct sequence of every utterance exactly once,
    new2old maps each to a position that holds it, and num_repeats counts its
    occurrences in the utterance. *)
Theorem C56_unique : forall (x : list (list (list Z))) (sched : Z -> list Z),
  (forall n, is_sched n (sched n)) ->
  (forall u row, rd x u = Some row -> no_collision row) ->
  exists (out : list (list (list Z))) (reps idx : list (list Z)),
    unique_sequences sched (lay x) (lay (concat x)) (concat (concat x)) =
      Some (lay out, lay (concat out), concat (concat out), concat reps, concat idx) /\
    zlen out = zlen x /\ map zlen reps = map zlen out /\ map zlen idx = map zlen out /\
    forall u row, rd x u = Some row -> exists o r ix,
      rd out u = Some o /\ rd reps u = Some r /\ rd idx u = Some ix /\
      Forall (fun i => off1 x u <= i < off1 x u + zlen row) ix /\
      mapM (rd (concat x)) ix = Some o /\
      NoDup o /\ (forall s, In s o <-> In s row) /\
      (forall k s, rd o k = Some s -> rd r k = Some (count s row)).
Proof.
  intros x sched HS NC. destruct (C56_unique_by_hash x sched HS) as (out & reps & idx & E1 & E2 & E3 & E4 & E5).
  exists out, reps, idx. do 4 (split; [assumption|]). intros u row Hu.
  destruct (E5 u row Hu) as (o & r & ix & F1 & F2 & F3 & F4 & F5 & F6 & F7 & F8). specialize (NC u row Hu).
  assert (SUB : forall s, In s o -> In s row).
  { intros s Hs. apply In_rd in Hs as (k & _ & Hk). destruct (mapM_rd _ _ _ _ _ F5 Hk) as (i & I1 & I2).
    rewrite Forall_forall in F4. specialize (F4 i (rd_In _ _ _ I1)).
    destruct (rd_in_bound row (i - off1 x u) ltac:(lia)) as (s' & Hs').
    pose proof (rd_concat_off1 x u row _ s' Hu Hs') as C. replace (off1 x u + (i - off1 x u)) with i in C by lia.
    rewrite I2 in C. injection C as ->. eapply rd_In; eauto. }
  exists o, r, ix. do 5 (split; [assumption|]). split; [eapply NoDup_map_inv; eauto|]. split.
  - intros s. split; [apply SUB|]. intros Hs. destruct (F7 s Hs) as (s' & S1 & S2).
    rewrite <- (NC s' s (SUB s' S1) Hs S2). exact S1.
  - intros k s Hk. rewrite (F8 k s Hk). f_equal. apply alike_count; auto. apply SUB. eapply rd_In; eauto.
Qed.
Print Assumptions C56_unique.

(** C56, two axes: unique on a list of sequences. *)
Theorem C56_unique_two_axes : forall (x : list (list Z)) (sched : Z -> list Z),
  (forall n, is_sched n (sched n)) -> no_collision x ->
  exists out reps idx,
    unique_sequences2 sched (lay x) (concat x) = Some (lay out, concat out, reps, idx) /\
    NoDup out /\ (forall s, In s out <-> In s x) /\
    mapM (rd x) idx = Some out /\ reps = map (fun s => count s x) out.
Proof.
  intros x sched HS NC. destruct (C56_unique [x] sched HS) as (out & reps & idx & E1 & E2 & E3 & E4 & E5).
  { intros u row Hu. rewrite rd_cons in Hu. destruct (u =? 0); [injection Hu as <-; auto|rewrite rd_nil in Hu; discriminate]. }
  destruct (E5 0 x eq_refl) as (o & r & ix & F1 & F2 & F3 & F4 & F5 & F6 & F7 & F8).
  assert (one : forall A (l : list A) e, zlen l = 1 -> rd l 0 = Some e -> l = [e]).
  { intros A l e HL He. destruct l as [|a [|b l]]; [discriminate| |rewrite !zlen_cons in HL; pose proof (zlen_nonneg l); lia].
    cbn in He. now injection He as ->. }
  change (zlen [x]) with 1 in E2. pose proof (sizes_zlen _ _ E3) as L3. pose proof (sizes_zlen _ _ E4) as L4.
  apply one in F1; [|lia]. apply one in F2; [|lia]. apply one in F3; [|lia]. subst out reps idx.
  cbn [concat] in E1, F5. rewrite !app_nil_r in E1. rewrite app_nil_r in F5.
  exists o, r, ix. split; [|split; [exact F6|split; [exact F7|split; [exact F5|]]]].
  - unfold unique_sequences2. cbn [l_rs lay]. rewrite splits_rows.
    replace (mk_layer [0; zlen x] (repeat 0 (Z.to_nat (zlen x)))) with (lay [x]).
    2:{ unfold lay, splits_of, ids_of. cbn [map ids_from exsum]. rewrite app_nil_r. unfold exsum. cbn [exsum_from].
        f_equal. unfold zlen. now rewrite Nat2Z.id. }
    fold (lay x). rewrite E1. reflexivity.
  - apply list_ext_rd.
    + rewrite zlen_map. cbn in E3. injection E3 as E3. exact E3.
    + intros k Hk. cbn in E3. injection E3 as E3. destruct (rd_in_bound o k ltac:(lia)) as (s & Hs).
      rewrite rd_map, Hs. now apply F8.
Qed.
Print Assumptions C56_unique_two_axes.

(** ** The hash collides on short, ordinary sequences *)
Lemma wrap_mod z : wrap64 z mod 2 ^ 64 = z mod 2 ^ 64.
Proof. unfold wrap64. rewrite Zminus_mod, Zmod_mod, <- Zminus_mod. f_equal. lia. Qed.
Lemma wrap_eq y z : y mod 2 ^ 64 = z mod 2 ^ 64 -> wrap64 y = wrap64 z.
Proof. intros H. unfold wrap64. rewrite (Zplus_mod y), (Zplus_mod z), H. reflexivity. Qed.
Lemma wrap_in k z e : wrap64 (k * wrap64 z + e) = wrap64 (k * z + e).
Proof.
  apply wrap_eq. rewrite Zplus_mod, Zmult_mod, wrap_mod, <- Zmult_mod, <- Zplus_mod. reflexivity.
Qed.

(** 31 and 167, the two multipliers, are the roots of X^2 - 198 X + 5177: three
    consecutive elements can be changed without changing the hash. *)
Theorem C56_collisions : forall (p s : list Z) a b c,
  hash_row (p ++ [a; b; c] ++ s) = hash_row (p ++ [a + 1; b - 198; c + 5177] ++ s).
Proof.
  intros. unfold hash_row. rewrite !fold_left_app. set (h := fold_left hash_step p (13, 787)).
  assert (E : fold_left hash_step [a; b; c] h = fold_left hash_step [a + 1; b - 198; c + 5177] h).
  { cbn [fold_left]. unfold hash_step. cbn [fst snd].
    assert (W : forall k z e f g, wrap64 (k * wrap64 (k * wrap64 (k * z + e) + f) + g) = wrap64 (k * (k * (k * z + e) + f) + g)).
    { intros. rewrite wrap_in. replace (k * (k * wrap64 (k * z + e) + f) + g) with (k * k * wrap64 (k * z + e) + (k * f + g)) by ring.
      rewrite wrap_in. f_equal. ring. }
    rewrite !W. f_equal; f_equal; ring. }
  now rewrite E.
Qed.
Print Assumptions C56_collisions.

(** C56 does not hold without the hypothesis: the sequences (1 199 1) and
    (2 1 5178) are treated as equal, and one of them is lost. *)
Theorem C56_unique_refuted : exists x : list (list Z),
  x = [[1; 199; 1]; [2; 1; 5178]] /\ ~ no_collision x /\
  unique_sequences2 (fun n => zrange n) (lay x) (concat x) = Some (lay [[1; 199; 1]], [1; 199; 1], [2], [0]).
Proof.
  exists [[1; 199; 1]; [2; 1; 5178]]. split; [reflexivity|]. split.
  - intros H. specialize (H [1; 199; 1] [2; 1; 5178]). cbn in H.
    assert (E : [1; 199; 1] = [2; 1; 5178]); [|discriminate]. apply H; auto.
  - vm_compute. reflexivity.
Qed.
Print Assumptions C56_unique_refuted.

(** ** The hypotheses are satisfiable *)
Definition ex56 : list (list (list Z)) := [[[1; 2]; [3]; [1; 2]; []; [3]; [3]]; []; [[2]; [2]]].
Example C56_ex : (forall u row, rd ex56 u = Some row -> no_collision row) /\
  let out := [[[]; [3]; [1; 2]]; []; [[2]]] in
  unique_sequences (fun n => zrange n) (lay ex56) (lay (concat ex56)) (concat (concat ex56)) =
    Some (lay out, lay (concat out), concat (concat out), [1; 3; 2; 2], [3; 1; 0; 6]).
Proof.
  split; [|vm_compute; reflexivity].
  intros u row Hu. assert (Hin : In row ex56) by (eapply rd_In; eauto).
  destruct Hin as [<-|[<-|[<-|[]]]]; intros s t Hs Ht Heq; simpl in Hs, Ht;
    repeat match goal with H : _ \/ _ |- _ => destruct H end; subst; auto;
    try contradiction; vm_compute in Heq; discriminate.
Qed.
