(** * CreateFsa *)
From Coq Require Import ZArith List Lia Bool Permutation.
From Verif Require Import Base RaggedModel RaggedSpec RaggedProofs FsaSpec FsaLemmas OpsModel DetModel DetInv.
Import ListNotations.
Open Scope Z_scope.

Lemma NoDup_concat_map {T W} (h : T -> list W) l : NoDup l -> (forall x, In x l -> NoDup (h x)) ->
  (forall x y z, In x l -> In y l -> In z (h x) -> In z (h y) -> x = y) -> NoDup (concat (map h l)).
Proof.
  intros H. induction H as [|x l Hn Hd IH]; intros H1 H2; [constructor|]. cbn [map concat].
  assert (X : NoDup (concat (map h l))) by (apply IH; [intros; apply H1; now right|intros ? ? ? ? ?; apply H2; now right]).
  assert (Y : forall z, In z (h x) -> ~ In z (concat (map h l))).
  { intros z Hz Hc. apply in_concat in Hc as (r & Hr & Hz'). apply in_map_iff in Hr as (y & <- & Hy). apply Hn. rewrite (H2 x y z); auto; [now left|now right]. }
  specialize (H1 x (or_introl eq_refl)). revert H1 Y. clear - X. induction (h x) as [|z r IHr]; intros H1 Y; [exact X|]. inversion H1; subst. cbn. constructor.
  - rewrite in_app_iff. intros [Hz|Hz]; [tauto|]. apply (Y z); [now left|exact Hz].
  - apply IHr; [assumption|]. intros z' Hz'. apply Y. now right.
Qed.

Section Create.
Variables (arcs : list arc) (n F : Z).
Definition ren (s : Z) : Z := if s <? F then s else if s =? F then n - 1 else s - 1.
Definition old (i : Z) : Z := if i <? F then i else if i =? n - 1 then F else i + 1.
Definition maxst (l : list arc) (x : Z) : Z := fold_left (fun m a => Z.max m (Z.max (src a) (dst a))) l x.

Hypothesis NE : arcs <> [].
Hypothesis HF : 0 <= F < n.
Hypothesis HA : forall a, In a arcs -> 0 <= src a < n /\ 0 <= dst a < n /\ (lab a = -1 -> dst a = F) /\ src a <> F.
Hypothesis HM : exists a, In a arcs /\ lab a = -1.
Hypothesis HT : exists a, In a arcs /\ (src a = n - 1 \/ dst a = n - 1).

Lemma ren_old i : 0 <= i < n -> ren (old i) = i.
Proof. unfold ren, old. intros. destruct (i <? F) eqn:E1; [now rewrite E1|]. destruct (i =? n - 1) eqn:E2; [destruct (F <? F) eqn:?; [lia|]; destruct (F =? F) eqn:?; lia|]. destruct (i + 1 <? F) eqn:?; [lia|]. destruct (i + 1 =? F) eqn:?; lia. Qed.
Lemma old_ren s : 0 <= s < n -> old (ren s) = s.
Proof. unfold ren, old. intros. destruct (s <? F) eqn:E1; [now rewrite E1|]. destruct (s =? F) eqn:E2; [destruct (n - 1 <? F) eqn:?; [lia|]; destruct (n - 1 =? n - 1) eqn:?; lia|]. destruct (s - 1 <? F) eqn:?; [lia|]. destruct (s - 1 =? n - 1) eqn:?; lia. Qed.
Lemma ren_bound s : 0 <= s < n -> 0 <= ren s < n.
Proof. unfold ren. intros. destruct (s <? F) eqn:?; [lia|]. destruct (s =? F) eqn:?; lia. Qed.
Lemma old_bound s : 0 <= s < n -> 0 <= old s < n.
Proof. unfold old. intros. destruct (s <? F) eqn:?; [lia|]. destruct (s =? n - 1) eqn:?; lia. Qed.

Lemma maxst_ok l : (forall a, In a l -> 0 <= src a < n /\ 0 <= dst a < n) -> forall x, x <= n - 1 ->
  x <= maxst l x <= n - 1 /\ forall a, In a l -> src a <= maxst l x /\ dst a <= maxst l x.
Proof.
  unfold maxst. induction l as [|a l IH]; intros H x Hx; cbn [fold_left]; [split; [lia|intros a []]|]. pose proof (H a (or_introl eq_refl)).
  destruct (IH (fun b Hb => H b (or_intror Hb)) (Z.max x (Z.max (src a) (dst a)))) as (I1 & I2); [lia|]. split; [lia|]. intros b [<-|Hb]; [lia|auto].
Qed.
Lemma maxst_eq : 1 + maxst arcs (-1) = n.
Proof.
  destruct (maxst_ok arcs (fun a Ha => conj (proj1 (HA a Ha)) (proj1 (proj2 (HA a Ha)))) (-1)) as (M1 & M2); [lia|]. destruct HT as (a & Ha & T). specialize (M2 a Ha). lia.
Qed.
Lemma fin_ok l : (forall a, In a l -> lab a = -1 -> dst a = F) -> forall f0, f0 = -1 \/ f0 = F -> (exists a, In a l /\ lab a = -1) \/ f0 = F ->
  foldM (fun f a => if lab a =? -1 then check ((f =? -1) || (dst a =? f));; Some (dst a) else Some f) l f0 = Some F.
Proof.
  induction l as [|a l IH]; intros H f0 H0 H1; cbn [foldM]; [destruct H1 as [(a & [] & _)|H1]; now rewrite H1|].
  destruct (lab a =? -1) eqn:E.
  - assert (D : dst a = F) by (apply H; [now left|lia]). assert (X : (f0 =? -1) || (dst a =? f0) = true) by (apply orb_true_iff; lia). rewrite X, D. apply IH; auto. intros b Hb. apply H. now right.
  - apply IH; auto; [intros b Hb; apply H; now right|]. destruct H1 as [(b & [<-|Hb] & L)|H1]; [lia|left; eauto|now right].
Qed.

Definition row s := filter (fun x => src (fst x) =? s) (combine arcs (zrange (zlen arcs))).
Definition prow i := map (fun x : arc * Z => (mkArc i (ren (dst (fst x))) (lab (fst x)) (sc (fst x)), snd x)) (row (old i)).

Lemma in_combine_zrange a j : In (a, j) (combine arcs (zrange (zlen arcs))) <-> rd arcs j = Some a.
Proof.
  assert (G : forall (l : list arc) k, In (a, j) (combine l (map (fun i => k + i) (zrange (zlen l)))) <-> rd l (j - k) = Some a).
  { induction l as [|x l IH]; intros k; [cbn; split; [intros []|intros H; apply rd_Some_bound in H; unfold zlen in H; cbn in H; lia]|].
    rewrite zlen_cons, zrange_cons by (pose proof (zlen_nonneg l); lia). replace (1 + zlen l - 1) with (zlen l) by lia. cbn [map combine]. rewrite map_map.
    rewrite (map_ext (fun i => k + (1 + i)) (fun i => (k + 1) + i)) by (intros; lia). cbn [In]. rewrite IH, rd_cons. destruct (j - k =? 0) eqn:E.
    - split; [intros [H|H]; [congruence|apply rd_Some_bound in H; lia]|]. intros H. left. injection H as ->. f_equal; lia.
    - replace (j - k - 1) with (j - (k + 1)) by lia. split; [intros [H|H]; [injection H as _ H; lia|exact H]|auto]. }
  specialize (G arcs 0). rewrite Z.sub_0_r in G. rewrite <- G. rewrite (map_ext (fun i => 0 + i) (fun i => i)) by (intros; lia). now rewrite map_id.
Qed.
Lemma in_row s a j : In (a, j) (row s) <-> rd arcs j = Some a /\ src a = s.
Proof. unfold row. rewrite filter_In, in_combine_zrange. cbn [fst]. rewrite Z.eqb_eq. tauto. Qed.
Lemma NoDup_row s : NoDup (map snd (row s)).
Proof.
  unfold row. assert (H : NoDup (map snd (combine arcs (zrange (zlen arcs))))).
  { assert (E : map snd (combine arcs (zrange (zlen arcs))) = zrange (zlen arcs)); [|rewrite E; apply NoDup_zrange].
    assert (L : length arcs = length (zrange (zlen arcs))) by (apply Nat2Z.inj; change (zlen arcs = zlen (zrange (zlen arcs))); now rewrite zlen_zrange by apply zlen_nonneg).
    revert L. generalize (zrange (zlen arcs)). clear. induction arcs as [|x l IH]; intros [|z zs] L; cbn in *; try discriminate; [reflexivity|]. f_equal. apply IH. lia. }
  revert H. generalize (combine arcs (zrange (zlen arcs))). induction l as [|(a, j) l IH]; intros H; cbn in *; [constructor|]. inversion H; subst. destruct (src a =? s); [|auto]. cbn. constructor; [|auto].
  rewrite in_map_iff in *. intros (x & X1 & X2). apply filter_In in X2 as (X2 & _). eauto.
Qed.

Lemma create_ok : exists g am, create_fsa arcs n = Some (splits_of g, all_arcs g, am) /\ nstates g = n /\ src_ok g /\ NoDup am /\
  (forall j, In j am <-> 0 <= j < zlen arcs) /\ zlen am = zlen (all_arcs g) /\
  (forall k j a, rd am k = Some j -> rd arcs j = Some a -> rd (all_arcs g) k = Some (mkArc (ren (src a)) (ren (dst a)) (lab a) (sc a))).
Proof.
  pose (rows := map prow (zrange n)). pose (g := map (map fst) rows : nfsa). pose (am := map snd (concat rows)).
  assert (EA : all_arcs g = map fst (concat rows)) by (unfold all_arcs, g; now rewrite concat_map).
  assert (IN : forall x j, In (x, j) (concat rows) -> exists i a, 0 <= i < n /\ rd arcs j = Some a /\ src a = old i /\ x = mkArc i (ren (dst a)) (lab a) (sc a)).
  { intros x j H. apply in_concat in H as (r & Hr & H). apply in_map_iff in Hr as (i & <- & Hi). apply in_zrange in Hi. unfold prow in H. apply in_map_iff in H as ((a, j') & E & H). cbn [fst snd] in E. injection E as <- <-. apply in_row in H. exists i, a. tauto. }
  exists g, am. split; [|split; [|split; [|split; [|split; [|split]]]]].
  - unfold create_fsa. destruct arcs as [|a0 arcs0] eqn:EAr; [congruence|]. rewrite <- EAr in *. clear a0 arcs0 EAr.
    rewrite (fin_ok arcs (fun a Ha => proj1 (proj2 (proj2 (HA a Ha))))); auto. cbv zeta. change (fold_left (fun m a => Z.max m (Z.max (src a) (dst a))) arcs (-1)) with (maxst arcs (-1)). rewrite maxst_eq.
    rewrite Z.eqb_refl. assert (E0 : (0 <=? F) = true) by lia. rewrite E0. fold (row F). assert (R0 : row F = []).
    { destruct (row F) as [|(a, j) r] eqn:E; [reflexivity|]. exfalso. assert (H : In (a, j) (row F)) by (rewrite E; now left). apply in_row in H as (H1 & H2). exact (proj2 (proj2 (proj2 (HA a (rd_In _ _ _ H1)))) H2). }
    rewrite R0. change (zlen (@nil (arc * Z)) =? 0) with true. cbv iota.
    set (n2o := zrange F ++ map (fun i => i + 1) (map (fun i => F + i) (zrange (n - 1 - F))) ++ [F]).
    assert (RN : forall i, 0 <= i < n -> rd n2o i = Some (old i)).
    { intros i Hi. unfold n2o, old. rewrite rd_app, zlen_zrange by lia. destruct (i <? F) eqn:E1; [rewrite rd_zrange by lia; reflexivity|].
      rewrite rd_app, !zlen_map, zlen_zrange by lia. destruct (i - F <? n - 1 - F) eqn:E2.
      - rewrite !rd_map, rd_zrange by lia. cbn [option_map]. destruct (i =? n - 1) eqn:E3; [lia|]. f_equal; lia.
      - destruct (i =? n - 1) eqn:E3; [|lia]. replace (i - F - (n - 1 - F)) with 0 by lia. reflexivity. }
    assert (ON : k2_fill n (zrange n) (fun i => o <- rd n2o i;; Some [(o, i)]) = Some (tab n ren)).
    { apply k2_fill_spec with (m := n); [lia|apply is_sched_zrange| |].
      - intros i Hi. rewrite RN by lia. eexists. split; [reflexivity|]. constructor; [|constructor]. pose proof (old_bound i Hi). split; [exact H|]. cbn [fst snd]. now rewrite ren_old.
      - intros j Hj. exists (ren j), [(j, ren j)]. pose proof (ren_bound j Hj). split; [exact H|]. rewrite RN by lia. rewrite old_ren by lia. split; [reflexivity|now left]. }
    rewrite ON. rewrite (mapM_Some_map _ prow).
    { fold rows. rewrite EA. unfold splits_of, g. rewrite map_map. do 4 f_equal. apply map_ext. intros r. now rewrite zlen_map. }
    intros i Hi. apply in_zrange in Hi. rewrite RN by lia. fold (row (old i)). apply mapM_Some_map. intros (a, j) Hx. apply in_row in Hx as (Hx & _). cbn [fst snd].
    destruct (HA a (rd_In _ _ _ Hx)) as (_ & H2 & _). rewrite rd_tab by lia. reflexivity.
  - unfold nstates, g, rows. rewrite !zlen_map, zlen_zrange; lia.
  - intros i st a Hi Ha. unfold g, rows in Hi. rewrite !rd_map in Hi. pose proof (rd_Some_bound (zrange n) i) as _. destruct (rd (zrange n) i) as [i'|] eqn:E; [|discriminate]. cbn [option_map] in Hi. injection Hi as <-.
    pose proof (rd_Some_bound _ _ _ E) as Bi. rewrite zlen_zrange in Bi by lia. rewrite rd_zrange in E by lia. injection E as <-. apply in_map_iff in Ha as ((x, j) & <- & Ha). unfold prow in Ha. apply in_map_iff in Ha as (y & Ey & _). apply (f_equal (fun z => src (fst z))) in Ey. cbn in *. congruence.
  - unfold am, rows. rewrite concat_map, map_map. apply NoDup_concat_map; [apply NoDup_zrange| |].
    + intros i _. unfold prow. rewrite map_map. cbn [snd]. exact (NoDup_row (old i)).
    + intros i i' j Hi Hi' H H'. apply in_zrange in Hi, Hi'. unfold prow in *. rewrite map_map in *. cbn [snd] in *. apply in_map_iff in H as ((a, j1) & <- & H), H' as ((a', j2) & E & H'). cbn [snd] in E. subst j2.
      apply in_row in H as (H1 & H2), H' as (H1' & H2'). assert (a = a') by congruence. subst a'. rewrite <- (ren_old i), <- (ren_old i') by lia. congruence.
  - intros j. unfold am. split.
    + intros H. apply in_map_iff in H as ((x, j') & <- & H). apply IN in H as (i & a & _ & H & _). cbn [snd]. apply rd_Some_bound in H. exact H.
    + intros H. destruct (rd_in_bound arcs j H) as (a & Ha). destruct (HA a (rd_In _ _ _ Ha)) as (S1 & _). apply in_map_iff. exists (mkArc (ren (src a)) (ren (dst a)) (lab a) (sc a), j). split; [reflexivity|].
      apply in_concat. exists (prow (ren (src a))). pose proof (ren_bound _ S1). split; [apply in_map, in_zrange; lia|]. unfold prow. apply in_map_iff. exists (a, j). split; [reflexivity|]. apply in_row. rewrite old_ren by lia. auto.
  - unfold am. rewrite EA, !zlen_map. reflexivity.
  - intros k j a Hk Hj. rewrite EA. unfold am in Hk.
    rewrite (Base.rd_map snd) in Hk. rewrite (Base.rd_map fst). destruct (rd (concat rows) k) as [(x, j')|] eqn:E; cbn [option_map] in Hk; [|discriminate]. cbn in *. injection Hk as ->. apply rd_In, IN in E as (i & a' & Hi & H1 & H2 & ->).
    assert (a' = a) by congruence. subst a'. rewrite H2, ren_old by lia. reflexivity.
Qed.
End Create.
