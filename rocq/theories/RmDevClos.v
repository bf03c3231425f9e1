(** The epsilon closure *)
From Coq Require Import ZArith List Lia Bool Permutation Sorted.
From Coq Require Import ZifyBool ZifyNat.
From Verif Require Import Base RaggedModel RaggedSpec RaggedProofs FsaSpec FsaLemmas SelectProofs RaggedOpsModel RaggedOpsProofs RaggedOpsProps EpsLoopProofs
  PropsProps ReverseProps ConnectProofs ExtractProofs ConnectRun TopSortProps RmEpsLang RmDevModel RmDevRagged RmDevEnc RmDevIter RmDevStep.
Import ListNotations.
Open Scope Z_scope.

(** Paths of items *)
Inductive ipath (R : Z -> list item) : Z -> list item -> Z -> Prop :=
| ip_nil s : ipath R s [] s
| ip_cons s x p t : In x (R s) -> ipath R (idst x) p t -> ipath R s (x :: p) t.
Definition psc (p : list item) : Z := zsum (map isc p).
Definition pmap (p : list item) : list Z := concat (map snd p).
Lemma psc_app p q : psc (p ++ q) = psc p + psc q.
Proof. unfold psc. rewrite map_app. apply zsum_app. Qed.
Lemma psc_cons x p : psc (x :: p) = isc x + psc p. Proof. reflexivity. Qed.
Lemma pmap_app p q : pmap (p ++ q) = pmap p ++ pmap q.
Proof. unfold pmap. now rewrite map_app, concat_app. Qed.
Lemma ipath_app R s p t q u : ipath R s p t -> ipath R t q u -> ipath R s (p ++ q) u.
Proof. induction 1; intros; [auto|]. cbn. econstructor; eauto. Qed.
Lemma ipath_split R s p q u : ipath R s (p ++ q) u -> exists t, ipath R s p t /\ ipath R t q u.
Proof. revert s. induction p as [|x p IH]; intros s H; [exists s; split; [constructor|exact H]|]. cbn in H. inversion H; subst. destruct (IH _ H5) as (t & H1 & H2). exists t. split; [econstructor; eauto|auto]. Qed.
Lemma ipath_inv R s x p t : ipath R s (x :: p) t -> In x (R s) /\ ipath R (idst x) p t.
Proof. intros H. inversion H; subst. auto. Qed.
Lemma ipath_one R s x : In x (R s) -> ipath R s [x] (idst x).
Proof. intros H. econstructor; [exact H|constructor]. Qed.

Lemma arcs_eqb_ok l : forall m, arcs_eqb l m = true <-> l = m.
Proof.
  induction l as [|a l IH]; intros [|b m]; cbn; try (split; congruence). rewrite andb_true_iff, IH. unfold arc_eqb. split.
  - intros (H & ->). destruct a, b. cbn in *. f_equal. f_equal; lia.
  - intros E. injection E as -> ->. split; [|auto]. rewrite !Z.eqb_refl. reflexivity.
Qed.
Lemma rows_eq {X} (a : list (list X)) : forall b, map zlen a = map zlen b -> concat a = concat b -> a = b.
Proof.
  induction a as [|x a IH]; intros [|y b] HL HC; cbn in *; try discriminate; auto. injection HL as H1 H2. assert (L1 : length x = length y) by (unfold zlen in H1; lia).
  assert (x = y /\ concat a = concat b) as (-> & HC').
  { clear -HC L1. revert y L1 HC. induction x as [|u x IH]; intros [|v y] L HC; cbn in *; try discriminate; auto. injection HC as -> HC. destruct (IH y ltac:(lia) HC) as (-> & ->). auto. }
  f_equal. now apply IH.
Qed.
Lemma zsum_le_eq (a b : list Z) : Forall2 Z.le a b -> zsum b <= zsum a -> a = b.
Proof.
  intros H. assert (G : zsum a <= zsum b) by (induction H; cbn [zsum fold_right] in *; unfold zsum in *; cbn; lia).
  induction H as [|x y a b L H IH]; auto. intros S. assert (G2 : zsum a <= zsum b) by (clear -H; induction H; unfold zsum in *; cbn; lia). unfold zsum in *. cbn [fold_right] in *. rewrite IH; [f_equal; lia|lia|lia].
Qed.
Lemma sorted_same {X Y} (d : X -> Z) (g : X -> Y) (l : list X) : forall l', StronglySorted (fun x y => d x < d y) l -> StronglySorted (fun x y => d x < d y) l' ->
  (forall z, In z l -> exists z', In z' l' /\ d z' = d z /\ g z' = g z) -> (forall z, In z l' -> exists z', In z' l /\ d z' = d z /\ g z' = g z) -> map g l = map g l'.
Proof.
  induction l as [|x l IH]; intros l' S S' H H'.
  - destruct l' as [|y l']; auto. destruct (H' y (or_introl eq_refl)) as (? & [] & _).
  - inversion S as [|? ? S1 F1]; subst. destruct l' as [|y l']; [destruct (H x (or_introl eq_refl)) as (? & [] & _)|]. inversion S' as [|? ? S2 F2]; subst. rewrite Forall_forall in F1, F2.
    assert (E : d x = d y). { destruct (H x (or_introl eq_refl)) as (y' & I1 & E1 & _). destruct (H' y (or_introl eq_refl)) as (x' & I2 & E2 & _). destruct I1 as [<-|I1], I2 as [<-|I2]; auto. specialize (F2 _ I1). specialize (F1 _ I2). lia. }
    cbn [map]. f_equal.
    + destruct (H x (or_introl eq_refl)) as (y' & [<-|I1] & E1 & E2); [auto|]. specialize (F2 _ I1). lia.
    + apply IH; auto.
      * intros z Hz. destruct (H z (or_intror Hz)) as (z' & [<-|I] & E1 & E2); [specialize (F1 _ Hz); lia|eauto].
      * intros z Hz. destruct (H' z (or_intror Hz)) as (z' & [<-|I] & E1 & E2); [specialize (F2 _ Hz); lia|eauto].
Qed.

(** Arc maps *)
Lemma mapM_rd_map {X Y} (g : X -> Y) (xs : list X) l ys : mapM (rd xs) l = Some ys -> mapM (rd (map g xs)) l = Some (map g ys).
Proof.
  revert ys. induction l as [|i l IH]; intros ys H; cbn [mapM] in *; [injection H as <-; reflexivity|]. rewrite rd_map. destruct (rd xs i) as [x|]; [|discriminate]. destruct (mapM (rd xs) l) as [y|]; [|discriminate]. injection H as <-. cbn. now rewrite (IH y eq_refl).
Qed.
Lemma compose_ok (s : list Z) (X : list item) m am PS : mapM (mapM (rd s)) m = Some (map snd X) -> mapM (mapM (rd X)) am = Some PS ->
  exists m', compose_maps m am = Some m' /\ mapM (mapM (rd s)) m' = Some (map (fun xs => concat (map snd xs)) PS).
Proof.
  intros Hm. assert (ZL : zlen m = zlen X) by (rewrite <- (zlen_map snd X); unfold zlen; now rewrite (mapM_length _ _ _ Hm)).
  assert (RM : forall i x, rd X i = Some x -> exists r, rd m i = Some r /\ mapM (rd s) r = Some (snd x)).
  { intros i x Hx. pose proof (rd_Some_bound _ _ _ Hx) as B. destruct (rd_in_bound m i ltac:(lia)) as (r & Er). exists r. split; [auto|]. destruct (mapM_rd _ _ _ i (snd x) Hm) as (r' & E1 & E2); [rewrite rd_map, Hx; reflexivity|]. congruence. }
  assert (ROW : forall row xs, mapM (rd X) row = Some xs -> exists rs, mapM (rd m) row = Some rs /\ mapM (rd s) (concat rs) = Some (concat (map snd xs))).
  { induction row as [|i row IH]; intros xs H; cbn [mapM] in *; [injection H as <-; exists []; auto|]. destruct (rd X i) as [x|] eqn:Ex; [|discriminate]. destruct (mapM (rd X) row) as [xs'|]; [|discriminate]. injection H as <-. destruct (RM i x Ex) as (r & -> & E2). destruct (IH xs' eq_refl) as (rs & -> & E3). exists (r :: rs). split; [auto|]. cbn. rewrite mapM_app, E2, E3. reflexivity. }
  revert PS. unfold compose_maps. induction am as [|row am IH]; intros PS H; cbn [mapM] in *; [injection H as <-; exists []; auto|]. destruct (mapM (rd X) row) as [xs|] eqn:Ex; [|discriminate]. destruct (mapM (mapM (rd X)) am) as [PS'|]; [|discriminate]. injection H as <-.
  destruct (ROW row xs Ex) as (rs & -> & E2). destruct (IH PS' eq_refl) as (m' & -> & E3). exists (concat rs :: m'). split; [auto|]. cbn [mapM map]. rewrite E2, E3. reflexivity.
Qed.

Section Clo.
Variable fs : list nfsa.
Notation N := (NS fs).
Variable K : Z -> bool.

(** SubsetRagged *)
Lemma subset_arcs_ok ord R (P : item -> bool) m : fair ord -> wf fs K R -> zlen m = zlen (fl fs R) ->
  let R' := fun o => filter P (R o) in
  subset_arcs ord (vec fs K R) m (map P (fl fs R)) = Some (vec fs K R', select (map P (fl fs R)) m) /\ wf fs K R' /\ fl fs R' = filter P (fl fs R).
Proof.
  intros HO WF HM R'. assert (FL : fl fs R' = filter P (fl fs R)) by (unfold fl, flatR; rewrite filter_concat, map_map; reflexivity). split; [|split].
  - unfold subset_arcs. rewrite new2old_kept by apply HO. cbn [vec r_ids2 r_rs2 r_arcs r_rs1 r_ids1]. rewrite <- (rows_concat fs K R WF) at 1. replace (zlen (splits_of (map R (L N K))) - 1) with (zlen (map R (L N K))) by (rewrite zlen_splits_of; lia). rewrite index_last_filter, n2o_values.
    rewrite mapM_kept0 by (rewrite map_length; unfold zlen in HM; lia). cbn [fst snd]. unfold vec. rewrite map_map, FL. reflexivity.
  - split; [intros o Ho; unfold R'; rewrite (proj1 WF o Ho); reflexivity|]. intros o x B Hx. unfold R' in Hx. apply filter_In in Hx as (Hx & _). now apply WF.
  - exact FL.
Qed.
Lemma select_maps s R P m : mapM (mapM (rd s)) m = Some (map snd (fl fs R)) -> mapM (mapM (rd s)) (select (map P (fl fs R)) m) = Some (map snd (filter P (fl fs R))).
Proof.
  intros H. rewrite (mapM_select _ _ _ _ H). f_equal. clear H. induction (fl fs R) as [|x l IH]; [reflexivity|]. cbn [map select filter]. destruct (P x); cbn [map]; now rewrite IH.
Qed.

Variable E : Z -> list item.
Hypothesis WE : wf fs K E.
Hypothesis LE : forall o x, 0 <= o < N -> In x (E o) -> ilab x = 0.

Definition Snd (R : Z -> list item) : Prop := forall o z, 0 <= o < N -> In z (R o) ->
  ilab z = 0 /\ exists p, p <> [] /\ ipath E o p (idst z) /\ psc p = isc z /\ pmap p = snd z.
Definition Cpl (n : nat) (R : Z -> list item) : Prop := forall o p t, 0 <= o < N -> ipath E o p t -> p <> [] -> (length p <= n)%nat -> exists z, In z (R o) /\ idst z = t /\ psc p <= isc z.
Definition Sorted (R : Z -> list item) : Prop := forall o, 0 <= o < N -> StronglySorted (fun x y => idst x < idst y) (R o).
Definition same (R R' : Z -> list item) : Prop := forall o z, 0 <= o < N -> In z (R' o) -> exists z', In z' (R o) /\ idst z' = idst z /\ isc z' = isc z.
Lemma E_range o p t : 0 <= o < N -> ipath E o p t -> 0 <= t < N.
Proof. intros B H. revert B. induction H; intros B; auto. apply IHipath. now apply (proj2 WE s x B). Qed.
Lemma Snd_E : Snd E.
Proof. intros o z B H. split; [eauto|]. exists [z]. split; [discriminate|]. split; [now apply ipath_one|]. split; [unfold psc; cbn; lia|unfold pmap; cbn; apply app_nil_r]. Qed.
Lemma Cpl_E : Cpl 1 E.
Proof. intros o p t B H NE L. destruct p as [|x [|y p]]; [congruence| |cbn in L; lia]. inversion H; subst. inversion H5; subst. exists x. split; [auto|]. split; [auto|]. unfold psc. cbn. lia. Qed.
Lemma Snd_step R R' : wf fs K R -> Snd R -> step fs R R' -> Snd R'.
Proof.
  intros WF HS ST o z B Hz. destruct (ST o B) as (H1 & _). destruct (H1 z Hz) as [H|(x & y & Hx & Hy & ->)]; [now apply HS|]. destruct (HS o x B Hx) as (_ & p & P1 & P2 & P3 & P4). destruct (proj2 WF o x B Hx) as (_ & B2 & _). destruct (HS (idst x) y B2 Hy) as (_ & q & Q1 & Q2 & Q3 & Q4).
  split; [reflexivity|]. exists (p ++ q). split; [destruct p; [congruence|discriminate]|]. split; [exact (ipath_app _ _ _ _ _ _ P2 Q2)|]. rewrite psc_app, pmap_app. split; [unfold comb, isc in *; cbn; lia|]. cbn. congruence.
Qed.
Lemma Cpl_step n R R' : (1 <= n)%nat -> wf fs K R -> Cpl n R -> step fs R R' -> Cpl (n + 1) R'.
Proof.
  intros Hn WF HC ST o p t B H NE L. destruct (ST o B) as (_ & H2 & _).
  assert (X : exists z, expanded R o z /\ idst z = t /\ psc p <= isc z).
  { destruct (Nat.le_gt_cases (length p) n) as [Lp|Lp]; [destruct (HC o p t B H NE Lp) as (z & Z1 & Z2); exists z; split; [now left|auto]|].
    destruct p as [|x q]; [congruence|]. cbn in L, Lp. destruct (ipath_inv _ _ _ _ _ H) as (H3 & H5). destruct (HC o [x] (idst x) B (ipath_one _ _ _ H3) ltac:(discriminate) ltac:(cbn; lia)) as (z1 & Z1 & Z2 & Z3). destruct (proj2 WF o z1 B Z1) as (_ & B1 & _).
    destruct (HC (idst x) q t ltac:(congruence) H5) as (z2 & Y1 & Y2 & Y3); [destruct q; [cbn in Lp; lia|discriminate]|lia|]. exists (comb z1 z2). split; [right; exists z1, z2; rewrite Z2; auto|]. split; [exact Y2|]. rewrite (psc_cons x []) in Z3. change (psc []) with 0 in Z3. change (isc (comb z1 z2)) with (isc z1 + isc z2). rewrite (psc_cons x). lia. }
  destruct X as (z & Z1 & Z2 & Z3). destruct (H2 z Z1) as (y & Y1 & Y2 & Y3). exists y. split; [auto|]. split; [congruence|lia].
Qed.
(** when an iteration changes nothing the closure is complete *)
Lemma Cpl_same R R' : wf fs K R -> Cpl 1 R -> step fs R R' -> same R R' -> forall n, Cpl n R'.
Proof.
  intros WF HC ST SM n. induction n as [|n IH]; intros o p t B H NE L; [destruct p; [congruence|cbn in L; lia]|]. destruct (ST o B) as (_ & H2 & _). destruct p as [|x q]; [congruence|]. destruct (ipath_inv _ _ _ _ _ H) as (H3 & H5). destruct (HC o [x] (idst x) B (ipath_one _ _ _ H3) ltac:(discriminate) ltac:(cbn; lia)) as (z1 & Z1 & Z2 & Z3).
  assert (X : exists z, expanded R o z /\ idst z = t /\ psc (x :: q) <= isc z).
  { destruct q as [|x2 q]; [inversion H5; subst; exists z1; split; [now left|auto]|]. destruct (proj2 WF o z1 B Z1) as (_ & B1 & _). destruct (IH (idst x) (x2 :: q) t ltac:(congruence) H5 ltac:(discriminate) ltac:(cbn in *; lia)) as (z2 & Y1 & Y2 & Y3). destruct (SM (idst x) z2 ltac:(congruence) Y1) as (z3 & W1 & W2 & W3).
    exists (comb z1 z3). split; [right; exists z1, z3; rewrite Z2; auto|]. split; [change (idst z3 = t); congruence|]. rewrite (psc_cons x []) in Z3. change (psc []) with 0 in Z3. change (isc (comb z1 z3)) with (isc z1 + isc z3). rewrite (psc_cons x). lia. }
  destruct X as (z & Z1' & Z2' & Z3'). destruct (H2 z Z1') as (y & Y1 & Y2 & Y3). exists y. split; [auto|]. split; [congruence|lia].
Qed.

(** equal arrays of arcs *)
Definition uniq (R : Z -> list item) : Prop := zlen fs <= 1 \/ forall o, 0 <= o < N -> NoDup (map idst (R o)).
Lemma Sorted_uniq R : Sorted R -> uniq R.
Proof.
  intros H. right. intros o B. specialize (H o B). induction H as [|x l H IH HF]; cbn; constructor; auto. intros I. apply in_map_iff in I as (y & E1 & E2). rewrite Forall_forall in HF. specialize (HF y E2). lia.
Qed.
Lemma enc_inj x y : 0 <= idst x < N -> 0 <= idst y < N -> K (idst x) = true -> K (idst y) = true -> isrc x = isrc y -> enc fs K x = enc fs K y -> idst x = idst y /\ isc x = isc y.
Proof. intros B1 B2 K1 K2 E1 E2. unfold enc in E2. injection E2 as _ E3 _ E5. rewrite E1 in E3. split; [|exact E5]. apply (nw_inj K); auto; lia. Qed.
Lemma same_arrays R R' : wf fs K R -> wf fs K R' -> step fs R R' -> uniq R -> map (enc fs K) (fl fs R) = map (enc fs K) (fl fs R') -> same R R'.
Proof.
  intros WF WF' ST [U|U] EQ o z B Hz; destruct (proj2 WF' o z B Hz) as (S1 & D1 & D2 & D3).
  - apply In_rd in Hz as (k & _ & Hz). pose proof (fl_rd fs K R' WF' o k z B Hz) as Hf. assert (HX : rd (map (enc fs K) (fl fs R)) (A R' o + k) = Some (enc fs K z)) by (rewrite EQ, rd_map, Hf; reflexivity). rewrite rd_map in HX. destruct (rd (fl fs R) (A R' o + k)) as [x|] eqn:Ex; [|discriminate]. injection HX as HX1 HX2 HX3 HX4.
    destruct (rd_fl fs K R WF _ _ Ex) as (k' & B' & KO & Hx & _ & _ & W1 & W2 & W3).
    assert (Z0 : forall q, 0 <= q < N -> so fs q = 0). { intros q Bq. destruct (fid_ok fs q Bq) as (i & f & F1 & _ & _ & -> & _). pose proof (rd_Some_bound _ _ _ F1). replace i with 0 by lia. reflexivity. }
    assert (KZ : K (isrc z) = true). { destruct (K o) eqn:KO'; [congruence|]. apply rd_In in Hz. rewrite (proj1 WF' o KO') in Hz. destruct Hz. }
    assert (ES : isrc x = isrc z). { apply (nw_inj K); auto; try lia. rewrite !Z0 in HX1 by lia. lia. }
    exists x. split; [rewrite <- S1, <- ES; eapply rd_In; eauto|]. split; [|auto]. apply (nw_inj K); auto; try lia. rewrite ES in HX2. lia.
  - assert (LEN : Forall2 Z.le (map (fun o => zlen (R o)) (zrange N)) (map (fun o => zlen (R' o)) (zrange N))).
    { assert (G : forall l, (forall q, In q l -> 0 <= q < N) -> Forall2 Z.le (map (fun o => zlen (R o)) l) (map (fun o => zlen (R' o)) l)); [|apply G; intros q; apply in_zrange].
      induction l as [|q l IH]; intros Hq; cbn; constructor; [|apply IH; intros; apply Hq; now right]. specialize (Hq q (or_introl eq_refl)). rewrite <- (zlen_map idst (R q)), <- (zlen_map idst (R' q)). unfold zlen. apply inj_le. apply NoDup_incl_length; [now apply U|]. intros t Ht. apply in_map_iff in Ht as (x & <- & Hx). destruct (ST q Hq) as (_ & H2 & _). destruct (H2 x (or_introl Hx)) as (y & Y1 & Y2 & _). rewrite <- Y2. now apply in_map. }
    assert (TOT : forall Q : Z -> list item, zsum (map (fun o => zlen (Q o)) (zrange N)) = zlen (fl fs Q)). { intros Q. unfold fl, flatR. rewrite <- (map_map Q zlen). apply zsum_zlen_concat. }
    apply zsum_le_eq in LEN. 2:{ rewrite !TOT. rewrite <- (zlen_map (enc fs K) (fl fs R)), EQ, zlen_map. lia. }
    assert (RW : map (fun o => map (enc fs K) (R o)) (zrange N) = map (fun o => map (enc fs K) (R' o)) (zrange N)).
    { apply rows_eq. - rewrite !map_map. erewrite map_ext; [|intros; apply zlen_map]. symmetry. erewrite map_ext; [|intros; apply zlen_map]. symmetry. exact LEN.
      - unfold fl, flatR in EQ. rewrite !concat_map, !map_map in EQ. exact EQ. }
    assert (RO : map (enc fs K) (R o) = map (enc fs K) (R' o)). { assert (X : rd (map (fun o => map (enc fs K) (R o)) (zrange N)) o = rd (map (fun o => map (enc fs K) (R' o)) (zrange N)) o) by now rewrite RW. rewrite !rd_map, rd_zrange in X by auto. now injection X. }
    assert (IZ : In (enc fs K z) (map (enc fs K) (R o))) by (rewrite RO; now apply in_map). apply in_map_iff in IZ as (x & E1 & Hx). destruct (proj2 WF o x B Hx) as (S2 & C1 & C2 & C3). destruct (enc_inj x z C1 D1 C2 D2 ltac:(congruence) E1) as (F1 & F2). eauto.
Qed.

(** ** The loop *)
Definition clo (R : Z -> list item) : Prop := wf fs K R /\ Snd R /\ (forall n, Cpl n R) /\ (forall o p, 0 <= o < N -> ipath E o p o -> psc p <= 0).
Lemma Cpl_1 n R : (1 <= n)%nat -> Cpl n R -> Cpl 1 R.
Proof. intros Hn H o p t B HP NE L. apply H; auto. lia. Qed.
Lemma closure_end R R' : wf fs K R -> wf fs K R' -> Snd R' -> Cpl 1 R -> step fs R R' -> uniq R -> (forall x, In x (fl fs R) -> isrc x = idst x -> isc x <= 0) -> arcs_eqb (map (enc fs K) (fl fs R)) (map (enc fs K) (fl fs R')) = true -> clo R'.
Proof.
  intros WF WF' HS HC ST U CK EQ. apply arcs_eqb_ok in EQ. pose proof (same_arrays R R' WF WF' ST U EQ) as SM. pose proof (Cpl_same R R' WF HC ST SM) as CA. split; [auto|]. split; [auto|]. split; [auto|].
  intros o p B HP. destruct p as [|x p]; [cbn; lia|]. destruct (CA (length (x :: p)) o (x :: p) o B HP ltac:(discriminate) ltac:(lia)) as (z & Z1 & Z2 & Z3). destruct (SM o z B Z1) as (y & Y1 & Y2 & Y3). destruct (proj2 WF o y B Y1) as (S1 & _). assert (isc y <= 0); [|lia]. apply CK; [|congruence]. apply (in_flat N). eauto.
Qed.
Variable ord : Z -> list Z.
Hypothesis HO : fair ord.
Variable s : list Z.
Lemma loop_sound fuel : forall R R' m v mo, wf fs K R -> wf fs K R' -> Snd R' -> Cpl 1 R -> Cpl 1 R' -> step fs R R' -> uniq R -> (forall x, In x (fl fs R) -> isrc x = idst x -> isc x <= 0) ->
  mapM (mapM (rd s)) m = Some (map snd (fl fs R')) ->
  closure_loop ord fuel (map (enc fs K) (fl fs R)) (vec fs K R') m = Some (v, mo) -> exists C, v = vec fs K C /\ clo C /\ mapM (mapM (rd s)) mo = Some (map snd (fl fs C)).
Proof.
  induction fuel as [|fuel IH]; intros R R' m v mo WF WF' HS HC HC' ST U CK HM; cbn [closure_loop]; change (r_arcs (vec fs K R')) with (map (enc fs K) (fl fs R')); destruct (arcs_eqb _ _) eqn:EQ; intros EL; try discriminate.
  - injection EL as <- <-. exists R'. split; [auto|]. split; [|auto]. apply (closure_end R R'); auto.
  - injection EL as <- <-. exists R'. split; [auto|]. split; [|auto]. apply (closure_end R R'); auto.
  - destruct (one_iter ord (vec fs K R')) as [r|] eqn:E1; [|discriminate]. pose proof (one_iter_check fs K R' ord r E1) as CK'. destruct (one_iter_ok fs K R' WF' ord HO CK') as (R2 & am & E2 & WF2 & ST2 & PS & P1 & P2). rewrite E1 in E2. injection E2 as ->. cbn [fst snd] in EL. destruct (compose_ok s (fl fs R') m am PS HM P1) as (m' & C1 & C2). rewrite C1 in EL.
    apply (IH R' R2 m' v mo); auto.
    + apply (Snd_step R' R2); auto.
    + apply (Cpl_1 2); [lia|]. apply (Cpl_step 1 R'); auto.
    + apply Sorted_uniq. intros o B. now apply ST.
    + rewrite P2. exact C2.
Qed.
(** ** Termination *)
Hypothesis NPC : forall o p, 0 <= o < N -> ipath E o p o -> psc p <= 0.
Lemma cut n : forall o p t, (length p <= n)%nat -> 0 <= o < N -> ipath E o p t -> p <> [] -> exists p', p' <> [] /\ ipath E o p' t /\ (length p' <= Z.to_nat N)%nat /\ psc p <= psc p'.
Proof.
  induction n as [|n IH]; intros o p t HL B H NE; [destruct p; [congruence|cbn in HL; lia]|]. destruct (Nat.le_gt_cases (length p) (Z.to_nat N)) as [G|G]; [exists p; split; [auto|]; split; [auto|]; split; [auto|lia]|].
  assert (RG : forall o p t, 0 <= o < N -> ipath E o p t -> forall x, In x (map idst p) -> 0 <= x < N).
  { clear -WE. intros o p t B H. revert B. induction H as [o0|o0 x p t HI HP IH]; intros B y Hy; [destruct Hy|]. destruct (proj2 WE o0 x B HI) as (_ & B2 & _). destruct Hy as [<-|Hy]; auto. }
  assert (ND : ~ NoDup (map idst p)). { intros ND. pose proof (NoDup_incl_length ND (l' := zrange N)) as X. rewrite map_length, zrange_length in X. specialize (X ltac:(intros x Hx; apply in_zrange; eapply RG; eauto)). lia. }
  apply dup_split in ND as (l1 & x & l2 & l3 & EQ). apply map_eq_app in EQ as (p1 & r1 & -> & <- & EQ). apply map_eq_cons in EQ as (a & r2 & -> & Ea & EQ). apply map_eq_app in EQ as (p2 & r3 & -> & <- & EQ). apply map_eq_cons in EQ as (b & p3 & -> & Eb & <-).
  destruct (ipath_split _ _ _ _ _ H) as (u & H1 & H2). destruct (ipath_inv _ _ _ _ _ H2) as (H4 & H6). destruct (ipath_split _ _ _ _ _ H6) as (w & H7 & H8). destruct (ipath_inv _ _ _ _ _ H8) as (H9 & H10). subst x.
  assert (HC : ipath E (idst a) (p2 ++ [b]) (idst a)). { eapply ipath_app; [exact H7|]. rewrite <- Eb. now apply ipath_one. }
  assert (Ba : 0 <= idst a < N). { eapply RG; [exact B|exact H|]. rewrite map_app. apply in_or_app. right. now left. }
  pose proof (NPC _ _ Ba HC) as SC. assert (HN : ipath E o (p1 ++ a :: p3) t). { eapply ipath_app; [exact H1|]. econstructor; [exact H4|]. now rewrite <- Eb. }
  destruct (IH o (p1 ++ a :: p3) t) as (p' & Q1 & Q2 & Q3 & Q4); auto.
  - rewrite !app_length in *. cbn in *. rewrite app_length in HL. cbn in HL. lia.
  - destruct p1; discriminate.
  - exists p'. split; [auto|]. split; [auto|]. split; [auto|]. repeat (rewrite ?psc_app, ?psc_cons in * ). change (psc []) with 0 in SC. lia.
Qed.
Lemma stable R R' : wf fs K R -> wf fs K R' -> Snd R -> Snd R' -> Sorted R -> Sorted R' -> Cpl (Z.to_nat N) R -> Cpl (Z.to_nat N) R' -> map (enc fs K) (fl fs R) = map (enc fs K) (fl fs R').
Proof.
  intros WF WF' S1 S2 T1 T2 C1 C2. unfold fl, flatR. rewrite !concat_map, !map_map. f_equal. apply map_ext_in. intros o B. apply in_zrange in B.
  assert (G : forall Q Q', wf fs K Q -> wf fs K Q' -> Snd Q -> Snd Q' -> Sorted Q -> Sorted Q' -> Cpl (Z.to_nat N) Q -> Cpl (Z.to_nat N) Q' -> forall z, In z (Q o) -> exists z', In z' (Q' o) /\ idst z' = idst z /\ enc fs K z' = enc fs K z).
  { clear R R' WF WF' S1 S2 T1 T2 C1 C2. intros Q Q' WF WF' S1 S2 T1 T2 C1 C2 z Hz.
    assert (D : forall Q1 Q2, Snd Q1 -> Cpl (Z.to_nat N) Q2 -> forall x, In x (Q1 o) -> exists y, In y (Q2 o) /\ idst y = idst x /\ isc x <= isc y).
    { intros Q1 Q2 HS HC x Hx. destruct (HS o x B Hx) as (_ & p & P1 & P2 & P3 & _). destruct (cut _ o p _ (le_n _) B P2 P1) as (p' & X1 & X2 & X3 & X4). destruct (HC o p' _ B X2 X1 X3) as (y & Y1 & Y2 & Y3). exists y. split; [auto|]. split; [auto|lia]. }
    destruct (D Q Q' S1 C2 z Hz) as (y & Y1 & Y2 & Y3). destruct (D Q' Q S2 C1 y Y1) as (z2 & Z1 & Z2 & Z3).
    assert (z2 = z). { specialize (T1 o B). clear -T1 Hz Z1 Z2 Y2. revert Hz Z1. induction T1 as [|x l T IH HF]; intros Hz Z1; [destruct Hz|]. rewrite Forall_forall in HF. destruct Hz as [->|Hz], Z1 as [->|Z1]; auto; [specialize (HF _ Z1)|specialize (HF _ Hz)]; lia. } subst z2.
    exists y. split; [auto|]. split; [auto|]. destruct (proj2 WF o z B Hz) as (A1 & _). destruct (proj2 WF' o y B Y1) as (A2 & _). destruct (S1 o z B Hz) as (L1 & _). destruct (S2 o y B Y1) as (L2 & _). unfold enc. rewrite A1, A2, Y2, L1, L2. f_equal. lia. }
  apply (sorted_same idst); [now apply T1|now apply T2| |]; intros z Hz; [apply (G R R')|apply (G R' R)]; auto.
Qed.
Lemma no_self R : wf fs K R -> Snd R -> forall x, In x (fl fs R) -> isrc x = idst x -> isc x <= 0.
Proof. intros WF HS x Hx Ex. destruct (in_fl fs K R WF x Hx) as (B & _ & I & _). destruct (HS _ _ B I) as (_ & p & _ & P & <- & _). apply (NPC (isrc x)); auto. now rewrite Ex at 2. Qed.
Lemma loop_total fuel : forall n R R' m, wf fs K R -> wf fs K R' -> Snd R -> Snd R' -> step fs R R' -> Cpl n R -> (1 <= n)%nat -> (n = 1%nat \/ Sorted R) -> N + 1 <= Z.of_nat fuel + Z.of_nat n ->
  mapM (mapM (rd s)) m = Some (map snd (fl fs R')) ->
  exists r, closure_loop ord fuel (map (enc fs K) (fl fs R)) (vec fs K R') m = Some r.
Proof.
  induction fuel as [|fuel IH]; intros n R R' m WF WF' HS HS' ST HC Hn HT HF HM; cbn [closure_loop]; change (r_arcs (vec fs K R')) with (map (enc fs K) (fl fs R')).
  - assert (EQ : map (enc fs K) (fl fs R) = map (enc fs K) (fl fs R')).
    { destruct (Z.eq_dec N 0) as [E0|E0]. { unfold fl, flatR. rewrite E0. reflexivity. }
      pose proof (HNS fs). apply stable; auto.
      - destruct HT as [->|HT]; [cbn in HF; lia|auto].
      - intros o B. now apply ST.
      - intros o p t B HP NE L. apply HC; auto. lia.
      - intros o p t B HP NE L. apply (Cpl_step n R R'); auto. lia. }
    rewrite (proj2 (arcs_eqb_ok _ _) EQ). eauto.
  - destruct (arcs_eqb _ _); [eauto|]. destruct (one_iter_ok fs K R' WF' ord HO (no_self R' WF' HS')) as (R2 & am & E2 & WF2 & ST2 & PS & P1 & P2). rewrite E2. cbn [fst snd]. destruct (compose_ok s (fl fs R') m am PS HM P1) as (m' & C1 & C2). rewrite C1.
    apply (IH (n + 1)%nat R' R2); auto.
    + apply (Snd_step R' R2); auto.
    + apply (Cpl_step n R R'); auto.
    + lia.
    + right. intros o B. now apply ST.
    + lia.
    + rewrite P2. exact C2.
Qed.
End Clo.

(** ** ComputeEpsilonClosure *)
Section Final.
Variable fs : list nfsa.
Notation N := (NS fs).
Variables (K : Z -> bool) (E : Z -> list item).
Hypothesis WE : wf fs K E.
Hypothesis LE : forall o x, 0 <= o < N -> In x (E o) -> ilab x = 0.
Variable ord : Z -> list Z.
Hypothesis HO : fair ord.
Variable s : list Z.
(** the arc map of [E] *)
Hypothesis HE : mapM (fun j => r <- rd s j;; Some [r]) (zrange (zlen (fl fs E))) = Some (map snd (fl fs E)).

Definition nonself (x : item) : bool := negb (isrc x =? idst x).
(** the closure without the arcs from a state to itself *)
Definition closed (C : Z -> list item) : Prop :=
  wf fs K C /\
  (forall o z, 0 <= o < N -> In z (C o) -> ilab z = 0 /\ exists p, p <> [] /\ ipath E o p (idst z) /\ psc p = isc z /\ pmap p = snd z) /\
  (forall o p t, 0 <= o < N -> ipath E o p t -> o <> t -> exists z, In z (C o) /\ idst z = t /\ psc p <= isc z) /\
  (forall o p, 0 <= o < N -> ipath E o p o -> psc p <= 0).
Lemma s_rd j x : rd (fl fs E) j = Some x -> exists r, rd s j = Some r /\ snd x = [r].
Proof.
  intros H. pose proof (rd_Some_bound _ _ _ H) as B. destruct (mapM_rd _ _ _ j (snd x) HE) as (i & E1 & E2); [rewrite rd_map, H; reflexivity|]. rewrite rd_zrange in E1 by auto. injection E1 as <-. destruct (rd s j) as [r|]; [|discriminate]. injection E2 as <-. eauto.
Qed.
Lemma first_maps am PS : mapM (mapM (rd (fl fs E))) am = Some PS -> mapM (mapM (rd s)) am = Some (map (fun xs => concat (map snd xs)) PS).
Proof.
  assert (ROW : forall row xs, mapM (rd (fl fs E)) row = Some xs -> mapM (rd s) row = Some (concat (map snd xs))).
  { induction row as [|i row IH]; intros xs H; cbn [mapM] in *; [injection H as <-; reflexivity|]. destruct (rd (fl fs E) i) as [x|] eqn:Ex; [|discriminate]. destruct (mapM (rd (fl fs E)) row) as [xs'|]; [|discriminate]. injection H as <-. destruct (s_rd i x Ex) as (r & -> & E2). rewrite (IH xs' eq_refl). cbn. now rewrite E2. }
  revert PS. induction am as [|row am IH]; intros PS H; cbn [mapM] in *; [injection H as <-; reflexivity|]. destruct (mapM (rd (fl fs E)) row) as [xs|] eqn:Ex; [|discriminate]. destruct (mapM (mapM (rd (fl fs E))) am) as [PS'|]; [|discriminate]. injection H as <-. rewrite (ROW row xs Ex), (IH PS' eq_refl). reflexivity.
Qed.
Lemma close R m : clo fs K E R -> mapM (mapM (rd s)) m = Some (map snd (fl fs R)) -> exists C m', subset_arcs ord (vec fs K R) m (map (fun a => negb (src a =? dst a)) (r_arcs (vec fs K R))) = Some (vec fs K C, m') /\ closed C /\ mapM (mapM (rd s)) m' = Some (map snd (fl fs C)).
Proof.
  intros (WF & HS & HC & HN) HM. assert (EK : map (fun a => negb (src a =? dst a)) (r_arcs (vec fs K R)) = map nonself (fl fs R)).
  { cbn [vec r_arcs]. rewrite map_map. apply map_ext_in. intros x Hx. destruct (in_fl fs K R WF x Hx) as (B & KO & I & W1 & W2 & W3). unfold nonself. f_equal. cbn. destruct (isrc x =? idst x) eqn:Eq; [assert (Q : isrc x = idst x) by lia; rewrite Q; lia|]. destruct (nw K (isrc x) - nw K (so fs (isrc x)) =? nw K (idst x) - nw K (so fs (isrc x))) eqn:Q; auto. exfalso. assert (X : nw K (isrc x) = nw K (idst x)) by lia. apply nw_inj in X; auto; lia. }
  rewrite EK. destruct (subset_arcs_ok fs K ord R nonself m HO WF) as (E1 & W & F).
  { rewrite <- (zlen_map snd (fl fs R)). unfold zlen. now rewrite (mapM_length _ _ _ HM). }
  eexists; eexists. split; [exact E1|]. split.
  - split; [exact W|]. split; [|split; [|exact HN]].
    + intros o z B Hz. apply filter_In in Hz as (Hz & _). now apply HS.
    + intros o p t B HP NEQ. assert (NE : p <> []) by (intros ->; inversion HP; subst; congruence). destruct (HC (length p) o p t B HP NE (le_n _)) as (z & Z1 & Z2 & Z3). exists z. split; [|auto]. apply filter_In. split; [auto|]. unfold nonself. destruct (proj2 WF o z B Z1) as (S1 & _). lia.
  - rewrite F. now apply select_maps.
Qed.
Theorem eps_closure_sound fuel v m : uniq fs E -> eps_closure ord fuel (vec fs K E) = Some (v, m) -> exists C, v = vec fs K C /\ closed C /\ mapM (mapM (rd s)) m = Some (map snd (fl fs C)).
Proof.
  intros U EQ. unfold eps_closure in EQ. destruct (one_iter ord (vec fs K E)) as [r|] eqn:E1; [|discriminate]. pose proof (one_iter_check fs K E ord r E1) as CK. destruct (one_iter_ok fs K E WE ord HO CK) as (R' & am & E2 & WF' & ST & PS & P1 & P2). rewrite E1 in E2. injection E2 as ->. cbn [fst snd] in EQ. change (r_arcs (vec fs K E)) with (map (enc fs K) (fl fs E)) in EQ.
  destruct (closure_loop ord fuel (map (enc fs K) (fl fs E)) (vec fs K R') am) as [(v', m')|] eqn:EL; [|discriminate]. cbn [fst snd] in EQ.
  destruct (loop_sound fs K E LE ord HO s fuel E R' am v' m') as (C & -> & HC & HM); auto.
  - apply (Snd_step fs K E LE E R'); auto. now apply Snd_E.
  - now apply Cpl_E.
  - apply (Cpl_1 fs E LE 2); [lia|]. apply (Cpl_step fs K E LE 1 E); auto. now apply Cpl_E.
  - rewrite P2. now apply first_maps.
  - destruct (close C m' HC HM) as (C' & m2 & E3 & H3 & H4). rewrite EQ in E3. injection E3 as -> ->. eauto.
Qed.
Theorem eps_closure_total fuel : uniq fs E -> (forall o p, 0 <= o < N -> ipath E o p o -> psc p <= 0) -> N <= Z.of_nat fuel -> exists v m, eps_closure ord fuel (vec fs K E) = Some (v, m).
Proof.
  intros U NPC HF. unfold eps_closure. destruct (one_iter_ok fs K E WE ord HO) as (R' & am & E2 & WF' & ST & PS & P1 & P2). { apply (no_self fs K E NPC E); auto. now apply Snd_E. }
  rewrite E2. cbn [fst snd]. change (r_arcs (vec fs K E)) with (map (enc fs K) (fl fs E)).
  assert (SR : Snd fs E R') by (apply (Snd_step fs K E LE E R'); auto; now apply Snd_E).
  assert (HM : mapM (mapM (rd s)) am = Some (map snd (fl fs R'))) by (rewrite P2; now apply first_maps).
  destruct (loop_total fs K E WE LE ord HO s NPC fuel 1 E R' am) as ((v & m) & EL); auto; try lia.
  - now apply Snd_E.
  - now apply Cpl_E.
  - rewrite EL. cbn [fst snd]. destruct (loop_sound fs K E LE ord HO s fuel E R' am v m) as (C & -> & HC & HM2); auto.
    + now apply Cpl_E.
    + apply (Cpl_1 fs E LE 2); [lia|]. apply (Cpl_step fs K E LE 1 E); auto. now apply Cpl_E.
    + apply (no_self fs K E NPC E); auto. now apply Snd_E.
    + destruct (close C m HC HM2) as (C' & m2 & E3 & _). eauto.
Qed.
End Final.
