(** * Determinization: the subsets *)
From Coq Require Import ZArith List Lia Bool Permutation.
From Verif Require Import Base RaggedModel RaggedSpec RaggedProofs FsaSpec FsaLemmas OpsModel ScoreSpec ScorePaths ShortestSpec IntersectPaths DetModel DetSpec.
Import ListNotations.
Open Scope Z_scope.

Section Det.
Variable f : nfsa.
Hypothesis HV : valid f.
Notation A := (all_arcs f).
Notation lb p := (labels (arcs_at f p)).
Notation scp p := (score (arcs_at f p)).

(** ** Paths *)
Lemma arcs_at_app (g : nfsa) p q : arcs_at g (p ++ q) = arcs_at g p ++ arcs_at g q.
Proof. unfold arcs_at. apply flat_map_app. Qed.
Lemma lb_app p q : lb (p ++ q) = lb p ++ lb q.
Proof. rewrite arcs_at_app. apply map_app. Qed.
Lemma scp_app p q : scp (p ++ q) = scp p + scp q.
Proof. rewrite arcs_at_app. unfold score. now rewrite map_app, zsum_app. Qed.
Lemma arcs_at_one j a : rd A j = Some a -> arcs_at f [j] = [a].
Proof. intros H. now rewrite (arcs_at_cons f j [] a H). Qed.
Lemma apath_one j a : rd A j = Some a -> apath f (src a) [j] (dst a).
Proof. intros H. apply (ap_cons f j a [] (dst a) H). apply ap_nil. Qed.
Lemma apath_nil s t : apath f s [] t -> s = t.
Proof. inversion 1. reflexivity. Qed.
Lemma apath_snoc s p j t : apath f s (p ++ [j]) t -> exists a, rd A j = Some a /\ apath f s p (src a) /\ dst a = t.
Proof. intros H. apply apath_app in H as (u & H1 & H2). inversion H2 as [|? a ? ? Ha Hp]; subst. exists a. apply apath_nil in Hp. auto. Qed.
Lemma lb_len s p t : apath f s p t -> length (lb p) = length p.
Proof. induction 1 as [s|j a p t Ha Hp IH]; [reflexivity|]. rewrite (arcs_at_cons f j p a Ha). cbn. now f_equal. Qed.
Lemma lb_snoc s p t u l : apath f s p t -> lb p = u ++ [l] -> exists p1 j a, p = p1 ++ [j] /\ rd A j = Some a /\ apath f s p1 (src a) /\ dst a = t /\ lb p1 = u /\ lab a = l.
Proof.
  intros H E. destruct (exists_last (l := p)) as (p1 & j & ->). { intros ->. apply lb_len in H. rewrite E, app_length in H. cbn in H. lia. }
  destruct (apath_snoc s p1 j t H) as (a & Ha & H1 & H2). exists p1, j, a. rewrite lb_app, (arcs_at_one j a Ha) in E. cbn in E. apply app_inj_tail in E as (E1 & E2). repeat split; auto.
Qed.
Lemma lb_nil s p t : apath f s p t -> lb p = [] -> p = [] /\ s = t.
Proof. intros H E. assert (p = []) by (apply lb_len in H; rewrite E in H; destruct p; [reflexivity|discriminate]). subst. split; [reflexivity|now apply apath_nil]. Qed.
(** cut a path where its labels are cut *)
Lemma apath_cut s p t u w : apath f s p t -> lb p = u ++ w -> exists p1 p2 m, p = p1 ++ p2 /\ apath f s p1 m /\ apath f m p2 t /\ lb p1 = u /\ lb p2 = w.
Proof.
  intros H E. exists (firstn (length u) p), (skipn (length u) p). pose proof H as H0. rewrite <- (firstn_skipn (length u) p) in H. apply apath_app in H as (m & H1 & H2). exists m. split; [symmetry; apply firstn_skipn|]. split; [exact H1|]. split; [exact H2|].
  pose proof (lb_len _ _ _ H1) as L1. rewrite <- (firstn_skipn (length u) p), lb_app in E. apply lb_len in H0. rewrite <- (firstn_skipn (length u) p), lb_app in H0. 
  assert (L : length (lb (firstn (length u) p)) = length u).
  { rewrite L1, firstn_length. pose proof (f_equal (@length Z) E) as EL. rewrite H0 in EL. rewrite firstn_skipn, app_length in EL. lia. }
  apply (f_equal (firstn (length u))) in E as E1. rewrite <- L in E1 at 1. rewrite !firstn_app, L, !firstn_all, Nat.sub_diag in E1. cbn in E1. rewrite <- L in E1 at 1. rewrite firstn_all, !app_nil_r in E1. split; [exact E1|]. rewrite E1 in E. now apply app_inv_head in E.
Qed.

Lemma state0 : 0 <= 0 < nstates f. Proof. destruct HV as (_ & H & _). lia. Qed.
Lemma apath_range s p t : 0 <= s < nstates f -> apath f s p t -> 0 <= t < nstates f.
Proof. intros Hs H. revert Hs. induction H as [s|j a p t Ha Hp IH]; [auto|]. intros _. apply IH. destruct HV as (_ & _ & V). apply (V a (rd_In _ _ _ Ha)). Qed.

(** ** Traceback states *)
Fixpoint tpath (t : tb) : list Z := match t with Tb0 => [] | Tb _ a p _ => tpath p ++ [a] end.
Inductive tbk : list Z -> tb -> Prop :=
| tbk0 : tbk [] Tb0
| tbkS u p j a : tbk u p -> rd A j = Some a -> src a = t_state p -> tbk (u ++ [lab a]) (Tb (dst a) j p (t_fp p + sc a)).
Lemma tbk_path u t : tbk u t -> apath f 0 (tpath t) (t_state t) /\ lb (tpath t) = u /\ t_fp t = scp (tpath t).
Proof.
  induction 1 as [|u p j a H IH Ha Hs]; [repeat split; apply ap_nil|]. destruct IH as (I1 & I2 & I3). cbn [tpath t_state t_fp]. split; [|split].
  - apply apath_app. exists (t_state p). split; [exact I1|]. rewrite <- Hs. now apply apath_one.
  - rewrite lb_app, (arcs_at_one j a Ha), I2. reflexivity.
  - rewrite scp_app, (arcs_at_one j a Ha), I3. unfold score. cbn. lia.
Qed.
Lemma tbk_depth u t : tbk u t -> t_depth t = length u.
Proof. induction 1 as [|u p j a H IH Ha Hs]; [reflexivity|]. cbn. rewrite app_length, IH. cbn. lia. Qed.
Lemma tbk_state u t : tbk u t -> 0 <= t_state t < nstates f.
Proof. intros H. destruct (tbk_path u t H) as (P & _). exact (apath_range _ _ _ state0 P). Qed.

Fixpoint anc (n : nat) (t : tb) : option tb :=
  match n with O => Some t | S n' => match t with Tb0 => None | Tb _ _ p _ => anc n' p end end.
Lemma anc_ok n : forall u t B, tbk u t -> anc n t = Some B -> exists u0 w r, u = u0 ++ w /\ length w = n /\ tbk u0 B /\
  tpath t = tpath B ++ r /\ apath f (t_state B) r (t_state t) /\ lb r = w /\ t_fp t = t_fp B + scp r.
Proof.
  induction n as [|n IH]; intros u t B H E.
  - cbn in E. injection E as <-. exists u, [], []. rewrite !app_nil_r. repeat split; auto; [apply ap_nil|]. unfold score. cbn. lia.
  - destruct H as [|u p j a H Ha Hs]; [discriminate|]. cbn in E. destruct (IH u p B H E) as (u0 & w & r & -> & L & HB & T & P & LW & F). exists u0, (w ++ [lab a]), (r ++ [j]).
    split; [now rewrite app_assoc|]. split; [rewrite app_length; cbn; lia|]. split; [exact HB|]. cbn [tpath t_state t_fp]. split; [now rewrite T, app_assoc|].
    split; [apply apath_app; exists (t_state p); split; [exact P|rewrite <- Hs; now apply apath_one]|]. split; [now rewrite lb_app, LW, (arcs_at_one j a Ha)|].
    rewrite F, scp_app, (arcs_at_one j a Ha). unfold score at 2. cbn. unfold score. lia.
Qed.
Lemma anc_add n m t B C : anc n t = Some B -> anc (n + m) t = Some C -> anc m B = Some C.
Proof. revert t. induction n as [|n IH]; intros t H1 H2; cbn in *; [now injection H1 as <-|]. destruct t; [discriminate|]. eauto. Qed.
Lemma anc_comp n m t B C : anc n t = Some B -> anc m B = Some C -> anc (n + m) t = Some C.
Proof. revert t. induction n as [|n IH]; intros t H1 H2; cbn in *; [now injection H1 as <-|]. destruct t; [discriminate|]. eauto. Qed.

Lemma ancestor_ok fuel : forall u cur, cur <> [] -> (forall t, In t cur -> tbk u t) -> (length u < fuel)%nat ->
  exists B n, common_ancestor fuel cur = Some (B, Z.of_nat n) /\ (forall t, In t cur -> anc n t = Some B) /\
  (forall m C, (forall t, In t cur -> anc m t = Some C) -> (n <= m)%nat).
Proof.
  induction fuel as [|fuel IH]; intros u cur NE HC HL; [lia|]. cbn [common_ancestor].
  assert (IN : forall t, In t (nodup tb_dec cur) <-> In t cur) by (intros t; apply nodup_In). pose proof (NoDup_nodup tb_dec cur) as ND.
  destruct (nodup tb_dec cur) as [|t1 [|t2 rest]].
  - exfalso. destruct cur as [|t cur]; [congruence|]. apply (IN t). now left.
  - exists t1, O. split; [reflexivity|]. split; [|intros; lia]. intros t Ht. apply IN in Ht as [->|[]]. reflexivity.
  - set (cur' := t1 :: t2 :: rest) in *. assert (N12 : t1 <> t2) by (intros ->; inversion ND as [|? ? X _]; apply X; now left).
    assert (H1 : tbk u t1) by (apply HC, IN; now left). assert (H2 : tbk u t2) by (apply HC, IN; right; now left).
    destruct (exists_last (l := u)) as (u' & l & ->). { intros ->. inversion H1; [|now destruct u]. inversion H2; [congruence|now destruct u]. }
    assert (HP : forall t, In t cur' -> exists p, t_prev t = Some p /\ tbk u' p).
    { intros t Ht. apply IN, HC in Ht. inversion Ht as [E|u0 p j a Hp Ha Hs E]; [now destruct u'|]. subst. apply app_inj_tail in E as (-> & _). exists p. auto. }
    assert (M : exists ps, mapM t_prev cur' = Some ps /\ (forall p, In p ps <-> exists t, In t cur' /\ t_prev t = Some p)).
    { clear - HP. induction cur' as [|t c IHc]; [exists []; split; [reflexivity|]; intros p; split; [intros []|intros (t & [] & _)]|].
      destruct IHc as (ps & P1 & P2). { intros x Hx. apply HP. now right. } destruct (HP t (or_introl eq_refl)) as (p & Ep & _). exists (p :: ps). cbn [mapM]. rewrite Ep, P1. split; [reflexivity|].
      intros q. split.
      - intros [<-|Hq]; [exists t; split; [now left|exact Ep]|]. apply P2 in Hq as (x & X1 & X2). exists x. split; [now right|exact X2].
      - intros (x & [<-|X1] & X2); [left; congruence|]. right. apply P2. eauto. }
    destruct M as (ps & M1 & M2). rewrite M1. 
    destruct (IH u' ps) as (B & n & R1 & R2 & R3).
    { intros ->. destruct (HP t1 (or_introl eq_refl)) as (p & Ep & _). apply (M2 p). exists t1. split; [now left|exact Ep]. }
    { intros p Hp. apply M2 in Hp as (t & Ht & Ep). destruct (HP t Ht) as (p' & Ep' & Hp'). congruence. }
    { rewrite app_length in HL. cbn in HL. lia. }
    exists B, (S n). rewrite R1. cbn [fst snd]. split; [do 2 f_equal; lia|]. split.
    + intros t Ht. apply IN in Ht. destruct (HP t Ht) as (p & Ep & _). destruct t; [discriminate|]. cbn in Ep. injection Ep as <-. cbn. apply R2, M2. exists (Tb s a t fp). auto.
    + intros m C Hm. destruct m as [|m].
      * exfalso. apply N12. assert (E1 : anc 0 t1 = Some C) by (apply Hm, IN; now left). assert (E2 : anc 0 t2 = Some C) by (apply Hm, IN; right; now left). cbn in *. congruence.
      * cut (n <= m)%nat; [lia|]. apply (R3 m C). intros p Hp. apply M2 in Hp as (t & Ht & Ep). apply IN, Hm in Ht. destruct t; [discriminate|]. cbn in *. congruence.
Qed.

Lemma trace_back_ok n : forall t C acc, anc n t = Some C -> exists r, trace_back n t acc = Some (r ++ acc, C) /\ tpath t = tpath C ++ r.
Proof.
  induction n as [|n IH]; intros t C acc E; cbn in *.
  - injection E as ->. exists []. now rewrite app_nil_r.
  - destruct t as [|s a p fp]; [discriminate|]. destruct (IH p C (a :: acc) E) as (r & R1 & R2). exists (r ++ [a]). rewrite R1, <- app_assoc. split; [reflexivity|]. cbn. now rewrite R2, app_assoc.
Qed.

(** ** Subsets *)
Definition els_ok (u : list Z) (els : elements) : Prop :=
  NoDup (map fst els) /\ els <> [] /\ (forall s t, In (s, t) els -> t_state t = s /\ tbk u t) /\
  (forall p s, apath f 0 p s -> lb p = u -> exists t, In (s, t) els /\ scp p <= t_fp t).

Lemma els_ok_perm u els els' : Permutation els els' -> els_ok u els -> els_ok u els'.
Proof.
  intros HP (H1 & H2 & H3 & H4). split; [eapply Permutation_NoDup; [apply Permutation_map, HP|exact H1]|]. split; [intros ->; apply Permutation_sym, Permutation_nil in HP; congruence|].
  split; [intros s t Ht; apply H3; eapply Permutation_in; [apply Permutation_sym, HP|exact Ht]|]. intros p s P1 P2. destruct (H4 p s P1 P2) as (t & Ht & L). exists t. split; [eapply Permutation_in; eauto|exact L].
Qed.

(** the arcs that are accepted: source, position and arc *)
Definition ev := (tb * Z * arc)%type.
Definition ev_tb (e : ev) : tb := let '(t, j, a) := e in Tb (dst a) j t (t_fp t + sc a).
Definition take (m : list (Z * elements)) (e : ev) : list (Z * elements) :=
  let '(t, j, a) := e in accept_label m (lab a) (dst a) t j (sc a).
Definition row_evs (t : tb) : list ev :=
  match rd f (t_state t) with Some r => imap (fun i a => (t, off1 f (t_state t) + i, a)) 0 r | None => [] end.

Lemma row_evs_in t t' j a : In (t', j, a) (row_evs t) <-> t' = t /\ rd A j = Some a /\ src a = t_state t.
Proof.
  unfold row_evs. destruct HV as (SO & _ & _). split.
  - destruct (rd f (t_state t)) as [r|] eqn:Er; [|intros []]. intros H. apply In_rd in H as (i & _ & Hi). rewrite rd_imap in Hi. destruct (rd r i) as [x|] eqn:Ex; [|discriminate]. cbn in Hi. injection Hi as <- <- <-.
    split; [reflexivity|]. pose proof (rd_concat_off f _ r i x Er Ex) as (R & _). split; [exact R|]. exact (SO _ _ _ Er (rd_In _ _ _ Ex)).
  - intros (-> & Ha & Hs). destruct (rd_concat_inv f j a Ha) as (s & r & i & H1 & H2 & -> & _). pose proof (SO _ _ _ H1 (rd_In _ _ _ H2)) as E. rewrite <- Hs, E, H1. apply (rd_In _ i). rewrite rd_imap, H2. reflexivity.
Qed.

Lemma foldM_row t r : forall k m b, (forall i a, rd r i = Some a -> rd A (b + k + i) = Some a) ->
  foldM (fun m i => a <- rd A (b + i);; Some (accept_label m (lab a) (dst a) t (b + i) (sc a))) (map (fun i => k + i) (zrange (zlen r))) m = Some (fold_left take (imap (fun i a => (t, b + i, a)) k r) m).
Proof.
  induction r as [|a r IH]; intros k m b H; [reflexivity|]. pose proof (zlen_nonneg r) as LR. rewrite zlen_cons, zrange_cons by lia. replace (1 + zlen r - 1) with (zlen r) by lia. cbn [map foldM imap fold_left].
  rewrite Z.add_0_r. pose proof (H 0 a eq_refl) as H0. rewrite Z.add_0_r in H0. rewrite H0. cbn [take]. rewrite map_map.
  replace (map (fun x => k + (1 + x)) (zrange (zlen r))) with (map (fun i => (k + 1) + i) (zrange (zlen r))) by (apply map_ext; intros; lia).
  apply IH. intros i x Hx. pose proof (rd_Some_bound _ _ _ Hx). replace (b + (k + 1) + i) with (b + k + (i + 1)) by lia. apply H. rewrite rd_cons_S by lia. exact Hx.
Qed.

Lemma key_fun {X} (m : list (Z * X)) k x y : NoDup (map fst m) -> In (k, x) m -> In (k, y) m -> x = y.
Proof.
  induction m as [|(k', z) m IH]; [intros _ []|]. cbn [map fst]. intros ND. inversion ND as [|? ? N1 N2]; subst. intros [H1|H1] [H2|H2]; [congruence| | |auto].
  - injection H1 as -> ->. exfalso. apply N1. change k with (fst (k, y)). now apply in_map.
  - injection H2 as -> ->. exfalso. apply N1. change k with (fst (k, x)). now apply in_map.
Qed.
Lemma accept_keys els s t j w x : In x (map fst (accept els s t j w)) <-> In x (map fst els) \/ x = s.
Proof.
  induction els as [|(s', t') els IH]; cbn [accept].
  - cbn. intuition.
  - destruct (s' =? s) eqn:E; cbn [map In fst].
    + apply Z.eqb_eq in E. subst. intuition.
    + rewrite IH. intuition.
Qed.
Lemma accept_ok els s t j w : NoDup (map fst els) ->
  NoDup (map fst (accept els s t j w)) /\ accept els s t j w <> [] /\
  (forall s' t', In (s', t') (accept els s t j w) -> In (s', t') els \/ s' = s /\ t' = Tb s j t (t_fp t + w)) /\
  (forall s' t', In (s', t') els -> exists t'', In (s', t'') (accept els s t j w) /\ t_fp t' <= t_fp t'') /\
  (exists t', In (s, t') (accept els s t j w) /\ t_fp t + w <= t_fp t').
Proof.
  induction els as [|(s0, t0) els IH]; intros ND.
  - cbn. split; [repeat constructor; auto|]. split; [discriminate|]. split; [intros s' t' [E|[]]; injection E as <- <-; auto|]. split; [intros s' t' []|]. eexists. split; [left; reflexivity|]. cbn. lia.
  - cbn [map fst] in ND. inversion ND as [|? ? N1 N2]; subst. destruct (IH N2) as (I1 & I2 & I3 & I4 & I5). cbn [accept]. destruct (s0 =? s) eqn:E.
    + apply Z.eqb_eq in E. subst s0. split; [exact ND|]. split; [discriminate|]. destruct (t_fp t0 <? t_fp t + w) eqn:EL.
      * apply Z.ltb_lt in EL. split; [intros s' t' [H|H]; [injection H as <- <-; auto|left; now right]|]. split.
        -- intros s' t' [H|H]; [injection H as <- <-; eexists; split; [left; reflexivity|cbn; lia]|]. exists t'. split; [now right|lia].
        -- eexists. split; [left; reflexivity|cbn; lia].
      * apply Z.ltb_ge in EL. split; [intros s' t' H; now left|]. split; [intros s' t' H; exists t'; split; [exact H|lia]|]. exists t0. split; [now left|exact EL].
    + apply Z.eqb_neq in E. split.
      * cbn [map fst]. constructor; [|exact I1]. intros H. apply accept_keys in H as [H|H]; [contradiction|congruence].
      * split; [discriminate|]. split; [intros s' t' [H|H]; [left; now left|]; destruct (I3 s' t' H) as [X|X]; [left; now right|now right]|]. split.
        -- intros s' t' [H|H]; [exists t'; split; [now left|lia]|]. destruct (I4 s' t' H) as (t'' & X & Y). exists t''. split; [now right|exact Y].
        -- destruct I5 as (t' & X & Y). exists t'. split; [now right|exact Y].
Qed.

Definition e_lab (e : ev) : Z := lab (snd e).
Definition e_dst (e : ev) : Z := dst (snd e).
Definition m_ok (m : list (Z * elements)) (done : list ev) : Prop :=
  NoDup (map fst m) /\
  (forall l els, In (l, els) m -> NoDup (map fst els) /\ els <> [] /\
     forall s t, In (s, t) els -> exists e, In e done /\ e_lab e = l /\ e_dst e = s /\ t = ev_tb e) /\
  (forall e, In e done -> exists els t, In (e_lab e, els) m /\ In (e_dst e, t) els /\ t_fp (ev_tb e) <= t_fp t).

Lemma take_keys m l s t j w x : In x (map fst (accept_label m l s t j w)) <-> In x (map fst m) \/ x = l.
Proof.
  induction m as [|(l', els) m IH]; cbn [accept_label].
  - cbn. intuition.
  - destruct (l' =? l) eqn:E; cbn [map In fst].
    + apply Z.eqb_eq in E. subst. intuition.
    + rewrite IH. intuition.
Qed.
(** in the new map, the entry of the label is the old one with the arc accepted, and
    the others are the old ones *)
Lemma take_in m l s t j w : NoDup (map fst m) ->
  NoDup (map fst (accept_label m l s t j w)) /\
  exists old, (In (l, old) m \/ old = [] /\ ~ In l (map fst m)) /\
    forall l' els, In (l', els) (accept_label m l s t j w) <-> l' <> l /\ In (l', els) m \/ l' = l /\ els = accept old s t j w.
Proof.
  induction m as [|(l0, els0) m IH]; intros ND; cbn [accept_label].
  - split; [repeat constructor; auto|]. exists []. split; [right; split; auto|]. intros l' els. cbn. split; [intros [E|[]]; injection E as <- <-; auto|]. intros [[_ []]|[-> ->]]. now left.
  - cbn [map fst] in ND. inversion ND as [|? ? N1 N2]; subst. destruct (l0 =? l) eqn:E.
    + apply Z.eqb_eq in E. subst l0. split; [exact ND|]. exists els0. split; [left; now left|]. intros l' els. cbn [In]. split.
      * intros [H|H]; [injection H as <- <-; auto|]. left. split; [|now right]. intros ->. apply N1. change l with (fst (l, els)). now apply in_map.
      * intros [[H1 [H2|H2]]|[-> ->]]; [congruence|now right|now left].
    + apply Z.eqb_neq in E. destruct (IH N2) as (I1 & old & I2 & I3). split.
      * cbn [map fst]. constructor; [|exact I1]. intros H. apply take_keys in H as [H|H]; contradiction.
      * exists old. split; [destruct I2 as [I2|(I2 & I2')]; [left; now right|right; split; [exact I2|intros [H|H]; contradiction]]|]. intros l' els. cbn [In]. split.
        -- intros [H|H]; [injection H as <- <-; left; split; [exact E|now left]|]. apply I3 in H as [(H1 & H2)|H]; [left; split; [exact H1|now right]|now right].
        -- intros [(H1 & [H2|H2])|H]; [now left| |]; right; apply I3; auto.
Qed.
Lemma take_ok m done e : m_ok m done -> m_ok (take m e) (done ++ [e]).
Proof.
  destruct e as ((t, j), a). intros (M1 & M2 & M3). unfold take. destruct (take_in m (lab a) (dst a) t j (sc a) M1) as (N1 & old & O1 & O2).
  assert (OND : NoDup (map fst old)) by (destruct O1 as [O1|(-> & _)]; [apply (M2 _ _ O1)|constructor]).
  destruct (accept_ok old (dst a) t j (sc a) OND) as (A1 & A2 & A3 & A4 & A5).
  split; [exact N1|]. split.
  - intros l els H. apply O2 in H as [(H1 & H2)|(-> & ->)].
    + destruct (M2 l els H2) as (X1 & X2 & X3). split; [exact X1|]. split; [exact X2|]. intros s t' Ht. destruct (X3 s t' Ht) as (e & E1 & E2). exists e. split; [apply in_or_app; now left|exact E2].
    + split; [exact A1|]. split; [exact A2|]. intros s t' Ht. destruct (A3 s t' Ht) as [X|(-> & ->)].
      * destruct O1 as [O1|(-> & _)]; [|destruct X]. destruct (M2 _ _ O1) as (_ & _ & X3). destruct (X3 s t' X) as (e & E1 & E2). exists e. split; [apply in_or_app; now left|exact E2].
      * exists (t, j, a). split; [apply in_or_app; right; now left|]. repeat split.
  - intros e He. apply in_app_or in He as [He|[<-|[]]].
    + destruct (M3 e He) as (els & t' & E1 & E2 & E3). destruct (Z.eq_dec (e_lab e) (lab a)) as [EL|NL].
      * rewrite EL in *. assert (els = old).
        { destruct O1 as [O1|(_ & O1)]; [|exfalso; apply O1; change (lab a) with (fst (lab a, els)); now apply in_map]. exact (key_fun m _ _ _ M1 E1 O1). }
        subst els. destruct (A4 _ _ E2) as (t'' & B1 & B2). exists (accept old (dst a) t j (sc a)), t''. split; [apply O2; auto|]. split; [exact B1|lia].
      * exists els, t'. split; [apply O2; auto|]. auto.
    + destruct A5 as (t' & B1 & B2). exists (accept old (dst a) t j (sc a)), t'. split; [apply O2; auto|]. split; [exact B1|exact B2].
Qed.
Lemma takes_ok evs : forall m done, m_ok m done -> m_ok (fold_left take evs m) (done ++ evs).
Proof.
  induction evs as [|e evs IH]; intros m done H; [now rewrite app_nil_r|]. cbn [fold_left]. replace (done ++ e :: evs) with ((done ++ [e]) ++ evs) by (rewrite <- app_assoc; reflexivity). apply IH. now apply take_ok.
Qed.

Hypothesis HC : coaccessible f.
Lemma no_arcs_final s : 0 <= s < nstates f -> (forall j a, rd A j = Some a -> src a <> s) -> s = final f.
Proof. intros Hs H. destruct (HC s Hs) as (p & Hp). inversion Hp as [|j a p' t Ha Hp']; subst; [reflexivity|]. exfalso. exact (H j a Ha eq_refl). Qed.

Lemma successors_ok u els : els_ok u els -> exists m, successors (splits_of f) A els = Some m /\
  NoDup (map fst m) /\ (forall l els', In (l, els') m -> els_ok (u ++ [l]) els' /\ forall s t, In (s, t) els' -> exists t0, In (t_state t0, t0) els /\ t_prev t = Some t0) /\
  (forall p s l, apath f 0 p s -> lb p = u ++ [l] -> exists els', In (l, els') m).
Proof.
  intros (E1 & E2 & E3 & E4). set (evs := concat (map (fun e => row_evs (snd e)) els)).
  assert (F : forall m, foldM (fun m (e : Z * tb) =>
         let st := t_state (snd e) in
         b <- rd (splits_of f) st;;
         e' <- rd (splits_of f) (st + 1);;
         foldM (fun m i => a <- rd A (b + i);; Some (accept_label m (lab a) (dst a) (snd e) (b + i) (sc a))) (zrange (e' - b)) m)
       els m = Some (fold_left take evs m)).
  { assert (ST : forall e, In e els -> 0 <= t_state (snd e) < nstates f) by (intros (s, t) He; destruct (E3 s t He) as (_ & T); exact (tbk_state _ _ T)).
    unfold evs. clear E1 E2 E3 E4 evs. induction els as [|e els IH]; intros m; [reflexivity|]. cbn [foldM map concat]. cbv zeta. pose proof (ST e (or_introl eq_refl)) as S0. unfold nstates in S0.
    destruct (rd_in_bound f (t_state (snd e)) S0) as (r & Er).
    rewrite !rd_splits_off by lia. rewrite (off1_next f _ r Er). replace (off1 f (t_state (snd e)) + zlen r - off1 f (t_state (snd e))) with (zlen r) by lia.
    replace (zrange (zlen r)) with (map (fun i => 0 + i) (zrange (zlen r))) by (rewrite map_ext with (g := fun i => i); [apply map_id|intros; lia]).
    rewrite (foldM_row (snd e) r 0 m (off1 f (t_state (snd e)))); [|intros i a Ha; rewrite Z.add_0_r; apply (rd_concat_off f _ r i a Er Ha)].
    rewrite fold_left_app. rewrite IH by (intros x Hx; apply ST; now right). assert (RE : row_evs (snd e) = imap (fun i a => (snd e, off1 f (t_state (snd e)) + i, a)) 0 r) by (unfold row_evs; now rewrite Er). rewrite RE. reflexivity. }
  assert (EV : forall t j a, In (t, j, a) evs <-> In (t_state t, t) els /\ rd A j = Some a /\ src a = t_state t).
  { intros t j a. unfold evs. rewrite in_concat. split.
    - intros (x & Hx & Hin). apply in_map_iff in Hx as ((s, t') & <- & He). apply row_evs_in in Hin as (-> & Ha & Hs). cbn [snd] in *. destruct (E3 s t' He) as (T & _). rewrite T. split; [exact He|]. split; [exact Ha|congruence].
    - intros (H1 & H2 & H3). exists (row_evs t). split; [apply in_map_iff; exists (t_state t, t); auto|]. now apply row_evs_in. }
  destruct (takes_ok evs [] []) as (M1 & M2 & M3). { split; [constructor|]. split; [intros l els' []|intros e []]. }
  cbn [app] in M2, M3. set (m := fold_left take evs []) in *. exists m. unfold successors. rewrite F. fold m.
  assert (CMP : forall p s l, apath f 0 p s -> lb p = u ++ [l] -> exists els' t, In (l, els') m /\ In (s, t) els' /\ scp p <= t_fp t).
  { intros p s l Hp Hl. destruct (lb_snoc 0 p s u l Hp Hl) as (p1 & j & a & -> & Ha & Hp1 & <- & Hl1 & <-). destruct (E4 p1 (src a) Hp1 Hl1) as (t & Ht & LE). destruct (E3 _ _ Ht) as (TS & _).
    assert (He : In (t, j, a) evs) by (apply EV; rewrite TS; auto). destruct (M3 _ He) as (els' & t' & X1 & X2 & X3). exists els', t'. split; [exact X1|]. split; [exact X2|].
    cbn in X3. rewrite scp_app, (arcs_at_one j a Ha). unfold score at 2. cbn. lia. }
  split; [|split; [exact M1|split]].
  - assert (CHK : (match m, els with
         | [], (_, t) :: _ => t_state t =? zlen (splits_of f) - 2
         | [], [] => false
         | _, _ => true
         end) = true); [|rewrite CHK; reflexivity].
    destruct m as [|x m'] eqn:Em; [|reflexivity]. destruct els as [|(s, t) els']; [congruence|]. rewrite zlen_splits_of. apply Z.eqb_eq. destruct (E3 s t (or_introl eq_refl)) as (TS & TK).
    replace (zlen f + 1 - 2) with (final f) by (unfold final, nstates; lia). apply no_arcs_final; [exact (tbk_state _ _ TK)|]. intros j a Ha Hs. assert (He : In (t, j, a) evs) by (apply EV; rewrite TS; repeat split; [now left|exact Ha|congruence]).
    destruct (M3 _ He) as (els'' & t' & [] & _).
  - intros l els' Hl. destruct (M2 l els' Hl) as (X1 & X2 & X3). split; [|intros s t Ht; destruct (X3 s t Ht) as (((t0, j), a) & He & <- & <- & ->); apply EV in He as (H1 & _); exists t0; auto].
    split; [exact X1|]. split; [exact X2|]. split.
    + intros s t Ht. destruct (X3 s t Ht) as (((t0, j), a) & He & <- & <- & ->). apply EV in He as (H1 & H2 & H3). destruct (E3 _ _ H1) as (_ & TK). split; [reflexivity|]. apply (tbkS u t0 j a TK H2 H3).
    + intros p s Hp Hlb. destruct (CMP p s l Hp Hlb) as (els'' & t & Y1 & Y2 & Y3). assert (els'' = els').
      { exact (key_fun m _ _ _ M1 Y1 Hl). }
      subst. exists t. auto.
  - intros p s l Hp Hlb. destruct (CMP p s l Hp Hlb) as (els' & _ & X & _). eauto.
Qed.
End Det.
