(** * replace_fsa: theorems *)
From Coq Require Import ZArith List Lia Bool.
From Verif Require Import Base RaggedModel RaggedSpec RaggedProofs FsaSpec FsaLemmas EpsLoopProofs ScoreSpec ShortestSpec ScorePaths IntersectSpec IntersectPaths IntersectProps ExpandProofs ExpandPaths ExpandProps ReplaceModel ReplaceProofs ReplacePaths.
Import ListNotations.
Open Scope Z_scope.

(** ** Specification *)
(** [v] is the string [w] with every symbol [begin + i] replaced by a string
    accepted by [S_i]; [c] is the total score of these strings *)
Inductive subst (S : list nfsa) (begin : Z) : list Z -> list Z -> Z -> Prop :=
| sub_nil : subst S begin [] [] 0
| sub_keep x w v c : ~ (begin <= x < begin + zlen S) -> subst S begin w v c -> subst S begin (x :: w) (x :: v) c
| sub_rep x g w u c1 v c : rd S (x - begin) = Some g -> accepts_str g u c1 -> subst S begin w v c -> subst S begin (x :: w) (u ++ v) (c1 + c).

(** the arcs of the source vector that an item uses *)
Definition item_src (S : list nfsa) (begin : Z) (f : nfsa) (it : item) : list Z :=
  match rd (all_arcs f) (fst it) with
  | Some a => map (fun b => first_arc S (lab a - begin) + b) (snd it)
  | None => []
  end.

(** [g], part [k] of [Ws], is [f], part [k] of the index vector [V], with arcs
    replaced.  [items q]: the two arc maps read off the path [q] *)
Definition is_replacement (S : list nfsa) (begin : Z) (V Ws : list nfsa) (ms mi : list Z) (k : Z) (f g : nfsa) : Prop :=
  let pi := proj mi (first_arc Ws k) (first_arc V k) in
  let ps := proj ms (first_arc Ws k) 0 in
  let maps q its := pi q = map fst its /\ ps q = flat_map (item_src S begin f) its in
  (forall q, successful g q -> exists its, subst_path S begin f its /\ maps q its) /\
  (forall its, subst_path S begin f its -> exists q, successful g q /\ maps q its) /\
  (forall q q', successful g q -> successful g q' -> pi q = pi q' -> ps q = ps q' -> q = q') /\
  (forall q its, successful g q -> subst_path S begin f its -> maps q its ->
     strip (labels (arcs_at g q)) = flat_map (item_labels S begin f) its /\
     score (arcs_at g q) = zsum (map (item_score S begin f) its)).

Lemma last_none (f : nfsa) : valid f -> rd f (zlen f - 1) = Some [].
Proof.
  intros (SO & N & VA). unfold nstates in N. destruct (rd_in_bound f (zlen f - 1) ltac:(lia)) as (s & Hs).
  destruct s as [|a s]; [exact Hs|]. exfalso.
  assert (Ia : In a (all_arcs f)) by (apply in_concat; exists (a :: s); split; [eapply rd_In; eauto|now left]).
  destruct (VA _ Ia) as (_ & _ & _ & V4). apply V4. unfold final, nstates. apply (SO _ (a :: s)); [exact Hs|now left].
Qed.

(** ** Successful paths are prefix-free *)
Lemma final_stop g q t : valid g -> apath g (final g) q t -> q = [].
Proof.
  intros Vg H. inversion H as [|b e q' t' Hb Hq Es]; [reflexivity|]. exfalso. destruct Vg as (_ & _ & VA).
  destruct (VA e (rd_In _ _ _ Hb)) as (_ & _ & _ & V4). apply V4. exact Es.
Qed.
Lemma prefix_free g (h : Z -> Z) : (forall x y, h x = h y -> x = y) -> valid g -> forall q s q' r r', apath g s q (final g) -> apath g s q' (final g) -> map h q ++ r = map h q' ++ r' -> q = q'.
Proof.
  intros Hh Vg. induction q as [|b q IH]; intros s q' r r' H H' E.
  - inversion H; subst. now rewrite (final_stop g q' _ Vg H').
  - destruct q' as [|b' q']; [inversion H'; subst; exfalso; pose proof (final_stop g _ _ Vg H); discriminate|].
    cbn [map app] in E. injection E as E1 E2. apply Hh in E1. subst b'. f_equal.
    inversion H; subst. inversion H'; subst. assert (a0 = a) by congruence. subst. eapply IH; eauto.
Qed.

Section Vec.
  Variable S : list nfsa.
  Variable begin : Z.
  Variable V : list nfsa.
  Hypothesis okS : Forall (fun g => g = [] \/ valid g) S.
  Notation lk := (look S begin).
  Notation Ws := (Rs S begin V).
  Notation ms := (map (fun x => fst (snd x)) (rout S begin V)).
  Notation mi := (map (fun x => snd (snd x)) (rout S begin V)).

  Lemma proj_src_app (m : list Z) oc oa u v : proj m oc oa (u ++ v) = proj m oc oa u ++ proj m oc oa v.
  Proof. apply flat_map_app. Qed.

  Lemma first_arc_nonneg fs k : 0 <= first_arc fs k.
  Proof. apply off1_nonneg. Qed.

  Lemma rd_maps k f q l : rd V k = Some f -> rd (concat (concat (concat (UR S begin f)))) q = Some l ->
    rd ms (first_arc Ws k + q) = Some (fst (snd (RR S begin V k f l))) /\ rd mi (first_arc Ws k + q) = Some (snd (snd (RR S begin V k f l))).
  Proof.
    intros Hk Hl. pose proof (rd_rout S begin V k f q l Hk Hl) as H. change (off1 (map (@concat _) Ws) k) with (first_arc Ws k) in H.
    rewrite !rd_map, H. split; reflexivity.
  Qed.

  Lemma srcarc_at a g j r m b : lk a = Some g -> rd g j = Some r -> rd r m = Some b -> srcarc S (lab a - begin) j + m = first_arc S (lab a - begin) + (off1 g j + m).
  Proof.
    intros Hg Hr Hb. unfold srcarc, look in *. pose proof (rd_Some_bound _ _ _ Hr). rewrite (off1_concat S _ g j Hg ltac:(lia)). unfold first_arc.
    replace (map all_arcs S) with (map (@concat _) S) by reflexivity. rewrite off1_map_concat. lia.
  Qed.

  Lemma proj_copy k f i s x a g : rd V k = Some f -> rd f i = Some s -> rd s x = Some a -> lk a = Some g -> valid g -> forall j q t, apath g j q t ->
    proj mi (first_arc Ws k) (first_arc V k) (map (cp S begin f i x g) q) = [] /\
    proj ms (first_arc Ws k) 0 (map (cp S begin f i x g) q) = map (fun b => first_arc S (lab a - begin) + b) q.
  Proof.
    intros Hk H1 H2 Hg Vg. pose proof (rd_Some_bound _ _ _ H2) as Bx. induction 1 as [j|b e q t Hb H [I1 I2]]; [split; reflexivity|]. cbn [map].
    destruct (g_arc g b e Vg Hb) as (r & m & Hr & Hm & -> & Bs & _). rewrite (cp_at S begin f i x g (src e) r m e Hr Hm).
    destruct (leaf_inner S begin f i s x a g (src e) r m e H1 H2 Hg Bs Hr Hm) as [Hl _]. destruct (rd_maps k f _ _ Hk Hl) as [M1 M2].
    unfold RR in M1, M2. cbn [fst snd] in M1, M2. replace (x + 1 =? 0) with false in * by lia. replace (x + 1 - 1) with x in M1 by lia.
    unfold iarc in M1. rewrite H1, H2 in M1. rewrite (srcarc_at a g (src e) r m e Hg Hr Hm) in M1.
    cbn [proj flat_map]. unfold all_arcs, proj in *. rewrite M1, M2, I1, I2. change (-1 =? -1) with true. cbv iota.
    pose proof (first_arc_nonneg S (lab a - begin)). pose proof (off1_nonneg g (src e)). pose proof (rd_Some_bound _ _ _ Hm).
    replace (first_arc S (lab a - begin) + (off1 g (src e) + m) =? -1) with false by lia. split; [reflexivity|]. cbn [app]. f_equal. lia.
  Qed.

  Lemma proj_item k f it : rd V k = Some f -> item_ok S begin f it ->
    proj mi (first_arc Ws k) (first_arc V k) (rchain_of S begin f it) = [fst it] /\ proj ms (first_arc Ws k) 0 (rchain_of S begin f it) = item_src S begin f it.
  Proof.
    intros Hk (a & Ha & OK). unfold item_src. rewrite Ha. destruct it as [n q]. cbn [fst snd] in *.
    destruct (rd_concat_inv _ _ _ Ha) as (i & s & x & H1 & H2 & -> & _). rewrite (rchain_of_at S begin f i s x a q H1 H2).
    destruct (leaf_first S begin f i s x a H1 H2) as [Hl _]. destruct (rd_maps k f _ _ Hk Hl) as [M1 M2].
    unfold RR in M1, M2. cbn [fst snd] in M1, M2. change (0 =? 0) with true in *. cbv iota in M1, M2.
    change (rabase V k) with (first_arc V k) in M2. pose proof (first_arc_nonneg V k). pose proof (off1_nonneg f i). pose proof (rd_Some_bound _ _ _ H2).
    assert (P1 : proj mi (first_arc Ws k) (first_arc V k) [ri S begin f i 0 0 x] = [off1 f i + x]).
    { unfold proj. cbn [flat_map]. rewrite M2. replace (first_arc V k + (off1 f i + x) =? -1) with false by lia. cbn [app]. f_equal. lia. }
    assert (P2 : proj ms (first_arc Ws k) 0 [ri S begin f i 0 0 x] = []).
    { unfold proj. cbn [flat_map]. rewrite M1. reflexivity. }
    assert (Q : proj mi (first_arc Ws k) (first_arc V k) (match lk a with Some g => map (cp S begin f i x g) q | None => [] end) = [] /\
                proj ms (first_arc Ws k) 0 (match lk a with Some g => map (cp S begin f i x g) q | None => [] end) = map (fun b => first_arc S (lab a - begin) + b) q).
    { destruct (lk a) as [g|] eqn:Eg; [|subst q; split; reflexivity]. destruct (src_valid S begin okS a g Eg) as [->|Vg].
      - cbn [src_path] in OK. subst q. split; reflexivity.
      - assert (SP : successful g q) by (destruct g; [destruct Vg as (_ & N & _); vm_compute in N; exfalso; apply N; reflexivity|exact OK]). destruct SP as [_ SP]. eapply proj_copy; eauto. }
    destruct Q as [Q1 Q2]. match goal with |- context [ri S begin f i 0 0 x :: ?l] => change (ri S begin f i 0 0 x :: l) with ([ri S begin f i 0 0 x] ++ l) end.
    rewrite !proj_src_app, P1, P2, Q1, Q2. split; reflexivity.
  Qed.

  Lemma proj_RE k f its : rd V k = Some f -> Forall (item_ok S begin f) its ->
    proj mi (first_arc Ws k) (first_arc V k) (RE S begin f its) = map fst its /\ proj ms (first_arc Ws k) 0 (RE S begin f its) = flat_map (item_src S begin f) its.
  Proof.
    intros Hk. induction 1 as [|it its OK HF [I1 I2]]; [split; reflexivity|]. unfold RE. cbn [flat_map map]. fold (RE S begin f its). destruct (proj_item k f it Hk OK) as [J1 J2].
    rewrite !proj_src_app, I1, I2, J1, J2. split; reflexivity.
  Qed.

  Lemma items_inj f : forall its its', Forall (item_ok S begin f) its -> Forall (item_ok S begin f) its' -> map fst its = map fst its' ->
    flat_map (item_src S begin f) its = flat_map (item_src S begin f) its' -> its = its'.
  Proof.
    induction its as [|[n q] its IH]; intros its' H H' E1 E2; destruct its' as [|[n' q'] its']; try discriminate; [reflexivity|].
    cbn [map fst] in E1. injection E1 as <- E1. inversion H as [|? ? O HF]; subst. inversion H' as [|? ? O' HF']; subst.
    destruct O as (a & Ha & OK). destruct O' as (a' & Ha' & OK'). cbn [fst snd] in *. assert (a' = a) by congruence. subst a'.
    cbn [flat_map] in E2. unfold item_src in E2 at 1 3. cbn [fst snd] in E2. rewrite Ha in E2.
    assert (q = q').
    { destruct (lk a) as [g|] eqn:Eg; [|congruence]. destruct (src_valid S begin okS a g Eg) as [->|Vg]; [cbn [src_path] in *; congruence|].
      assert (SP : successful g q /\ successful g q') by (destruct g; [destruct Vg as (_ & N & _); vm_compute in N; exfalso; apply N; reflexivity|auto]). destruct SP as [[_ SP] [_ SP']].
      eapply (prefix_free g (fun b => first_arc S (lab a - begin) + b)); eauto. intros; lia. }
    subst q'. apply app_inv_head in E2. f_equal. now apply IH.
  Qed.

  Hypothesis okV : Forall (fun f => f = [] \/ valid f) V.

  Lemma rdst_ok f : f = [] \/ valid f -> forall a, In a (concat f) -> 0 <= dst a < zlen f.
  Proof. intros [->|(_ & _ & VA)] a Ha; [contradiction|]. destruct (VA a Ha) as (H & _). exact H. Qed.

  Lemma rpaths f : f = [] \/ valid f -> forall q, successful (replaced S begin f) q <-> exists its, subst_path S begin f its /\ q = RE S begin f its.
  Proof.
    intros [->|Vf] q.
    - split; [intros [N _]|intros (p & [[N _] _] & _)]; vm_compute in N; discriminate.
    - apply rsuccessful_iff; [exact okS|apply Vf|apply rdst_ok; now right|now apply last_none].
  Qed.

  Lemma rgeneral k f : rd V k = Some f -> is_replacement S begin V Ws ms mi k f (replaced S begin f).
  Proof.
    intros Hk. assert (Vf : f = [] \/ valid f) by (rewrite Forall_forall in okV; apply okV; eapply rd_In; eauto).
    unfold is_replacement. cbv zeta. split; [|split; [|split]].
    - intros q Hq. apply (rpaths f Vf) in Hq. destruct Hq as (its & SP & ->). exists its. split; [exact SP|]. apply proj_RE; [exact Hk|apply SP].
    - intros its SP. exists (RE S begin f its). split; [apply (rpaths f Vf); eauto|]. apply proj_RE; [exact Hk|apply SP].
    - intros q q' Hq Hq' E1 E2. apply (rpaths f Vf) in Hq. apply (rpaths f Vf) in Hq'. destruct Hq as (its & [_ SP] & ->). destruct Hq' as (its' & [_ SP'] & ->).
      destruct (proj_RE k f its Hk SP) as [P1 P2]. destruct (proj_RE k f its' Hk SP') as [P1' P2']. f_equal. apply (items_inj f its its'); auto; congruence.
    - intros q its Hq [_ SP] [E1 E2]. apply (rpaths f Vf) in Hq. destruct Hq as (its' & [_ SP'] & ->). destruct (proj_RE k f its' Hk SP') as [P1' P2'].
      rewrite <- (items_inj f its' its SP' SP) by congruence. apply RE_attr; [exact okS|apply rdst_ok; exact Vf|exact SP'].
  Qed.
End Vec.

(** ** Languages *)
Lemma zsum_cons x l : zsum (x :: l) = x + zsum l.
Proof. change (x :: l) with ([x] ++ l). rewrite zsum_app. cbn. lia. Qed.
Lemma strip_labels_cons a p : strip (labels (a :: p)) = strip [lab a] ++ strip (labels p).
Proof. unfold labels. change (map lab (a :: p)) with ([lab a] ++ map lab p). apply FsaLemmas.strip_app. Qed.

Lemma succ_labels g : valid g -> forall s q, apath g s q (final g) -> s <> final g -> exists u, strip (labels (arcs_at g q)) = u ++ [-1] /\ real (labels (arcs_at g q)) = u.
Proof.
  intros Vg s q H. remember (final g) as t eqn:Et. induction H as [s|b e q t Hb H IH]; intros N; [congruence|]. specialize (IH Et). subst t.
  rewrite (arcs_at_cons _ _ _ _ Hb). destruct (proj2 (proj2 Vg) e (rd_In _ _ _ Hb)) as (V1 & V2 & V3 & V4). unfold labels in *. cbn [map].
  destruct (Z.eq_dec (dst e) (final g)) as [E|E].
  - rewrite E in H. pose proof (final_stop g _ _ Vg H). subst q. exists []. cbn [arcs_at flat_map map]. rewrite (proj2 V3 E). split; reflexivity.
  - destruct (IH E) as (u & U1 & U2). unfold strip, real in *. cbn [filter]. rewrite U1, U2. exists (if lab e =? 0 then u else lab e :: u).
    assert (L : lab e <> -1) by (intros L; apply E, V3, L). replace (lab e =? -1) with false by lia. destruct (lab e =? 0); split; reflexivity.
Qed.

Section Lang.
  Variable S : list nfsa.
  Variable begin : Z.
  Hypothesis begin1 : 1 <= begin.
  Hypothesis okS : Forall valid S.
  Variable f : nfsa.
  Notation lk := (look S begin).
  Notation subst := (subst S begin).

  Lemma lk_valid a g : lk a = Some g -> valid g.
  Proof. intros H. rewrite Forall_forall in okS. apply okS. eapply rd_In; exact H. Qed.
  Lemma lk_none a : lk a = None -> ~ (begin <= lab a < begin + zlen S).
  Proof. unfold look. rewrite rd_None. lia. Qed.
  Lemma src_path_valid g q : valid g -> (src_path g q <-> successful g q).
  Proof. intros Vg. destruct g; [destruct Vg as (_ & N & _); vm_compute in N; exfalso; apply N; reflexivity|]. reflexivity. Qed.
  Lemma succ_accepts g q : valid g -> successful g q -> accepts_str g (real (labels (arcs_at g q))) (score (arcs_at g q)).
  Proof.
    intros Vg [_ H]. assert (N : 0 <> final g) by (destruct Vg as (_ & N & _); unfold final, nstates in *; lia).
    destruct (succ_labels g Vg 0 q H N) as (u & U1 & U2). exists (arcs_at g q). split; [now apply apath_path|]. split; [now rewrite U1, U2|reflexivity].
  Qed.

  Lemma items_subst : forall its, Forall (item_ok S begin f) its -> exists c, subst (strip (labels (arcs_at f (map fst its)))) (flat_map (item_labels S begin f) its) c /\
     zsum (map (item_score S begin f) its) = score (arcs_at f (map fst its)) + c.
  Proof.
    induction 1 as [|it its (a & Ha & OK) HF (c & I1 & I2)]; [exists 0; split; [constructor|reflexivity]|].
    cbn [map flat_map]. rewrite (arcs_at_cons _ _ _ _ Ha), strip_labels_cons, score_cons, zsum_cons, I2. unfold item_labels at 1, item_score at 1. rewrite Ha.
    destruct (lk a) as [g|] eqn:Eg.
    - pose proof (lk_valid a g Eg) as Vg. apply (src_path_valid g _ Vg) in OK. exists (score (arcs_at g (snd it)) + c). split; [|lia].
      assert (L : lab a <> 0) by (unfold look in Eg; pose proof (rd_Some_bound _ _ _ Eg); lia). unfold strip at 1. cbn [filter]. replace (lab a =? 0) with false by lia. cbn [negb app].
      apply (sub_rep S begin (lab a) g); auto. now apply succ_accepts.
    - exists c. split; [|lia]. unfold strip at 1 3. cbn [filter]. destruct (lab a =? 0); cbn [negb app]; [exact I1|]. constructor; [now apply lk_none|exact I1].
  Qed.

  Lemma subst_items : forall p, (forall n, In n p -> exists a, rd (all_arcs f) n = Some a) -> forall v c, subst (strip (labels (arcs_at f p))) v c ->
    exists its, map fst its = p /\ Forall (item_ok S begin f) its /\ flat_map (item_labels S begin f) its = v /\ zsum (map (item_score S begin f) its) = score (arcs_at f p) + c.
  Proof.
    induction p as [|n p IH]; intros HA v c H.
    - inversion H; subst. exists []. repeat split; constructor.
    - destruct (HA n ltac:(now left)) as (a & Ha). rewrite (arcs_at_cons _ _ _ _ Ha), strip_labels_cons in H. rewrite (arcs_at_cons _ _ _ _ Ha), score_cons.
      assert (HA' : forall m, In m p -> exists a, rd (all_arcs f) m = Some a) by (intros; apply HA; now right).
      assert (keep : forall v' c', lk a = None -> v = strip [lab a] ++ v' -> c = c' -> subst (strip (labels (arcs_at f p))) v' c' ->
        exists its, map fst its = n :: p /\ Forall (item_ok S begin f) its /\ flat_map (item_labels S begin f) its = v /\ zsum (map (item_score S begin f) its) = sc a + score (arcs_at f p) + c).
      { intros v' c' Ea -> -> H'. destruct (IH HA' v' c' H') as (its & J1 & J2 & J3 & J4). exists ((n, []) :: its). cbn [map flat_map fst]. rewrite J1, J3, zsum_cons, J4. unfold item_labels, item_score. cbn [fst snd]. rewrite Ha, Ea.
        repeat split; [|lia]. constructor; [|exact J2]. exists a. cbn [fst snd]. rewrite Ea. auto. }
      unfold strip at 1 in H. cbn [filter] in H. destruct (lab a =? 0) eqn:E0; cbn [negb app] in H.
      + apply (keep v c); auto. * unfold look. apply rd_None. lia. * unfold strip. cbn [filter]. rewrite E0. reflexivity.
      + inversion H as [|x w v' c' Hx Hw|x g w u c1 v' c' Hg Hu Hw]; subst.
        * apply (keep v' c); auto. -- unfold look. apply rd_None. lia. -- unfold strip. cbn [filter]. rewrite E0. reflexivity.
        * destruct (IH HA' v' c' Hw) as (its & J1 & J2 & J3 & J4). assert (Eg : lk a = Some g) by exact Hg. pose proof (lk_valid a g Eg) as Vg.
          destruct Hu as (pp & Hp & HL & HS). destruct (path_succ g pp Hp) as (q & Hq & <-).
          assert (Er : real (labels (arcs_at g q)) = u).
          { assert (N : 0 <> final g) by (destruct Vg as (_ & N & _); unfold final, nstates in *; lia). destruct (succ_labels g Vg 0 q (proj2 Hq) N) as (u' & U1 & U2).
            rewrite HL in U1. apply app_inj_tail in U1. destruct U1 as [U1 _]. congruence. }
          exists ((n, q) :: its). cbn [map flat_map fst]. rewrite J1, J3, zsum_cons, J4. unfold item_labels, item_score. cbn [fst snd]. rewrite Ha, Eg, Er.
          repeat split; [|lia]. constructor; [|exact J2]. exists a. cbn [fst snd]. rewrite Eg. split; [exact Ha|]. now apply src_path_valid.
  Qed.

  Lemma subst_app : forall w1 w2 v c, subst (w1 ++ w2) v c -> exists v1 v2 c1 c2, v = v1 ++ v2 /\ c = c1 + c2 /\ subst w1 v1 c1 /\ subst w2 v2 c2.
  Proof.
    induction w1 as [|x w1 IH]; intros w2 v c H.
    - exists [], v, 0, c. repeat split; [constructor|exact H].
    - cbn [app] in H. inversion H as [|y w v' c' Hx Hw|y g w u c1 v' c' Hg Hu Hw]; subst; destruct (IH _ _ _ Hw) as (v1 & v2 & d1 & d2 & -> & -> & H1 & H2).
      + exists (x :: v1), v2, d1, d2. repeat split; auto. now constructor.
      + exists (u ++ v1), v2, (c1 + d1), d2. split; [now rewrite app_assoc|]. split; [lia|]. split; [|exact H2]. econstructor; eauto.
  Qed.
  Lemma app_subst : forall w1 w2 v1 v2 c1 c2, subst w1 v1 c1 -> subst w2 v2 c2 -> subst (w1 ++ w2) (v1 ++ v2) (c1 + c2).
  Proof.
    intros w1 w2 v1 v2 c1 c2 H H2. induction H as [|x w v c Hx Hw IH|x g w u c v c' Hg Hu Hw IH]; cbn [app]; [exact H2|now constructor|].
    rewrite <- app_assoc, <- Z.add_assoc. econstructor; eauto.
  Qed.
  Lemma subst_last v c : subst [-1] v c <-> v = [-1] /\ c = 0.
  Proof.
    split.
    - intros H. inversion H as [|y w v' c' Hx Hw|y g w u c1 v' c' Hg Hu Hw]; subst.
      + inversion Hw; subst. auto.
      + exfalso. pose proof (rd_Some_bound _ _ _ Hg). lia.
    - intros [-> ->]. constructor; [lia|constructor].
  Qed.

  Lemma rlanguage : f = [] \/ valid f -> forall v s, accepts_str (replaced S begin f) v s <-> exists w c0 c1, accepts_str f w c0 /\ subst w v c1 /\ s = c0 + c1.
  Proof.
    intros Vf v s. assert (okS' : Forall (fun g => g = [] \/ valid g) S) by (eapply Forall_impl; [|exact okS]; intros g Hg; now right).
    change (accepts_str (replaced S begin f) v s) with (acc true (replaced S begin f) v s). rewrite acc_succ. split.
    - intros (q & Hq & HL & HS). apply (rpaths S begin okS' f Vf) in Hq. destruct Hq as (its & [Hp HF] & ->).
      destruct (RE_attr S begin f okS' (rdst_ok f Vf) its HF) as [A1 A2]. rewrite A1 in HL. rewrite A2 in HS. destruct (items_subst its HF) as (c & Hc & Es). rewrite HL in Hc.
      assert (exists w, strip (labels (arcs_at f (map fst its))) = w ++ [-1]) as (w & Ew).
      { destruct Vf as [->|Vf]; [destruct Hp as [N _]; vm_compute in N; discriminate|]. destruct Hp as [_ Hp].
        assert (N : 0 <> final f) by (destruct Vf as (_ & N & _); unfold final, nstates in *; lia). destruct (succ_labels f Vf 0 _ Hp N) as (w & Ew & _). eauto. }
      rewrite Ew in Hc. apply subst_app in Hc. destruct Hc as (v1 & v2 & c1 & c2 & Ev & -> & H1 & H2). apply subst_last in H2. destruct H2 as [-> ->].
      apply app_inj_tail in Ev. destruct Ev as [-> _]. exists w, (score (arcs_at f (map fst its))), c1. split; [|split; [exact H1|lia]].
      exists (arcs_at f (map fst its)). split; [apply apath_path; apply Hp|]. split; [exact Ew|reflexivity].
    - intros (w & c0 & c1 & (p & Hp & HL & HS) & Hs & ->). destruct (path_succ f p Hp) as (p' & Hp' & <-).
      assert (H : subst (strip (labels (arcs_at f p'))) (v ++ [-1]) (c1 + 0)) by (rewrite HL; apply app_subst; [exact Hs|now apply subst_last]).
      destruct (subst_items p') with (2 := H) as (its & J1 & J2 & J3 & J4).
      { clear - Hp'. destruct Hp' as [_ Hp']. induction Hp' as [s|n e p t Hn H IH]; intros m Hm; [destruct Hm|]. destruct Hm as [<-|Hm]; eauto. }
      exists (RE S begin f its). destruct (RE_attr S begin f okS' (rdst_ok f Vf) its J2) as [A1 A2]. rewrite A1, A2, J3, J4. split; [|split; [reflexivity|lia]].
      apply (rpaths S begin okS' f Vf). exists its. split; [|reflexivity]. split; [now rewrite J1|exact J2].
  Qed.
End Lang.

(** ** C36 *)
(** For every vector [S] of source FSAs and every index vector [V], each FSA being
    valid or empty, and every nonnegative beginning of the symbol range, replace_fsa
    does not raise; every FSA of its result is valid (or empty); the two arc maps are a
    one-to-one correspondence between the successful paths of the result and the
    successful paths of the index FSA in which every replaced arc comes with a
    successful path of its source, and labels and scores are those of the two
    paths.  If no source is empty and epsilon is not replaced, the strings accepted are
    exactly those obtained by substitution. *)
Theorem C36_replace (S V : list nfsa) (begin : Z) :
  Forall (fun g => g = [] \/ valid g) S -> Forall (fun f => f = [] \/ valid f) V -> 0 <= begin ->
  exists Ws ms mi,
    replace_fsa (splits_of S) (splits_of (concat S)) (concat (concat S)) (splits_of V) (splits_of (concat V)) (concat (concat V)) begin =
      Some (splits_of Ws, splits_of (concat Ws), concat (concat Ws), ms, mi) /\
    zlen Ws = zlen V /\ zlen ms = zlen (concat (concat Ws)) /\ zlen mi = zlen (concat (concat Ws)) /\
    forall k f, rd V k = Some f -> exists g, rd Ws k = Some g /\ (f = [] -> g = []) /\ (valid f -> valid g) /\
      is_replacement S begin V Ws ms mi k f g /\
      (1 <= begin -> Forall valid S -> forall v s, accepts_str g v s <-> exists w c0 c1, accepts_str f w c0 /\ subst S begin w v c1 /\ s = c0 + c1).
Proof.
  intros okS okV B. exists (Rs S begin V), (map (fun x => fst (snd x)) (rout S begin V)), (map (fun x => snd (snd x)) (rout S begin V)).
  split; [|split; [|split; [|split]]].
  - apply replace_fsa_ok. intros f a Hf Ha. rewrite Forall_forall in okV. apply (rdst_ok f); auto.
  - apply zlen_map.
  - rewrite zlen_map, <- (rarcs_out S begin V). symmetry. apply zlen_map.
  - rewrite zlen_map, <- (rarcs_out S begin V). symmetry. apply zlen_map.
  - intros k f Hk. assert (Vf : f = [] \/ valid f) by (rewrite Forall_forall in okV; apply okV; eapply rd_In; eauto).
    exists (replaced S begin f). split; [unfold Rs; rewrite rd_map, Hk; reflexivity|]. split; [intros ->; reflexivity|]. split; [|split].
    + intros Vf'. apply rvalid_G; auto; [apply Vf'|apply rdst_ok; auto|now apply last_none].
    + now apply rgeneral.
    + intros B1 okS1. now apply rlanguage.
Qed.
Print Assumptions C36_replace.

(** Two sources, the first with a choice and a loop, and a cyclic index FSA that uses
    both and also a symbol of its own. *)
Definition c36_s1 : nfsa := [[mkArc 0 1 7 1; mkArc 0 1 0 2]; [mkArc 1 1 8 3; mkArc 1 2 (-1) 4]; []].
Definition c36_s2 : nfsa := [[mkArc 0 1 (-1) 5]; []].
Definition c36_f : nfsa := [[mkArc 0 1 1 10; mkArc 0 2 3 20]; [mkArc 1 0 2 30; mkArc 1 2 0 40]; [mkArc 2 3 (-1) 50]; []].
Example C36_ex :
  Forall (fun g => g = [] \/ valid g) [c36_s1; c36_s2] /\ Forall valid [c36_s1; c36_s2] /\ Forall (fun f => f = [] \/ valid f) [[]; c36_f] /\
  subst_path [c36_s1; c36_s2] 1 c36_f [(0, [0; 2; 3]); (2, [0]); (1, []); (4, [])] /\
  subst [c36_s1; c36_s2] 1 [1; 2; 3] [7; 8; 3] 13 /\
  replace_fsa (splits_of [c36_s1; c36_s2]) (splits_of (concat [c36_s1; c36_s2])) (concat (concat [c36_s1; c36_s2]))
      (splits_of [[]; c36_f]) (splits_of (concat [[]; c36_f])) (concat (concat [[]; c36_f])) 1 =
    Some ([0; 0; 7], [0; 2; 4; 6; 8; 9; 10; 10],
          [mkArc 0 1 0 10; mkArc 0 5 3 20; mkArc 1 2 7 1; mkArc 1 2 0 2; mkArc 2 2 8 3; mkArc 2 3 0 4;
           mkArc 3 4 0 30; mkArc 3 5 0 40; mkArc 4 0 0 5; mkArc 5 6 (-1) 50],
          [-1; -1; 0; 1; 2; 3; -1; -1; 4; -1], [0; 1; -1; -1; -1; -1; 2; 3; -1; 4]).
Proof.
  assert (V1 : valid c36_s1) by (apply validb_ok; reflexivity). assert (V2 : valid c36_s2) by (apply validb_ok; reflexivity). assert (V3 : valid c36_f) by (apply validb_ok; reflexivity).
  split; [|split; [|split; [|split; [|split]]]]; auto.
  - split.
    + split; [reflexivity|]. repeat (eapply (ap_cons c36_f _ (mkArc _ _ _ _)); [reflexivity|]). constructor.
    + repeat constructor; (eexists; split; [reflexivity|cbn [snd]]); try reflexivity; (split; [reflexivity|]).
      * repeat (eapply (ap_cons c36_s1 _ (mkArc _ _ _ _)); [reflexivity|]). constructor.
      * repeat (eapply (ap_cons c36_s2 _ (mkArc _ _ _ _)); [reflexivity|]). constructor.
  - change [7; 8; 3] with ([7; 8] ++ ([] ++ [3])). change 13 with (8 + (5 + 0)). apply sub_rep with (g := c36_s1); [reflexivity| |].
    + exists [mkArc 0 1 7 1; mkArc 1 1 8 3; mkArc 1 2 (-1) 4]. split; [|split; reflexivity]. repeat (eapply path_cons with (a := mkArc _ _ _ _); [cbn; tauto|]). constructor.
    + apply sub_rep with (g := c36_s2); [reflexivity| |].
      * exists [mkArc 0 1 (-1) 5]. split; [|split; reflexivity]. repeat (eapply path_cons with (a := mkArc _ _ _ _); [cbn; tauto|]). constructor.
      * apply sub_keep; [|constructor]. change (zlen [c36_s1; c36_s2]) with 2. lia.
Qed.

(** An empty source accepts nothing, so no string containing its symbol should
    remain; but the arc is kept as an epsilon arc. *)
Theorem C36_empty_source_refuted : exists (S V : list nfsa) (f : nfsa) (w : list Z),
  S = [[]] /\ V = [f] /\ valid f /\
  (exists Ws ms mi g, replace_fsa (splits_of S) (splits_of (concat S)) (concat (concat S)) (splits_of V) (splits_of (concat V)) (concat (concat V)) 1 =
      Some (splits_of Ws, splits_of (concat Ws), concat (concat Ws), ms, mi) /\ Ws = [g] /\ accepts_str g w 0) /\
  ~ (exists u c0 c1, accepts_str f u c0 /\ subst S 1 u w c1).
Proof.
  pose (f := [[mkArc 0 1 1 0]; [mkArc 1 2 (-1) 0]; []]). exists [[]], [f], f, []. split; [reflexivity|]. split; [reflexivity|]. split; [apply validb_ok; reflexivity|]. split.
  - exists [[[mkArc 0 1 0 0]; [mkArc 1 2 (-1) 0]; []]], [-1; -1], [0; 1], [[mkArc 0 1 0 0]; [mkArc 1 2 (-1) 0]; []]. split; [reflexivity|]. split; [reflexivity|].
    exists [mkArc 0 1 0 0; mkArc 1 2 (-1) 0]. split; [|split; reflexivity]. repeat (eapply path_cons with (a := mkArc _ _ _ _); [cbn; tauto|]). constructor.
  - intros (u & c0 & c1 & (p & Hp & HL & _) & Hs). inversion Hs as [|x w v c Hx Hw|x g w v1 c v c' Hg Hu Hw]; subst.
    + inversion Hp as [|a p' t Ha Hp']; subst. destruct Ha as [<-|[<-|[]]]; discriminate.
    + assert (g = []) by (unfold rd in Hg; pose proof (rd_In _ _ _ Hg) as HI; destruct HI as [<-|[]]; reflexivity). subst g.
      destruct Hu as (q & Hq & HLq & _). inversion Hq as [|a q' t Ha Hq']; subst. destruct Ha.
Qed.
Print Assumptions C36_empty_source_refuted.

(** A negative beginning of the range can replace final arcs; the result is then not
    a valid FSA. *)
Theorem C36_negative_refuted : exists (f g : nfsa) (begin : Z) rs1 rs2 arcs ms mi,
  valid f /\ valid g /\
  replace_fsa (splits_of [g]) (splits_of (concat [g])) (concat (concat [g])) (splits_of [f]) (splits_of (concat [f])) (concat (concat [f])) begin = Some (rs1, rs2, arcs, ms, mi) /\
  forall a, In a arcs -> lab a <> -1.
Proof.
  exists c36_s2, c36_s2, (-1). do 5 eexists. split; [apply validb_ok; reflexivity|]. split; [apply validb_ok; reflexivity|]. split; [reflexivity|].
  intros a H. repeat (destruct H as [<-|H]; [discriminate|]). destruct H.
Qed.
