From Coq Require Import ZArith List Lia Bool Permutation.
From Coq Require Import ZifyBool ZifyNat.
From Verif Require Import Base RaggedModel RaggedSpec RaggedProofs FsaSpec FsaLemmas FsaOpsModel FsaOpsProofs FstSpec GraphModel GraphProofs TopoProofs.
Import ListNotations.
Open Scope Z_scope.

Definition lev_state (h d : Z) (syms : list Z) (s : Z) : list (arc * (Z * Z)) :=
  let c := at_or syms s in
  if s =? zlen syms + 1 then []
  else (mkArc s s 0 d, (0, d + h)) ::
       (if s =? zlen syms then [(mkArc s (s + 1) (-1) 0, (-1, 0))]
        else [(mkArc s (s + 1) 0 (- h), (c, 0)); (mkArc s (s + 1) c 0, (c, 0))]).
Definition lev_nested (h d : Z) (syms : list Z) : list (list (arc * (Z * Z))) :=
  tab (zlen syms + 2) (lev_state h d syms).
Lemma zlen_lev h d syms : zlen (lev_nested h d syms) = zlen syms + 2.
Proof. unfold lev_nested. pose proof (zlen_nonneg syms). apply zlen_tab. lia. Qed.

Lemma change_sublist_size_ok {A} (y : list (list Z)) (g : list Z -> list A) b :
  (forall l, In l y -> zlen (g l) = zlen l + b) ->
  change_sublist_size (splits_of y) b = splits_of (map g y).
Proof.
  intros H. rewrite (splits_map_sizes y g 1 b) by (intros l Hl; rewrite (H l Hl); lia).
  unfold change_sublist_size. apply list_ext_rd; [now rewrite !zlen_imap|].
  intros i Hi. rewrite !rd_imap. destruct (rd (splits_of y) i); cbn; f_equal; lia.
Qed.

Lemma arcs_of_sizes {A} (ts : list (list (list A))) a b (y : list (list Z)) (g : list Z -> list (list A)) :
  ts = map g y -> (forall l, In l y -> zlen (concat (g l)) = a * zlen l + b) ->
  zlen (concat (concat ts)) = a * zlen (concat y) + b * zlen y.
Proof.
  intros -> H. induction y as [|l y IH]; cbn [map concat].
  - change (zlen (@nil A)) with 0. change (zlen (@nil Z)) with 0. change (zlen (@nil (list Z))) with 0. lia.
  - rewrite concat_app, !zlen_app, zlen_cons, IH, (H l); [lia|now left|]. intros; apply H; now right.
Qed.

Lemma zlen_concat_tab_const {A} n (g : Z -> list A) c : 0 <= n -> (forall i, 0 <= i < n -> zlen (g i) = c) ->
  zlen (concat (tab n g)) = n * c.
Proof.
  intros Hn H. unfold tab. rewrite <- (Z2Nat.id n Hn) in *. clear Hn. induction (Z.to_nat n) as [|m IH]; [reflexivity|].
  replace (Z.of_nat (S m)) with (Z.of_nat m + 1) in * by lia. rewrite zrange_S, map_app, concat_app, zlen_app by lia.
  rewrite IH by (intros; apply H; lia). cbn [map concat]. rewrite app_nil_r, H by lia. lia.
Qed.

Lemma lev_graphs_ok h d (y : list (list Z)) : ~ In (-1) (concat y) -> ~ In 0 (concat y) ->
  levenshtein_graphs h d (splits_of y) (concat y) =
  Some (vec_of (map (lev_nested h d) y), map snd (concat (concat (map (lev_nested h d) y)))).
Proof.
  intros Hn Hz. unfold levenshtein_graphs. set (ts := map (lev_nested h d) y).
  rewrite (change_sublist_size_ok y (lev_nested h d)) by (intros; apply zlen_lev). fold ts.
  assert (Off : forall k, 0 <= k <= zlen y -> off1 ts k = off1 y k + 2 * k).
  { intros k Hk. unfold ts. rewrite (off1_tab_sizes y (lev_nested h d) 1 2); auto; [lia|]. intros. rewrite zlen_lev. lia. }
  assert (Get : forall k t r st, rd ts k = Some t -> rd t r = Some st ->
     exists l, rd y k = Some l /\ t = lev_nested h d l /\ 0 <= k < zlen y /\ 0 <= r < zlen l + 2 /\ st = lev_state h d l r).
  { intros k t r st Hk Hr. unfold ts in Hk. rewrite rd_map in Hk. destruct (rd y k) as [l|] eqn:El; [|discriminate].
    injection Hk as <-. apply rd_tab_Some in Hr as (Hr & ->). pose proof (rd_Some_bound _ _ _ El). exists l. auto. }
  rewrite (build_vec_ok ts).
  - rewrite vec_of_eq. cbn [fst v_arcs]. rewrite zlen_map.
    rewrite (arcs_of_sizes ts 3 2 y (lev_nested h d)); [|reflexivity|].
    { rewrite zlen_splits_of. replace (3 * zlen (concat y) + 2 * zlen y =? zlen (concat y) * 3 + (zlen y + 1 - 1) * 2) with true by lia.
      reflexivity. }
    intros l _. unfold lev_nested. pose proof (zlen_nonneg l). rewrite tab_app, concat_app, zlen_app by lia.
    rewrite (zlen_concat_tab_const _ _ 3) by (auto; intros i Hi; unfold lev_state; replace (i =? zlen l + 1) with false by lia;
      replace (i =? zlen l) with false by lia; reflexivity).
    unfold tab. change (zrange 2) with [0; 1]. cbn [map concat]. unfold lev_state.
    replace (zlen l + 0 =? zlen l + 1) with false by lia. replace (zlen l + 0 =? zlen l) with true by lia.
    replace (zlen l + 1 =? zlen l + 1) with true by lia. cbn [app]. change (zlen [_; _]) with 2. lia.
  - intros k t r st Hk Hr. destruct (pos_facts ts k t r st Hk Hr) as (P1 & P2 & P3 & P4 & P5).
    destruct (Get k t r st Hk Hr) as (l & G1 & -> & G2 & G3 & ->). rewrite zlen_lev in P3.
    unfold lev_num_arcs. rewrite P1, P3. unfold lev_state. f_equal.
    destruct (r =? zlen l + 1) eqn:E1.
    + replace (off1 ts k + r =? off1 ts k + (zlen l + 2) - 1 - 1) with false by lia.
      replace (off1 ts k + r =? off1 ts k + (zlen l + 2) - 1) with true by lia. reflexivity.
    + destruct (r =? zlen l) eqn:E2.
      * replace (off1 ts k + r =? off1 ts k + (zlen l + 2) - 1 - 1) with true by lia. reflexivity.
      * replace (off1 ts k + r =? off1 ts k + (zlen l + 2) - 1 - 1) with false by lia.
        replace (off1 ts k + r =? off1 ts k + (zlen l + 2) - 1) with false by lia. reflexivity.
  - intros k t r st j x Hk Hr Hj HI. destruct (pos_facts ts k t r st Hk Hr) as (P1 & P2 & P3 & P4 & P5).
    destruct (Get k t r st Hk Hr) as (l & G1 & -> & G2 & G3 & ->). rewrite zlen_lev in P3.
    unfold lev_arc. rewrite HI, P1, P2, P3, P4.
    replace (off1 ts k + r - off1 ts k) with r by lia.
    set (o := off1 (concat ts) (off1 ts k + r)). replace (o + j - o) with j by lia.
    pose proof (rd_Some_bound _ _ _ Hj) as Bj. unfold lev_state in Hj, Bj.
    destruct (r =? zlen l + 1) eqn:E1; [change (zlen (@nil (arc * (Z * Z)))) with 0 in Bj; lia|].
    replace (off1 ts k + r =? off1 ts k + (zlen l + 2) - 1) with false by lia.
    replace (off1 ts k + r =? off1 ts k + (zlen l + 2) - 1 - 1) with (r =? zlen l) by lia.
    destruct (r =? zlen l) eqn:E2; cbn [negb andb].
    + change (zlen _) with 2 in Bj. assert (J : j = 0 \/ j = 1) by lia. destruct J as [-> | ->]; injection Hj as <-.
      * change (0 =? 0) with true. cbn iota. do 3 f_equal. lia.
      * reflexivity.
    + rewrite Off by lia. replace (off1 y k + 2 * k + r - 2 * k) with (off1 y k + r) by lia.
      rewrite (at_or_concat y k l r G1) by lia.
      assert (N : at_or l r <> 0 /\ at_or l r <> -1).
      { split; intros E; [apply Hz|apply Hn]; rewrite <- E; eapply rd_In; apply (at_or_concat y k l r G1); lia. }
      replace (at_or l r =? 0) with false by lia. replace (at_or l r =? -1) with false by lia. cbn [negb andb].
      change (zlen _) with 3 in Bj. assert (J : j = 0 \/ j = 1 \/ j = 2) by lia. destruct J as [-> |[-> | ->]]; injection Hj as <-.
      * change (0 =? 0) with true. cbn iota. do 3 f_equal. lia.
      * reflexivity.
      * reflexivity.
Qed.

(** ** Alignments and the edit distance *)
Lemma align_nonneg x y ns ni : align x y ns ni -> 0 <= ns /\ 0 <= ni /\ ni <= zlen x + zlen y.
Proof.
  induction 1; rewrite ?zlen_cons; try lia. change (zlen (@nil Z)) with 0. lia.
Qed.
Lemma align_del_all x : align x [] 0 (zlen x).
Proof. induction x; [constructor|]. rewrite zlen_cons, Z.add_comm. now constructor. Qed.
Lemma align_ins_all y : align [] y 0 (zlen y).
Proof. induction y; [constructor|]. rewrite zlen_cons, Z.add_comm. now constructor. Qed.

Lemma edit_nil_r cs ci x : edit cs ci x [] = ci * zlen x.
Proof. destruct x; reflexivity. Qed.
Lemma edit_cons cs ci a x b y : edit cs ci (a :: x) (b :: y) =
  Z.min (edit cs ci x y + if a =? b then 0 else cs) (Z.min (edit cs ci x (b :: y) + ci) (edit cs ci (a :: x) y + ci)).
Proof. reflexivity. Qed.

Lemma edit_le cs ci : 0 <= cs -> 0 <= ci -> forall x y ns ni, align x y ns ni -> edit cs ci x y <= cs * ns + ci * ni.
Proof.
  intros Hc Hi x y ns ni H. induction H as [|a x y ns ni H IH|a b x y ns ni H IH|a x y ns ni H IH|b x y ns ni H IH].
  - cbn. change (zlen (@nil Z)) with 0. lia.
  - rewrite edit_cons, Z.eqb_refl. lia.
  - rewrite edit_cons. destruct (a =? b); lia.
  - destruct y as [|b y].
    + rewrite edit_nil_r in *. rewrite zlen_cons. lia.
    + rewrite edit_cons. lia.
  - destruct x as [|a x].
    + change (ci * zlen (b :: y) <= cs * ns + ci * (ni + 1)). change (ci * zlen y <= cs * ns + ci * ni) in IH.
      rewrite zlen_cons. lia.
    + rewrite edit_cons. lia.
Qed.
Lemma edit_attained cs ci x : forall y, exists ns ni, align x y ns ni /\ edit cs ci x y = cs * ns + ci * ni.
Proof.
  induction x as [|a x IHx]; intros y.
  - exists 0, (zlen y). split; [apply align_ins_all|]. change (ci * zlen y = cs * 0 + ci * zlen y). lia.
  - induction y as [|b y IHy].
    + exists 0, (zlen (a :: x)). split; [apply align_del_all|]. rewrite edit_nil_r. lia.
    + rewrite edit_cons. destruct (IHx y) as (n1 & m1 & A1 & E1). destruct (IHx (b :: y)) as (n2 & m2 & A2 & E2).
      destruct IHy as (n3 & m3 & A3 & E3). rewrite E1, E2, E3.
      destruct (Z.min_spec (cs * n1 + ci * m1 + (if a =? b then 0 else cs)) (Z.min (cs * n2 + ci * m2 + ci) (cs * n3 + ci * m3 + ci))) as [(_ & ->)|(_ & ->)].
      * destruct (a =? b) eqn:E.
        -- replace b with a by lia. exists n1, m1. split; [now constructor|lia].
        -- exists (n1 + 1), m1. split; [now constructor|lia].
      * destruct (Z.min_spec (cs * n2 + ci * m2 + ci) (cs * n3 + ci * m3 + ci)) as [(_ & ->)|(_ & ->)].
        -- exists n2, (m2 + 1). split; [now constructor|lia].
        -- exists n3, (m3 + 1). split; [now constructor|lia].
Qed.

(** ** Pairs of paths with the same labels *)

Section Lev.
  Variables h d : Z.
  Definition self_arc (s : Z) : arc * (Z * Z) := (mkArc s s 0 d, (0, d + h)).
  Definition sub_arc (s c : Z) : arc * (Z * Z) := (mkArc s (s + 1) 0 (- h), (c, 0)).
  Definition sym_arc (s c : Z) : arc * (Z * Z) := (mkArc s (s + 1) c 0, (c, 0)).
  Definition fin_arc (s : Z) : arc * (Z * Z) := (mkArc s (s + 1) (-1) 0, (-1, 0)).

  Lemma lev_in syms b : In b (concat (lev_nested h d syms)) <->
    exists s, 0 <= s <= zlen syms /\
      (b = self_arc s \/ (s = zlen syms /\ b = fin_arc s) \/
       (exists c, rd syms s = Some c /\ (b = sub_arc s c \/ b = sym_arc s c))).
  Proof.
    unfold lev_nested. rewrite in_concat_tab. pose proof (zlen_nonneg syms). unfold lev_state. split.
    - intros (s & Hs & Hb). destruct (s =? zlen syms + 1) eqn:E1; [destruct Hb|]. exists s. split; [lia|].
      destruct Hb as [<-|Hb]; [now left|]. right. destruct (s =? zlen syms) eqn:E2.
      + left. destruct Hb as [<-|[]]. split; auto; lia.
      + right. destruct (rd_in_bound syms s ltac:(lia)) as (c & Hc). exists c. unfold at_or in Hb. rewrite Hc in Hb.
        split; auto. destruct Hb as [<-|[<-|[]]]; auto.
    - intros (s & Hs & Hb). exists s. split; [lia|]. replace (s =? zlen syms + 1) with false by lia.
      destruct Hb as [->|[(E & ->)|(c & Hc & Hb)]].
      + now left.
      + right. replace (s =? zlen syms) with true by lia. now left.
      + pose proof (rd_Some_bound _ _ _ Hc). right. replace (s =? zlen syms) with false by lia. unfold at_or. rewrite Hc.
        destruct Hb as [->| ->]; cbn; auto.
  Qed.

  Lemma skipn_rd {A} (l : list A) s c : 0 <= s -> rd l s = Some c -> skipn (Z.to_nat s) l = c :: skipn (Z.to_nat (s + 1)) l.
  Proof.
    intros Hs H. replace (Z.to_nat (s + 1)) with (S (Z.to_nat s)) by lia. unfold rd in H. replace (s <? 0) with false in H by lia.
    revert H. generalize (Z.to_nat s) as n. clear. induction l as [|a l IH]; intros [|n] H; try discriminate.
    - cbn in H. injection H as ->. reflexivity.
    - cbn [nth_error] in H. cbn [skipn]. now rewrite (IH n H).
  Qed.
  Lemma skipn_end {A} (l : list A) : skipn (Z.to_nat (zlen l)) l = [].
  Proof. apply skipn_all2. unfold zlen. lia. Qed.

  Lemma lev_step syms s p t : tpath (concat (lev_nested h d syms)) s p t -> t = zlen syms + 1 -> 0 <= s <= zlen syms ->
    exists b p', p = b :: p' /\
      ((b = self_arc s /\ tpath (concat (lev_nested h d syms)) s p' t) \/
       (s = zlen syms /\ b = fin_arc s /\ p' = []) \/
       (exists c, rd syms s = Some c /\ s < zlen syms /\ (b = sub_arc s c \/ b = sym_arc s c) /\ tpath (concat (lev_nested h d syms)) (s + 1) p' t)).
  Proof.
    intros H Ht Hs. apply tpath_inv in H as [(-> & E)|(b & p' & -> & Hb & E & Hp)]; [lia|].
    exists b, p'. split; auto. apply lev_in in Hb as (s' & Hs' & [->|[(E1 & ->)|(c & Hc & Hb)]]).
    - cbn in E. subst s'. left. auto.
    - cbn in E. subst s. right. left. split; [exact E1|]. split; [reflexivity|]. cbn [fst dst fin_arc] in Hp.
      apply tpath_inv in Hp as [(-> & _)|(b & p'' & -> & Hb & E0 & Hp0)]; auto. exfalso.
      apply lev_in in Hb as (s'' & Hs'' & [->|[(_ & ->)|(c & Hc & [->| ->])]]); cbn in E0; lia.
    - pose proof (rd_Some_bound _ _ _ Hc). assert (s' = s) by (destruct Hb as [->| ->]; exact E). subst s'.
      right. right. exists c. split; auto. split; [lia|]. split; auto. destruct Hb as [->| ->]; exact Hp.
  Qed.

  Variables x y : list Z.
  Hypothesis Hx : forall a, In a x -> a <> 0 /\ a <> -1.
  Hypothesis Hy : forall a, In a y -> a <> 0 /\ a <> -1.
  Let Tx := concat (lev_nested h d x).
  Let Ty := concat (lev_nested h d y).

  Definition jfacts (s1 s2 : Z) (p q : list (arc * (Z * Z))) (ns ni nl : Z) : Prop :=
    align (skipn (Z.to_nat s1) x) (skipn (Z.to_nat s2) y) ns ni /\ 0 <= nl /\
    tscore p + tscore q = - (2 * h) * ns - (h - d) * ni + 2 * d * nl /\
    offs p + offs q = (d + h) * (ni + 2 * nl) /\
    strip (aux1 p) = skipn (Z.to_nat s1) x ++ [-1] /\ strip (aux1 q) = skipn (Z.to_nat s2) y ++ [-1].

  Lemma joint_fwd p : forall q s1 s2, tpath Tx s1 p (zlen x + 1) -> tpath Ty s2 q (zlen y + 1) ->
    0 <= s1 <= zlen x -> 0 <= s2 <= zlen y -> ilabels p = ilabels q -> exists ns ni nl, jfacts s1 s2 p q ns ni nl.
  Proof.
    unfold jfacts. induction p as [|b p IH]; intros q s1 s2 Hp Hq H1 H2 HL.
    { apply lev_step in Hp as (b & p' & E & _); auto. discriminate. }
    destruct (lev_step _ _ _ _ Hp eq_refl H1) as (b' & p' & E & Hb). injection E as <- <-.
    destruct (lev_step _ _ _ _ Hq eq_refl H2) as (c & q' & -> & Hc). clear Hp Hq.
    cbn [ilabels map] in HL. injection HL as HL1 HL2. fold (ilabels p) (ilabels q') in HL2.
    destruct Hb as [(-> & Hp)|[(E1 & -> & ->)|(a & Ha & Ha' & Hb & Hp)]].
    - destruct Hc as [(-> & Hq)|[(E2 & -> & ->)|(a2 & Ha2 & Ha2' & Hc & Hq)]]; [|discriminate HL1|].
      + destruct (IH q' s1 s2) as (ns & ni & nl & J1 & J2 & J3 & J4 & J5 & J6); auto.
        exists ns, ni, (nl + 1). split; auto. split; [lia|]. unfold tscore, offs, aux1 in *. cbn [map zsum self_arc fst snd sc]. cbn.
        split; [lia|]. split; [lia|]. auto.
      + destruct Hc as [->| ->]. 2:{ exfalso. cbn in HL1. destruct (Hy a2); auto. eapply rd_In; eauto. }
        destruct (IH q' s1 (s2 + 1)) as (ns & ni & nl & J1 & J2 & J3 & J4 & J5 & J6); auto; [lia|].
        exists ns, (ni + 1), nl. rewrite (skipn_rd y s2 a2) by (auto; lia). split; [now constructor|]. split; [lia|].
        unfold tscore, offs, aux1 in *. cbn [map fst snd sc self_arc sub_arc]. cbn [zsum fold_right].
        destruct (Hy a2); [eapply rd_In; eauto|].
        split; [cbn; lia|]. split; [cbn; lia|]. rewrite strip_0, strip_pos, J5, J6 by auto. auto.
    - destruct Hc as [(-> & Hq)|[(E2 & -> & ->)|(a2 & Ha2 & Ha2' & Hc & Hq)]]; [discriminate HL1| |].
      + subst s1 s2. exists 0, 0, 0. rewrite !skipn_end. split; [constructor|]. repeat split; cbn; lia.
      + exfalso. destruct (Hy a2); [eapply rd_In; eauto|]. destruct Hc as [->| ->]; cbn in HL1; congruence.
    - destruct (Hx a) as (Na1 & Na2); [eapply rd_In; eauto|].
      destruct Hc as [(-> & Hq)|[(E2 & -> & ->)|(a2 & Ha2 & Ha2' & Hc & Hq)]].
      + destruct Hb as [->| ->]. 2:{ exfalso. cbn in HL1. auto. }
        destruct (IH q' (s1 + 1) s2) as (ns & ni & nl & J1 & J2 & J3 & J4 & J5 & J6); auto; [lia|].
        exists ns, (ni + 1), nl. rewrite (skipn_rd x s1 a) by (auto; lia). split; [now constructor|]. split; [lia|].
        unfold tscore, offs, aux1 in *. cbn [map fst snd sc self_arc sub_arc]. cbn [zsum fold_right].
        split; [cbn; lia|]. split; [cbn; lia|]. rewrite strip_0, strip_pos, J5, J6 by auto. auto.
      + exfalso. destruct Hb as [->| ->]; cbn in HL1; congruence.
      + destruct (Hy a2) as (Nb1 & Nb2); [eapply rd_In; eauto|].
        destruct (IH q' (s1 + 1) (s2 + 1)) as (ns & ni & nl & J1 & J2 & J3 & J4 & J5 & J6); auto; try lia.
        rewrite (skipn_rd x s1 a), (skipn_rd y s2 a2) by (auto; lia).
        unfold tscore, offs, aux1 in *.
        destruct Hb as [->| ->]; destruct Hc as [->| ->]; cbn in HL1; try congruence.
        * exists (ns + 1), ni, nl. split; [now constructor|]. split; [lia|].
          cbn [map fst snd sc sub_arc]. cbn [zsum fold_right].
          split; [cbn; lia|]. split; [cbn; lia|]. rewrite !strip_pos, J5, J6 by auto. auto.
        * subst a2. exists ns, ni, nl. split; [now constructor|]. split; [lia|].
          cbn [map fst snd sc sym_arc]. cbn [zsum fold_right].
          split; [cbn; lia|]. split; [cbn; lia|]. rewrite !strip_pos, J5, J6 by auto. auto.
  Qed.

  Lemma joint_bwd u v ns ni : align u v ns ni -> forall s1 s2, 0 <= s1 <= zlen x -> 0 <= s2 <= zlen y ->
    skipn (Z.to_nat s1) x = u -> skipn (Z.to_nat s2) y = v ->
    exists p q, tpath Tx s1 p (zlen x + 1) /\ tpath Ty s2 q (zlen y + 1) /\ ilabels p = ilabels q /\
      tscore p + tscore q = - (2 * h) * ns - (h - d) * ni /\ offs p + offs q = (d + h) * ni.
  Proof.
    assert (SK : forall l s (a : Z) u, 0 <= s <= zlen l -> skipn (Z.to_nat s) l = a :: u ->
       rd l s = Some a /\ s < zlen l /\ skipn (Z.to_nat (s + 1)) l = u).
    { intros l s a u0 Hs E. assert (s < zlen l).
      { destruct (Z.eq_dec s (zlen l)) as [->|]; [|lia]. rewrite skipn_end in E. discriminate. }
      destruct (rd_in_bound l s ltac:(lia)) as (a' & Ha). rewrite (skipn_rd l s a') in E by (auto; lia). injection E as <- <-. auto. }
    assert (SN : forall (l : list Z) s, 0 <= s <= zlen l -> skipn (Z.to_nat s) l = [] -> s = zlen l).
    { intros l s Hs E. destruct (Z.eq_dec s (zlen l)); auto. destruct (rd_in_bound l s ltac:(lia)) as (a & Ha).
      rewrite (skipn_rd l s a) in E by (auto; lia). discriminate. }
    assert (IX : forall l s, 0 <= s <= zlen l -> In (self_arc s) (concat (lev_nested h d l))).
    { intros l s Hs. apply lev_in. exists s. auto. }
    assert (IS : forall l s a, rd l s = Some a -> In (sub_arc s a) (concat (lev_nested h d l)) /\ In (sym_arc s a) (concat (lev_nested h d l))).
    { intros l s a Ha. pose proof (rd_Some_bound _ _ _ Ha). split; apply lev_in; exists s; (split; [lia|]); right; right; exists a; auto. }
    unfold offs, tscore.
    induction 1 as [|a u v ns ni H IH|a b u v ns ni H IH|a u v ns ni H IH|b u v ns ni H IH]; intros s1 s2 H1 H2 E1 E2.
    - apply SN in E1; auto. apply SN in E2; auto. subst s1 s2.
      exists [fin_arc (zlen x)], [fin_arc (zlen y)]. split; [|split].
      + apply tpath_step; [apply lev_in; exists (zlen x); auto|reflexivity|constructor].
      + apply tpath_step; [apply lev_in; exists (zlen y); auto|reflexivity|constructor].
      + repeat split; cbn; lia.
    - apply SK in E1 as (R1 & B1 & E1); auto. apply SK in E2 as (R2 & B2 & E2); auto.
      destruct (IH (s1 + 1) (s2 + 1)) as (p & q & J1 & J2 & J3 & J4 & J5); auto; try lia.
      exists (sym_arc s1 a :: p), (sym_arc s2 a :: q). split; [|split].
      + apply tpath_step; [apply IS; auto|reflexivity|exact J1].
      + apply tpath_step; [apply IS; auto|reflexivity|exact J2].
      + cbn [ilabels map fst lab sym_arc snd sc]. cbn [zsum fold_right]. fold (ilabels p) (ilabels q). rewrite J3. split; [reflexivity|].
        split; cbn; lia.
    - apply SK in E1 as (R1 & B1 & E1); auto. apply SK in E2 as (R2 & B2 & E2); auto.
      destruct (IH (s1 + 1) (s2 + 1)) as (p & q & J1 & J2 & J3 & J4 & J5); auto; try lia.
      exists (sub_arc s1 a :: p), (sub_arc s2 b :: q). split; [|split].
      + apply tpath_step; [apply IS; auto|reflexivity|exact J1].
      + apply tpath_step; [apply IS; auto|reflexivity|exact J2].
      + cbn [ilabels map fst lab sub_arc snd sc]. cbn [zsum fold_right]. fold (ilabels p) (ilabels q). rewrite J3. split; [reflexivity|].
        split; cbn; lia.
    - apply SK in E1 as (R1 & B1 & E1); auto.
      destruct (IH (s1 + 1) s2) as (p & q & J1 & J2 & J3 & J4 & J5); auto; try lia.
      exists (sub_arc s1 a :: p), (self_arc s2 :: q). split; [|split].
      + apply tpath_step; [apply IS; auto|reflexivity|exact J1].
      + apply tpath_step; [apply IX; auto|reflexivity|exact J2].
      + cbn [ilabels map fst lab sub_arc self_arc snd sc]. cbn [zsum fold_right]. fold (ilabels p) (ilabels q). rewrite J3. split; [reflexivity|].
        split; cbn; lia.
    - apply SK in E2 as (R2 & B2 & E2); auto.
      destruct (IH s1 (s2 + 1)) as (p & q & J1 & J2 & J3 & J4 & J5); auto; try lia.
      exists (self_arc s1 :: p), (sub_arc s2 b :: q). split; [|split].
      + apply tpath_step; [apply IX; auto|reflexivity|exact J1].
      + apply tpath_step; [apply IS; auto|reflexivity|exact J2].
      + cbn [ilabels map fst lab sub_arc self_arc snd sc]. cbn [zsum fold_right]. fold (ilabels p) (ilabels q). rewrite J3. split; [reflexivity|].
        split; cbn; lia.
  Qed.
End Lev.
