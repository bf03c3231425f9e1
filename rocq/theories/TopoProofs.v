From Coq Require Import ZArith List Lia Bool Permutation.
From Coq Require Import ZifyBool ZifyNat.
From Verif Require Import Base RaggedModel RaggedSpec RaggedProofs FsaSpec FsaLemmas FsaOpsModel FsaOpsProofs FstSpec GraphModel GraphProofs.
Import ListNotations.
Open Scope Z_scope.

Lemma tab_mul {A} a b (g : Z -> Z -> A) : 0 <= a -> 0 < b ->
  tab (a * b) (fun i => g (i / b) (i mod b)) = concat (tab a (fun i => tab b (g i))).
Proof.
  intros Ha Hb. rewrite <- (Z2Nat.id a Ha). clear Ha. induction (Z.to_nat a) as [|n IH].
  - reflexivity.
  - replace (Z.of_nat (S n)) with (Z.of_nat n + 1) by lia.
    rewrite (tab_app (Z.of_nat n) 1) by lia. rewrite concat_app, <- IH.
    replace ((Z.of_nat n + 1) * b) with (Z.of_nat n * b + b) by lia. rewrite tab_app by lia. f_equal.
    change (tab 1 (fun i => tab b (g (Z.of_nat n + i)))) with [tab b (g (Z.of_nat n + 0))]. cbn [concat]. rewrite app_nil_r.
    apply tab_ext. intros i Hi. replace (Z.of_nat n * b + i) with (i + Z.of_nat n * b) by lia.
    rewrite Z.div_add, Z.mod_add by lia. rewrite Z.div_small, Z.mod_small by lia. f_equal; lia.
Qed.

(** row splits from row ids when the row ids are the sources of the arcs *)
Lemma splits_by_src {B} (T : list (list (arc * B))) n : src_ok (map (map fst) T) -> zlen T = n ->
  row_ids_to_row_splits (map (fun t => src (fst t)) (concat T)) n = Some (splits_of T).
Proof.
  intros H <-. rewrite <- (map_map fst src), concat_map, <- ids_of_src by auto.
  rewrite <- (zlen_map (map fst) T), splits_of_row_ids. now rewrite splits_of_map_map.
Qed.

(** ** Standard topology *)
Section Std.
  Variable M : Z.
  Hypothesis HM : 0 <= M.
  Definition std_arc (i j : Z) : tarc :=
    let l := if j =? M + 1 then -1 else j in (mkArc i j l 0, if i =? j then 0 else l).
  Definition std_nested : nfst := tab (M + 1) (fun i => tab (M + 2) (std_arc i)) ++ [[]].

  Lemma zlen_std : zlen std_nested = M + 2.
  Proof. unfold std_nested. rewrite zlen_app, zlen_tab by lia. change (zlen [[]]) with 1. lia. Qed.
  Lemma std_src_ok : src_ok (fsa_of std_nested).
  Proof.
    intros i st a Hi Ha. unfold fsa_of in Hi. rewrite rd_map in Hi. destruct (rd std_nested i) as [t|] eqn:E; [|discriminate].
    injection Hi as <-. apply in_map_iff in Ha as (b & <- & Hb). unfold std_nested in E. rewrite rd_app in E.
    destruct (i <? _).
    - apply rd_tab_Some in E as (_ & ->). unfold tab in Hb. apply in_map_iff in Hb as (j & <- & _). reflexivity.
    - rewrite rd_cons in E. destruct (_ =? 0); [|now rewrite rd_nil in E]. injection E as <-. destruct Hb.
  Qed.
  Lemma std_ok : ctc_topo M false = Some (flat (fsa_of std_nested), aux_of std_nested).
  Proof.
    unfold ctc_topo. set (out := tab _ _).
    assert (E : map (fun t => (fst (fst t), snd (fst t))) out = concat std_nested).
    { unfold out, std_nested. rewrite concat_app. cbn [concat]. rewrite !app_nil_r.
      rewrite map_tab. replace (M + 2 - 1) with (M + 1) by lia. rewrite <- tab_mul by lia.
      apply tab_ext. intros i _. unfold ctc_topo_arc, std_arc. cbn [fst snd]. replace (M + 2 - 1) with (M + 1) by lia. reflexivity. }
    assert (E3 : map snd out = map (fun t => src (fst t)) (concat std_nested)).
    { rewrite <- E, map_map. unfold out. rewrite !map_tab. apply tab_ext. reflexivity. }
    rewrite E3, (splits_by_src std_nested) by (auto using std_src_ok; rewrite zlen_std; lia).
    f_equal. unfold flat, fsa_of, aux_of. rewrite splits_of_map_map, <- concat_map, <- E, !map_map. reflexivity.
  Qed.
  Lemma std_in b : In b (concat std_nested) <-> exists i j, 0 <= i <= M /\ 0 <= j <= M + 1 /\ b = std_arc i j.
  Proof.
    unfold std_nested. rewrite concat_app. cbn [concat]. rewrite !app_nil_r. rewrite in_concat_tab. split.
    - intros (i & Hi & H). unfold tab in H. apply in_map_iff in H as (j & <- & Hj). apply in_zrange in Hj. exists i, j. lia || (repeat split; lia).
    - intros (i & j & Hi & Hj & ->). exists i. split; [lia|]. unfold tab. apply in_map. apply in_zrange. lia.
  Qed.
  Let T := concat std_nested.
  Let fin := M + 1.
  Definition std_reads (s : Z) (x y : list Z) (sco : Z) : Prop :=
    exists p, tpath T s p fin /\ ilabels p = x ++ [-1] /\ strip (olabels p) = y ++ [-1] /\ tscore p = sco.
  Lemma std_reads_ok x : forall i y s, 0 <= i <= M ->
    std_reads i x y s <-> Forall (fun a => 0 <= a <= M) x /\ crel false i x y /\ s = 0.
  Proof.
    induction x as [|a x IH]; intros i y s Hi.
    - split.
      + intros (p & H1 & H2 & H3 & H4). apply tpath_inv in H1 as [(-> & _)|(b & p' & -> & Hb & E & Hp)]; [discriminate|].
        apply std_in in Hb as (i' & j & Hi' & Hj & ->). cbn in E. subst i'. cbn [ilabels map app fst lab std_arc] in H2.
        injection H2 as E1 E2. destruct p' as [|c p']; [|discriminate E2].
        destruct (j =? M + 1) eqn:Ej; [|lia]. cbn [olabels map std_arc snd tscore sc fst zsum] in H3, H4. rewrite Ej in H3.
        replace (i =? j) with false in H3 by lia. cbn in H3. cbn [crel]. split; [constructor|]. cbn in H4. split; [|lia].
        destruct y as [|? [|]]; auto; discriminate.
      + intros (_ & H & ->). cbn in H. subst y. exists [std_arc i (M + 1)]. split.
        * apply tpath_step; [apply std_in; exists i, (M + 1); repeat split; lia|reflexivity|]. constructor.
        * unfold std_arc. cbn. rewrite Z.eqb_refl. replace (i =? M + 1) with false by lia. auto.
    - split.
      + intros (p & H1 & H2 & H3 & H4). apply tpath_inv in H1 as [(-> & _)|(b & p' & -> & Hb & E & Hp)]; [discriminate|].
        apply std_in in Hb as (i' & j & Hi' & Hj & ->). cbn in E. subst i'. cbn [fst dst std_arc] in Hp.
        cbn [ilabels map app fst lab std_arc] in H2. injection H2 as E1 E2. fold (ilabels p') in E2.
        destruct (j =? M + 1) eqn:Ej.
        { apply tpath_inv in Hp as [(-> & _)|(b & p'' & -> & Hb & E & Hp)]; [destruct x; discriminate|].
          apply std_in in Hb as (i' & j' & Hi'' & _ & ->). cbn in E. lia. }
        subst a. cbn [olabels map std_arc snd fst] in H3. rewrite Ej in H3. fold (olabels p') in H3.
        assert (H4' : tscore p' = s) by (unfold tscore in *; cbn in H4; lia).
        cbn [crel]. destruct (i =? j) eqn:Eij.
        * rewrite strip_0 in H3. assert (R : std_reads j x y s) by (exists p'; auto).
          apply IH in R as (F1 & F2 & F3); [|lia]. split; [constructor; auto; lia|]. split; auto.
          destruct (j =? 0) eqn:E0; [now replace 0 with j by lia|]. left. split; [lia|auto].
        * destruct (j =? 0) eqn:E0.
          -- replace j with 0 in * by lia. rewrite strip_0 in H3. assert (R : std_reads 0 x y s) by (exists p'; auto).
             apply IH in R as (F1 & F2 & F3); [|lia]. split; [constructor; auto; lia|]. auto.
          -- rewrite strip_pos in H3 by lia. destruct y as [|c y].
             { cbn in H3. injection H3 as H3 _. lia. }
             cbn in H3. injection H3 as -> H3. assert (R : std_reads c x y s) by (exists p'; auto).
             apply IH in R as (F1 & F2 & F3); [|lia]. split; [constructor; auto; lia|]. split; auto.
             right. split; [right; lia|]. eauto.
      + intros (F & H & ->). inversion F as [|? ? Ha F']; subst. cbn [crel] in H.
        assert (Hb : In (std_arc i a) T) by (apply std_in; exists i, a; repeat split; lia).
        assert (ST : forall y', std_reads a x y' 0 -> std_reads i (a :: x) ((if i =? a then [] else if a =? 0 then [] else [a]) ++ y') 0).
        { intros y' (p & P1 & P2 & P3 & P4). exists (std_arc i a :: p). split; [apply tpath_step; auto|].
          unfold std_arc. cbn [ilabels olabels map fst snd lab]. fold (ilabels p) (olabels p). rewrite P2.
          replace (a =? M + 1) with false by lia. split; [reflexivity|]. split.
          - rewrite strip_cons, P3. destruct (i =? a); [reflexivity|]. now rewrite app_assoc.
          - unfold tscore in *. cbn. lia. }
        destruct (a =? 0) eqn:E0.
        * replace a with 0 in * by lia. specialize (ST y). destruct (i =? 0); apply ST; apply IH; auto; lia.
        * destruct H as [(E & H)|([|Hm] & y' & -> & H)]; [|discriminate|].
          -- specialize (ST y). replace (i =? a) with true in ST by lia. apply ST. apply IH; auto.
          -- specialize (ST y'). replace (i =? a) with false in ST by lia. apply ST. apply IH; auto.
  Qed.
  Lemma std_relates x y s : relates std_nested x y s <-> Forall (fun a => 0 <= a <= M) x /\ y = collapse x /\ s = 0.
  Proof.
    unfold relates. rewrite zlen_std. replace (M + 2 - 1) with fin by (unfold fin; lia).
    change (std_reads 0 x y s <-> Forall (fun a => 0 <= a <= M) x /\ y = collapse x /\ s = 0).
    rewrite std_reads_ok by lia. rewrite crel_false_0. intuition.
  Qed.
End Std.

(** ** Modified topology *)
Section Mod.
  Variable M : Z.
  Hypothesis HM : 0 <= M.
  Definition mod_leave (i : Z) : tarc := let d := i + 1 in let l := if d =? M + 1 then -1 else d in (mkArc 0 d l 0, l).
  Definition mod_other (k : Z) : list tarc := [(mkArc (k + 1) (k + 1) (k + 1) 0, 0); (mkArc (k + 1) 0 (k + 1) 0, 0)].
  Definition mod_nested : nfst :=
    [tab (M + 1) (fun i => (mkArc 0 0 i 0, i)) ++ tab (M + 1) mod_leave] ++ tab M mod_other ++ [[]].

  Lemma zlen_mod : zlen mod_nested = M + 2.
  Proof. unfold mod_nested. rewrite !zlen_app, zlen_tab by lia. change (zlen [[]]) with 1. change (zlen [_]) with 1. lia. Qed.
  Lemma mod_src_ok : src_ok (fsa_of mod_nested).
  Proof.
    intros i st a Hi Ha. unfold fsa_of in Hi. rewrite rd_map in Hi. destruct (rd mod_nested i) as [t|] eqn:E; [|discriminate].
    injection Hi as <-. apply in_map_iff in Ha as (b & <- & Hb). unfold mod_nested in E. cbn [app] in E. rewrite rd_cons in E.
    destruct (i =? 0) eqn:E0.
    - injection E as <-. apply in_app_or in Hb as [Hb|Hb]; unfold tab in Hb; apply in_map_iff in Hb as (j & <- & _); cbn; lia.
    - rewrite rd_app in E. destruct (i - 1 <? _).
      + apply rd_tab_Some in E as (_ & ->). destruct Hb as [<-|[<-|[]]]; cbn; lia.
      + rewrite rd_cons in E. clear E0. destruct (_ =? 0); [|now rewrite rd_nil in E]. injection E as <-. destruct Hb.
  Qed.
  Lemma tab_2 {A} n (g : Z -> Z -> A) : 0 <= n ->
    tab (n * 2) (fun i => g (i / 2) (i mod 2)) = concat (tab n (fun i => [g i 0; g i 1])).
  Proof. intros H. rewrite tab_mul by lia. f_equal. Qed.
  Lemma mod_ok : ctc_topo M true = Some (flat (fsa_of mod_nested), aux_of mod_nested).
  Proof.
    unfold ctc_topo. set (out := tab _ _).
    assert (E : map (fun t => (fst (fst t), snd (fst t))) out = concat mod_nested).
    { unfold out, mod_nested. rewrite !concat_app. cbn [concat]. rewrite !app_nil_r.
      rewrite map_tab. replace ((M + 2 - 1) * 2 + (M + 2 - 2) * 2) with ((M + 1) + ((M + 1) + M * 2)) by lia.
      rewrite (tab_app (M + 1) (M + 1 + M * 2)) by lia. rewrite (tab_app (M + 1) (M * 2)) by lia. rewrite app_assoc. f_equal; [f_equal|].
      - apply tab_ext. intros i Hi. unfold ctc_topo_mod_arc. replace (i <? M + 2 - 1) with true by lia. reflexivity.
      - apply tab_ext. intros i Hi. unfold ctc_topo_mod_arc, mod_leave. replace (M + 1 + i <? M + 2 - 1) with false by lia.
        replace (M + 1 + i <? (M + 2 - 1) * 2) with true by lia. cbn [fst snd].
        replace (M + 1 + i - (M + 2 - 1) + 1) with (i + 1) by lia. replace (M + 2 - 1) with (M + 1) by lia. reflexivity.
      - rewrite (tab_ext (M * 2) _ (fun i => (fun k r => (mkArc (k + 1) (if r =? 0 then k + 1 else 0) (k + 1) 0, 0)) (i / 2) (i mod 2))).
        + rewrite (tab_2 M (fun k r => (mkArc (k + 1) (if r =? 0 then k + 1 else 0) (k + 1) 0, 0))) by lia. reflexivity.
        + intros i Hi. unfold ctc_topo_mod_arc. replace (M + 1 + (M + 1 + i) <? M + 2 - 1) with false by lia.
          replace (M + 1 + (M + 1 + i) <? (M + 2 - 1) * 2) with false by lia. cbn [fst snd].
          replace (M + 1 + (M + 1 + i) - (M + 2 - 1) * 2) with i by lia. reflexivity. }
    assert (E3 : map snd out = map (fun t => src (fst t)) (concat mod_nested)).
    { rewrite <- E, map_map. unfold out. rewrite !map_tab. apply tab_ext. intros i _. unfold ctc_topo_mod_arc.
      destruct (_ <? _); [reflexivity|]. destruct (_ <? _); reflexivity. }
    rewrite E3, (splits_by_src mod_nested) by (auto using mod_src_ok; rewrite zlen_mod; lia).
    f_equal. unfold flat, fsa_of, aux_of. rewrite splits_of_map_map, <- concat_map, <- E, !map_map. reflexivity.
  Qed.
  Lemma mod_in b : In b (concat mod_nested) <->
    (exists i, 0 <= i <= M /\ b = (mkArc 0 0 i 0, i)) \/ (exists d, 1 <= d <= M /\ b = (mkArc 0 d d 0, d)) \/
    b = (mkArc 0 (M + 1) (-1) 0, -1) \/ (exists d, 1 <= d <= M /\ (b = (mkArc d d d 0, 0) \/ b = (mkArc d 0 d 0, 0))).
  Proof.
    unfold mod_nested. rewrite !concat_app. cbn [concat]. rewrite !app_nil_r, !in_app_iff, in_concat_tab.
    unfold tab. rewrite !in_map_iff. split.
    - intros [[(i & <- & Hi)|(i & <- & Hi)]|(i & Hi & H)].
      + apply in_zrange in Hi. left. exists i. split; auto. lia.
      + apply in_zrange in Hi. unfold mod_leave. destruct (i + 1 =? M + 1) eqn:E.
        * right. right. left. replace (i + 1) with (M + 1) by lia. reflexivity.
        * right. left. exists (i + 1). split; auto. lia.
      + right. right. right. exists (i + 1). split; [lia|]. destruct H as [<-|[<-|[]]]; auto.
    - intros [(i & Hi & ->)|[(d & Hd & ->)|[->|(d & Hd & H)]]].
      + left. left. exists i. split; auto. apply in_zrange. lia.
      + left. right. exists (d - 1). split; [|apply in_zrange; lia]. unfold mod_leave. replace (d - 1 + 1) with d by lia.
        replace (d =? M + 1) with false by lia. reflexivity.
      + left. right. exists M. split; [|apply in_zrange; lia]. unfold mod_leave. rewrite Z.eqb_refl. reflexivity.
      + right. exists (d - 1). split; [lia|]. unfold mod_other. replace (d - 1 + 1) with d by lia. destruct H as [->| ->]; cbn; auto.
  Qed.
  Let T := concat mod_nested.
  Let fin := M + 1.
  Let okx (x : list Z) := Forall (fun a => 0 <= a <= M) x.

  Lemma blocks_cons a n x y : (1 <= n)%nat -> blocks x y -> blocks (repeat a n ++ x) ((if a =? 0 then [] else [a]) ++ y).
  Proof.
    intros Hn (bs & B1 & -> & ->). exists ((a, n) :: bs). split; [constructor; auto|]. split; [reflexivity|].
    cbn [map fst]. now rewrite strip_cons.
  Qed.

  Lemma mod_fwd p : forall s, tpath T s p fin -> 0 <= s < fin ->
    exists x y, ilabels p = x ++ [-1] /\ strip (olabels p) = y ++ [-1] /\ tscore p = 0 /\ okx x /\
      (if s =? 0 then blocks x y else exists n x', (1 <= n)%nat /\ x = repeat s n ++ x' /\ blocks x' y).
  Proof.
    induction p as [|b p IH]; intros s Hp Hs; apply tpath_inv in Hp as [(E & E')|(b' & p' & E & Hb & Es & Hp)]; try discriminate; [lia|].
    injection E as <- <-. apply mod_in in Hb as [(i & Hi & ->)|[(d & Hd & ->)|[->|(d & Hd & [->| ->])]]]; cbn [fst dst src] in Hp, Es.
    - subst s. destruct (IH 0 Hp) as (x & y & I1 & I2 & I3 & I4 & I5); [unfold fin; lia|]. cbn in I5.
      exists (i :: x), ((if i =? 0 then [] else [i]) ++ y). cbn [ilabels map fst lab olabels snd]. fold (ilabels p) (olabels p). rewrite I1.
      split; [reflexivity|]. split; [rewrite strip_cons, I2; now rewrite app_assoc|]. split; [unfold tscore in *; cbn; lia|].
      split; [constructor; auto|]. cbn. apply (blocks_cons i 1); auto.
    - subst s. destruct (IH d Hp) as (x & y & I1 & I2 & I3 & I4 & I5); [unfold fin; lia|].
      replace (d =? 0) with false in I5 by lia. destruct I5 as (n & x' & N1 & N2 & N3).
      exists (d :: x), (d :: y). cbn [ilabels map fst lab olabels snd]. fold (ilabels p) (olabels p). rewrite I1.
      split; [reflexivity|]. split; [rewrite strip_cons, I2; now replace (d =? 0) with false by lia|]. split; [unfold tscore in *; cbn; lia|].
      split; [constructor; auto; lia|]. cbn. subst x. pose proof (blocks_cons d (S n) x' y ltac:(lia) N3) as B.
      replace (d =? 0) with false in B by lia. exact B.
    - subst s. apply tpath_inv in Hp as [(-> & _)|(c & p' & -> & Hc & Ec & _)].
      + exists [], []. split; [reflexivity|]. split; [reflexivity|]. split; [reflexivity|]. split; [constructor|]. exists []. repeat split. constructor.
      + exfalso. apply mod_in in Hc as [(i & Hi & ->)|[(d & Hd & ->)|[->|(d & Hd & [->| ->])]]]; cbn in Ec; lia.
    - subst s. destruct (IH d Hp) as (x & y & I1 & I2 & I3 & I4 & I5); [unfold fin; lia|].
      replace (d =? 0) with false in * by lia. destruct I5 as (n & x' & N1 & N2 & N3).
      exists (d :: x), y. cbn [ilabels map fst lab olabels snd]. fold (ilabels p) (olabels p). rewrite I1.
      split; [reflexivity|]. split; [exact I2|]. split; [unfold tscore in *; cbn; lia|].
      split; [constructor; auto; lia|]. exists (S n), x'. split; [lia|]. subst x. auto.
    - subst s. destruct (IH 0 Hp) as (x & y & I1 & I2 & I3 & I4 & I5); [unfold fin; lia|].
      replace (d =? 0) with false in * by lia. cbn in I5.
      exists (d :: x), y. cbn [ilabels map fst lab olabels snd]. fold (ilabels p) (olabels p). rewrite I1.
      split; [reflexivity|]. split; [exact I2|]. split; [unfold tscore in *; cbn; lia|].
      split; [constructor; auto; lia|]. exists 1%nat, x. auto.
  Qed.

  Lemma mod_tail d k q t : 1 <= d <= M -> tpath T 0 q t -> ilabels q = ilabels q ->
    exists p, tpath T d p t /\ ilabels p = repeat d (S k) ++ ilabels q /\ strip (olabels p) = strip (olabels q) /\ tscore p = tscore q.
  Proof.
    intros Hd Hq _. induction k as [|k (p & I1 & I2 & I3 & I4)].
    - exists ((mkArc d 0 d 0, 0) :: q). split.
      + apply tpath_step; auto. apply mod_in. right. right. right. exists d. auto.
      + repeat split.
    - exists ((mkArc d d d 0, 0) :: p). split.
      + apply tpath_step; auto. apply mod_in. right. right. right. exists d. auto.
      + cbn [ilabels map fst lab olabels snd]. fold (ilabels p) (olabels p). rewrite I2. split; [reflexivity|]. split; [exact I3|].
        unfold tscore in *. cbn. lia.
  Qed.
  Lemma mod_bwd (bs : list (Z * nat)) : Forall (fun b => (1 <= snd b)%nat) bs ->
    okx (concat (map (fun b => repeat (fst b) (snd b)) bs)) ->
    exists p, tpath T 0 p fin /\ ilabels p = concat (map (fun b => repeat (fst b) (snd b)) bs) ++ [-1] /\
      strip (olabels p) = strip (map fst bs) ++ [-1] /\ tscore p = 0.
  Proof.
    induction bs as [|[a n] bs IH]; intros B O.
    - exists [(mkArc 0 (M + 1) (-1) 0, -1)]. split.
      + apply tpath_step; [apply mod_in; auto|reflexivity|constructor].
      + repeat split.
    - inversion B as [|? ? B1 B2]; subst. cbn [map concat fst snd] in *. unfold okx in O. apply Forall_app in O as (O1 & O2).
      destruct (IH B2 O2) as (q & Q1 & Q2 & Q3 & Q4).
      assert (Ha : 0 <= a <= M). { destruct n; [lia|]. now inversion O1. }
      destruct (Z.eq_dec a 0) as [->|Ha0].
      + rewrite strip_0. clear B O1 B1. induction n as [|n (p & I1 & I2 & I3 & I4)].
        * exists q. auto.
        * exists ((mkArc 0 0 0 0, 0) :: p). split; [apply tpath_step; auto; apply mod_in; left; exists 0; auto|].
          cbn [ilabels map fst lab olabels snd]. fold (ilabels p) (olabels p). rewrite I2. split; [reflexivity|]. split; [exact I3|].
          unfold tscore in *. cbn. lia.
      + rewrite strip_pos by auto. destruct n as [|[|n]]; [cbn in B1; lia| |].
        * exists ((mkArc 0 0 a 0, a) :: q). split; [apply tpath_step; auto; apply mod_in; left; exists a; auto|].
          cbn [ilabels map fst lab olabels snd repeat app]. fold (ilabels q) (olabels q). rewrite Q2. split; [reflexivity|].
          rewrite strip_pos by auto. rewrite Q3. split; [reflexivity|]. unfold tscore in *. cbn. lia.
        * destruct (mod_tail a n q fin ltac:(lia) Q1 eq_refl) as (p & P1 & P2 & P3 & P4).
          exists ((mkArc 0 a a 0, a) :: p). split; [apply tpath_step; auto; apply mod_in; right; left; exists a; split; auto; lia|].
          cbn [ilabels map fst lab olabels snd]. fold (ilabels p) (olabels p). rewrite P2, Q2. split; [cbn; now rewrite <- app_assoc|].
          rewrite strip_pos by auto. rewrite P3, Q3. split; [reflexivity|]. unfold tscore in *. cbn. lia.
  Qed.
  Lemma mod_relates x y s : relates mod_nested x y s <-> Forall (fun a => 0 <= a <= M) x /\ blocks x y /\ s = 0.
  Proof.
    unfold relates. rewrite zlen_mod. replace (M + 2 - 1) with fin by (unfold fin; lia). split.
    - intros (p & H1 & H2 & H3 & H4). destruct (mod_fwd p 0 H1) as (x' & y' & I1 & I2 & I3 & I4 & I5); [unfold fin; lia|].
      cbn in I5. rewrite I1 in H2. apply app_tail_inv in H2. rewrite I2 in H3. apply app_tail_inv in H3. subst. auto.
    - intros (F & (bs & B1 & -> & ->) & ->). apply mod_bwd; auto.
  Qed.
End Mod.

(** ** Trivial graph *)
Definition triv_nested (M : Z) : nfst :=
  [tab M (fun i => (mkArc 0 0 (i + 1) 0, i + 1)) ++ [(mkArc 0 1 (-1) 0, -1)]; []].
Lemma triv_ok M : 0 <= M -> trivial_graph M = (flat (fsa_of (triv_nested M)), aux_of (triv_nested M)).
Proof.
  intros HM. unfold trivial_graph, flat, fsa_of, aux_of, triv_nested. cbn [map concat]. rewrite !app_nil_r.
  assert (L : zlen (map fst (tab M (fun i => (mkArc 0 0 (i + 1) 0, i + 1)) ++ [(mkArc 0 1 (-1) 0, -1)])) = M + 1).
  { rewrite zlen_map, zlen_app, zlen_tab by lia. change (zlen [_]) with 1. lia. }
  f_equal; [f_equal|].
  - unfold splits_of. cbn [map]. rewrite L. unfold exsum. cbn [exsum_from]. change (zlen (@nil arc)) with 0.
    replace (0 + (M + 1)) with (M + 1) by lia. replace (M + 1 + 0) with (M + 1) by lia. reflexivity.
  - rewrite map_app, map_tab, tab_app by lia. f_equal.
    + apply tab_ext. intros i Hi. replace (i =? M + 1 - 1) with false by lia. reflexivity.
    + unfold tab. cbn [zrange]. change (zrange 1) with [0]. cbn [map]. replace (M + 0 =? M + 1 - 1) with true by lia. reflexivity.
  - rewrite map_app, map_tab, tab_app by lia. f_equal.
    + apply tab_ext. intros i Hi. replace (i =? M + 1 - 1) with false by lia. reflexivity.
    + unfold tab. change (zrange 1) with [0]. cbn [map]. replace (M + 0 =? M + 1 - 1) with true by lia. reflexivity.
Qed.
Lemma triv_in M b : 0 <= M -> In b (concat (triv_nested M)) <->
  (exists i, 1 <= i <= M /\ b = (mkArc 0 0 i 0, i)) \/ b = (mkArc 0 1 (-1) 0, -1).
Proof.
  intros HM. unfold triv_nested. cbn [concat]. rewrite !app_nil_r, in_app_iff. unfold tab. rewrite in_map_iff. split.
  - intros [(i & <- & Hi)|[<-|[]]]; auto. apply in_zrange in Hi. left. exists (i + 1). split; auto. lia.
  - intros [(i & Hi & ->)| ->]; [left|right; now left]. exists (i - 1). replace (i - 1 + 1) with i by lia. split; auto. apply in_zrange. lia.
Qed.
Lemma triv_relates M x y s : 0 <= M -> relates (triv_nested M) x y s <-> Forall (fun a => 1 <= a <= M) x /\ y = x /\ s = 0.
Proof.
  intros HM. unfold relates. change (zlen (triv_nested M) - 1) with 1. revert y s. induction x as [|a x IH]; intros y s.
  - split.
    + intros (p & H1 & H2 & H3 & H4). apply tpath_inv in H1 as [(-> & _)|(b & p' & -> & Hb & E & Hp)]; [discriminate|].
      apply triv_in in Hb as [(i & Hi & ->)| ->]; auto; cbn in H2; [injection H2 as E1 E2; lia|]. injection H2 as E2. destruct p'; [|discriminate].
      cbn in H3, H4. split; [constructor|]. split; [|lia]. destruct y as [|? [|]]; auto; discriminate.
    + intros (_ & -> & ->). exists [(mkArc 0 1 (-1) 0, -1)]. split; [|repeat split].
      apply tpath_step; [apply triv_in; auto|reflexivity|constructor].
  - split.
    + intros (p & H1 & H2 & H3 & H4). apply tpath_inv in H1 as [(-> & _)|(b & p' & -> & Hb & E & Hp)]; [discriminate|].
      apply triv_in in Hb as [(i & Hi & ->)| ->]; auto.
      * cbn [ilabels map fst lab app] in H2. injection H2 as <- E2. cbn [olabels map snd] in H3. rewrite strip_pos in H3 by lia.
        destruct y as [|c y]; [cbn in H3; injection H3 as H3 _; lia|]. injection H3 as <- H3.
        destruct (proj1 (IH y s)) as (F1 & F2 & F3).
        { exists p'. split; [exact Hp|]. split; [exact E2|]. split; [exact H3|]. unfold tscore in *. cbn in H4. lia. }
        subst. split; [constructor; auto|]. auto.
      * exfalso. cbn [fst dst] in Hp. apply tpath_inv in Hp as [(-> & _)|(c & p'' & -> & Hc & E' & _)].
        -- cbn in H2. destruct x; discriminate.
        -- apply triv_in in Hc as [(i & Hi & ->)| ->]; auto; discriminate.
    + intros (F & -> & ->). inversion F as [|? ? Ha F']; subst.
      destruct (proj2 (IH x 0)) as (p & P1 & P2 & P3 & P4); [auto|].
      exists ((mkArc 0 0 a 0, a) :: p). split; [apply tpath_step; auto; apply triv_in; auto; left; exists a; auto|].
      cbn [ilabels map fst lab olabels snd]. fold (ilabels p) (olabels p). rewrite P2, strip_pos, P3 by lia.
      split; [reflexivity|]. split; [reflexivity|]. unfold tscore in *. cbn. lia.
Qed.
