(** * Paths of an expanded FSA *)
From Coq Require Import ZArith List Lia Bool.
From Verif Require Import Base RaggedModel RaggedSpec RaggedProofs FsaSpec FsaLemmas EpsLoopProofs ScoreSpec ShortestSpec ScorePaths IntersectPaths ExpandModel ExpandProofs.
Import ListNotations.
Open Scope Z_scope.

Section Paths.
  Variable f : list (list xarc).
  Let G := expanded f.
  Let F : nfsa := map (map fst) f.

  Definition ai (i foo j m : Z) : Z := off1 (concat (concat (U f))) (lst f i foo + j) + m.

  Lemma at_coords i s foo O j row m l :
    rd f i = Some s -> rd (blk i s) foo = Some O -> rd O j = Some row -> rd row m = Some l ->
    rd (concat (U f)) (off1 (U f) i + foo) = Some O /\ rd (concat (concat (U f))) (lst f i foo + j) = Some row /\
    rd (concat (concat (concat (U f)))) (ai i foo j m) = Some l /\ rd (all_arcs G) (ai i foo j m) = Some (K f l).
  Proof.
    intros H1 H2 H3 H4.
    assert (E1 : rd (concat (U f)) (off1 (U f) i + foo) = Some O) by (apply (rd_concat_off _ _ (blk i s) foo O); auto; now apply rd_U).
    assert (E2 : rd (concat (concat (U f))) (lst f i foo + j) = Some row) by (apply (rd_concat_off _ _ O j row); auto).
    assert (E3 : rd (concat (concat (concat (U f)))) (ai i foo j m) = Some l) by (apply (rd_concat_off _ _ row m l); auto).
    repeat split; auto. unfold G, expanded, all_arcs. rewrite <- concat_map, rd_map, E3. reflexivity.
  Qed.

  (** the first arc of a chain and its inner arcs *)
  Lemma first_arc_at i s x e : rd f i = Some s -> rd s x = Some e ->
    rd (all_arcs G) (ai i 0 0 x) = Some (K f (i, 0, 0, x)) /\ karc f (i, 0, 0, x) = e.
  Proof.
    intros H1 H2. pose proof (rd_Some_bound _ _ _ H2). split.
    - apply (at_coords i s 0 [map (fun m => (i, 0, 0, m)) (zrange (zlen s))] 0 (map (fun m => (i, 0, 0, m)) (zrange (zlen s)))); auto.
      rewrite rd_map, rd_zrange by lia. reflexivity.
    - unfold karc. cbn [fst]. rewrite H1. cbn [kx]. change (0 =? 0) with true. cbv iota. now rewrite H2.
  Qed.

  Lemma inner_arc_at i s x e j : rd f i = Some s -> rd s x = Some e -> 0 <= j < zlen (snd e) - 1 ->
    rd (all_arcs G) (ai i (x + 1) j 0) = Some (K f (i, x + 1, j, 0)) /\ karc f (i, x + 1, j, 0) = e.
  Proof.
    intros H1 H2 B. pose proof (rd_Some_bound _ _ _ H2). split.
    - apply (at_coords i s (x + 1) (map (fun j => [(i, x + 1, j, 0)]) (zrange (Z.max (zlen (snd e) - 1) 0))) j [(i, x + 1, j, 0)]); auto.
      + rewrite rd_blk_S by lia. rewrite H2. reflexivity.
      + rewrite rd_map, rd_zrange by lia. reflexivity.
    - unfold karc. cbn [fst]. rewrite H1. cbn [kx]. replace (x + 1 =? 0) with false by lia. replace (x + 1 - 1) with x by lia. now rewrite H2.
  Qed.

  (** the arcs, by coordinates *)
  Lemma arc_inv q b : rd (all_arcs G) q = Some b -> exists i s x e, rd f i = Some s /\ rd s x = Some e /\
    ((q = ai i 0 0 x /\ b = K f (i, 0, 0, x)) \/
     (exists j, 0 <= j < zlen (snd e) - 1 /\ q = ai i (x + 1) j 0 /\ b = K f (i, x + 1, j, 0))).
  Proof.
    intros H. unfold G, expanded, all_arcs in H. rewrite <- concat_map, rd_map in H.
    destruct (rd (concat (concat (concat (U f)))) q) as [l|] eqn:E; [|discriminate]. injection H as <-.
    destruct (rd_concat_inv _ _ _ E) as (o & row & m & H1 & H2 & -> & _).
    destruct (rd_concat_inv _ _ _ H1) as (g & O & j & K1 & K2 & -> & _).
    destruct (rd_concat_inv _ _ _ K1) as (i & B & foo & L1 & L2 & -> & _).
    pose proof (rd_Some_bound _ _ _ L1) as Bi. rewrite zlen_U in Bi. destruct (rd_in_bound f i Bi) as (s & Hs).
    rewrite (rd_U f i s Hs) in L1. injection L1 as <-.
    destruct (leaf_inv i s foo O j row m l L2 K2 H2) as [-> [(-> & -> & Bm)|(Hfoo & -> & e & He & Bj)]].
    - destruct (rd_in_bound s m Bm) as (e & He). exists i, s, m, e. auto.
    - exists i, s, (foo - 1), e. replace (foo - 1 + 1) with foo by lia. split; [auto|]. split; [auto|]. right. exists j. auto.
  Qed.

  (** a state number determines its coordinates *)
  Lemma st_rd i s foo O j : rd f i = Some s -> rd (blk i s) foo = Some O -> 0 <= j < zlen O ->
    rd (ids_of (concat (U f))) (lst f i foo + j) = Some (off1 (U f) i + foo) /\ rd (ids_of (U f)) (off1 (U f) i + foo) = Some i.
  Proof.
    intros H1 H2 B. destruct (rd_in_bound O j B) as (row & Hrow).
    destruct (rd_concat_off (U f) i (blk i s) foo O (rd_U f i s H1) H2) as [E1 E2]. split; auto.
    apply (rd_concat_off (concat (U f)) _ O j row E1 Hrow).
  Qed.

  Lemma st_inj i s foo O j i' s' foo' O' j' :
    rd f i = Some s -> rd (blk i s) foo = Some O -> 0 <= j < zlen O ->
    rd f i' = Some s' -> rd (blk i' s') foo' = Some O' -> 0 <= j' < zlen O' ->
    lst f i foo + j = lst f i' foo' + j' -> i = i' /\ foo = foo' /\ j = j'.
  Proof.
    intros H1 H2 B H1' H2' B' E. destruct (st_rd i s foo O j H1 H2 B) as [E1 E2]. destruct (st_rd i' s' foo' O' j' H1' H2' B') as [E1' E2'].
    rewrite E in E1. assert (Eg : off1 (U f) i + foo = off1 (U f) i' + foo') by congruence. rewrite Eg in E2.
    assert (i = i') by congruence. subst i'. assert (foo = foo') by lia. subst foo'. split; auto. split; auto. lia.
  Qed.

  Lemma blk0_len i s : rd (blk i s) 0 = Some [map (fun m => (i, 0, 0, m)) (zrange (zlen s))] /\ 0 <= 0 < zlen [map (fun m => (i, 0, 0, m)) (zrange (zlen s))].
  Proof. split; [reflexivity|]. change (zlen [_]) with 1. lia. Qed.
  Lemma blkS_len i s x e j : rd s x = Some e -> 0 <= j < zlen (snd e) - 1 ->
    rd (blk i s) (x + 1) = Some (map (fun j => [(i, x + 1, j, 0)]) (zrange (Z.max (zlen (snd e) - 1) 0))) /\
    0 <= j < zlen (map (fun j => [(i, x + 1, j, 0)]) (zrange (Z.max (zlen (snd e) - 1) 0))).
  Proof.
    intros H B. pose proof (rd_Some_bound _ _ _ H). split; [rewrite rd_blk_S by lia; rewrite H; reflexivity|]. rewrite zlen_map, zlen_zrange by lia. lia.
  Qed.

  Lemma lst_inj i i' s s' : rd f i = Some s -> rd f i' = Some s' -> lst f i 0 = lst f i' 0 -> i = i'.
  Proof.
    intros H H' E. destruct (blk0_len i s) as [B1 B2]. destruct (blk0_len i' s') as [B1' B2'].
    destruct (st_inj i s 0 _ 0 i' s' 0 _ 0 H B1 B2 H' B1' B2') as [? _]; auto. lia.
  Qed.

  (** ** Chains *)
  Definition rest (i x n j : Z) : list Z := map (fun d => ai i (x + 1) (j + d) 0) (zrange (n - 1 - j)).
  Definition chain (i x n : Z) : list Z := ai i 0 0 x :: rest i x n 0.
  Definition chain_of (a : Z) : list Z :=
    match rd (ids_of f) a, rd (concat f) a with
    | Some i, Some e => chain i (a - off1 f i) (zlen (snd e))
    | _, _ => []
    end.
  Definition E (p : list Z) : list Z := flat_map chain_of p.

  Lemma chain_of_at i s x e : rd f i = Some s -> rd s x = Some e -> chain_of (off1 f i + x) = chain i x (zlen (snd e)).
  Proof. intros H1 H2. unfold chain_of. destruct (rd_concat_off f i s x e H1 H2) as [-> ->]. f_equal. lia. Qed.

  Lemma rest_cons i x n j : j < n - 1 -> rest i x n j = ai i (x + 1) j 0 :: rest i x n (j + 1).
  Proof.
    intros H. unfold rest. replace (n - 1 - j) with (1 + (n - 1 - (j + 1))) by lia. rewrite zrange_app by lia. cbn [map]. rewrite map_app, map_map. cbn [map zrange].
    change (zrange 1) with [0]. cbn [map app]. f_equal; [f_equal; lia|]. apply map_ext. intros d. f_equal. lia.
  Qed.
  Lemma rest_nil i x n j : n - 1 <= j -> rest i x n j = [].
  Proof. intros H. unfold rest. destruct (Z.eq_dec (n - 1 - j) 0) as [->|N]; [reflexivity|]. unfold zrange. replace (Z.to_nat (n - 1 - j)) with 0%nat by lia. reflexivity. Qed.

  Lemma K_first i s x e : rd f i = Some s -> rd s x = Some e ->
    src (K f (i, 0, 0, x)) = lst f i 0 /\
    dst (K f (i, 0, 0, x)) = (if zlen (snd e) <=? 1 then lst f (dst (fst e)) 0 else lst f i (x + 1)) /\
    lab (K f (i, 0, 0, x)) = (if negb (lab (fst e) =? -1) then lab (fst e) else if zlen (snd e) <=? 1 then -1 else 0) /\
    sc (K f (i, 0, 0, x)) = sc (fst e).
  Proof.
    intros H1 H2. destruct (first_arc_at i s x e H1 H2) as [_ Ka]. unfold K. rewrite Ka. destruct e as [a ls]. cbn [kpos kx fst snd src dst lab sc].
    change (0 =? 0) with true. cbv iota. change (0 + 1) with 1. rewrite !Z.add_0_r. auto.
  Qed.
  Lemma K_inner i s x e j : rd f i = Some s -> rd s x = Some e -> 0 <= j < zlen (snd e) - 1 ->
    src (K f (i, x + 1, j, 0)) = lst f i (x + 1) + j /\
    dst (K f (i, x + 1, j, 0)) = (if zlen (snd e) - 1 <=? j + 1 then lst f (dst (fst e)) 0 else lst f i (x + 1) + (j + 1)) /\
    lab (K f (i, x + 1, j, 0)) = (if negb (lab (fst e) =? -1) then 0 else if zlen (snd e) - 1 <=? j + 1 then -1 else 0) /\
    sc (K f (i, x + 1, j, 0)) = 0.
  Proof.
    intros H1 H2 B. pose proof (rd_Some_bound _ _ _ H2). destruct (inner_arc_at i s x e j H1 H2 B) as [_ Ka]. unfold K. rewrite Ka. destruct e as [a ls]. cbn [kpos kx fst snd src dst lab sc] in *.
    replace (x + 1 =? 0) with false by lia. replace (j + 1 =? 0) with false by lia. cbv iota. replace (x + 1 - 1 + 1) with (x + 1) by lia.
    replace (zlen ls <=? j + 1 + 1) with (zlen ls - 1 <=? j + 1) by lia. auto.
  Qed.

  Lemma rest_path i s x e : rd f i = Some s -> rd s x = Some e -> forall d j, 0 <= j -> zlen (snd e) - 1 - j = Z.of_nat d -> (0 < d)%nat ->
    apath G (lst f i (x + 1) + j) (rest i x (zlen (snd e)) j) (lst f (dst (fst e)) 0).
  Proof.
    intros H1 H2. induction d as [|d IH]; intros j Hj Hd P; [lia|]. rewrite rest_cons by lia.
    destruct (inner_arc_at i s x e j H1 H2 ltac:(lia)) as [Ha _]. destruct (K_inner i s x e j H1 H2 ltac:(lia)) as (S1 & D1 & _).
    rewrite <- S1. apply ap_cons with (1 := Ha). rewrite D1. destruct (zlen (snd e) - 1 <=? j + 1) eqn:C.
    - rewrite rest_nil by lia. constructor.
    - apply IH; lia.
  Qed.

  Lemma chain_path i s x e : rd f i = Some s -> rd s x = Some e -> apath G (lst f i 0) (chain i x (zlen (snd e))) (lst f (dst (fst e)) 0).
  Proof.
    intros H1 H2. unfold chain. destruct (first_arc_at i s x e H1 H2) as [Ha _]. destruct (K_first i s x e H1 H2) as (S1 & D1 & _).
    rewrite <- S1. apply ap_cons with (1 := Ha). rewrite D1. destruct (zlen (snd e) <=? 1) eqn:C.
    - rewrite rest_nil by lia. constructor.
    - rewrite <- (Z.add_0_r (lst f i (x + 1))). apply (rest_path i s x e H1 H2 (Z.to_nat (zlen (snd e) - 1))); lia.
  Qed.

  Hypothesis srcF : src_ok F.
  Hypothesis dstF : forall a, In a (concat f) -> 0 <= dst (fst a) < zlen f.

  Lemma arcs_F i s x e : rd f i = Some s -> rd s x = Some e -> rd (all_arcs F) (off1 f i + x) = Some (fst e) /\ src (fst e) = i /\ 0 <= dst (fst e) < zlen f.
  Proof.
    intros H1 H2. split; [|split].
    - unfold all_arcs, F. rewrite <- concat_map, rd_map. destruct (rd_concat_off f i s x e H1 H2) as [-> _]. reflexivity.
    - apply (srcF i (map fst s)); [unfold F; rewrite rd_map, H1; reflexivity|]. apply in_map. eapply rd_In; eauto.
    - apply dstF. apply in_concat. exists s. split; eapply rd_In; eauto.
  Qed.

  Lemma E_path s p t : apath F s p t -> apath G (lst f s 0) (E p) (lst f t 0).
  Proof.
    induction 1 as [s|a arc p t Ha H IH]; [constructor|]. unfold E. cbn [flat_map]. apply apath_app. exists (lst f (dst arc) 0). split; [|exact IH].
    unfold all_arcs, F in Ha. rewrite <- concat_map, rd_map in Ha. destruct (rd (concat f) a) as [e|] eqn:Ee; [|discriminate]. injection Ha as <-.
    destruct (rd_concat_inv _ _ _ Ee) as (i & st & x & H1 & H2 & -> & _). rewrite (chain_of_at i st x e H1 H2).
    destruct (arcs_F i st x e H1 H2) as (_ & -> & _). now apply (chain_path i st x e).
  Qed.

  (** from an inner state there is only one way on *)
  Lemma rest_forced i s x e t st : rd f i = Some s -> rd s x = Some e -> rd f t = Some st -> forall d j q, 0 <= j -> zlen (snd e) - 1 - j = Z.of_nat d -> (0 < d)%nat ->
    apath G (lst f i (x + 1) + j) q (lst f t 0) ->
    exists q', q = rest i x (zlen (snd e)) j ++ q' /\ apath G (lst f (dst (fst e)) 0) q' (lst f t 0).
  Proof.
    intros H1 H2 Ht. pose proof (rd_Some_bound _ _ _ H2) as Bx. induction d as [|d IH]; intros j q Hj Hd P H; [lia|].
    destruct (blkS_len i s x e j H2 ltac:(lia)) as [B1 B2].
    inversion H as [u Eu Eq Et|q0 b q' t' Hb Hq Es Eq Et]; subst.
    - exfalso. destruct (blk0_len t st) as [B1' B2'].
      destruct (st_inj i s (x + 1) _ j t st 0 _ 0 H1 B1 B2 Ht B1' B2') as (_ & ? & _); lia.
    - destruct (arc_inv q0 b Hb) as (i' & s' & x' & e' & H1' & H2' & [(-> & ->)|(j' & Bj' & -> & ->)]).
      + exfalso. destruct (K_first i' s' x' e' H1' H2') as (S1 & _). rewrite S1 in Es. destruct (blk0_len i' s') as [B1' B2'].
        destruct (st_inj i s (x + 1) _ j i' s' 0 _ 0 H1 B1 B2 H1' B1' B2') as (_ & ? & _); lia.
      + destruct (K_inner i' s' x' e' j' H1' H2' Bj') as (S1 & _). rewrite S1 in Es. pose proof (rd_Some_bound _ _ _ H2') as Bx'.
        destruct (blkS_len i' s' x' e' j' H2' Bj') as [B1' B2'].
        destruct (st_inj i s (x + 1) _ j i' s' (x' + 1) _ j' H1 B1 B2 H1' B1' B2') as (-> & Ex & ->); [lia|]. replace x' with x in * by lia.
        replace s' with s in * by congruence. replace e' with e in * by congruence. clear B1' B2' H1' H2' Bx'.
        destruct (K_inner i' s x e j' H1 H2 ltac:(lia)) as (_ & D1 & _). rewrite D1 in Hq. rewrite rest_cons by lia.
        destruct (zlen (snd e) - 1 <=? j' + 1) eqn:C.
        * exists q'. rewrite rest_nil by lia. auto.
        * destruct (IH (j' + 1) q' ltac:(lia) ltac:(lia) ltac:(lia) Hq) as (q'' & -> & Hq''). exists q''. auto.
  Qed.

  Lemma E_onto n : forall q s ss t st, (length q <= n)%nat -> rd f s = Some ss -> rd f t = Some st -> apath G (lst f s 0) q (lst f t 0) ->
    exists p, apath F s p t /\ q = E p.
  Proof.
    induction n as [|n IH]; intros q s ss t st Hn Hs Ht H.
    - destruct q; [|simpl in Hn; lia]. inversion H; subst. exists []. split; [|reflexivity]. rewrite (lst_inj s t ss st) by auto. constructor.
    - inversion H as [u Eu Eq Et|q0 b q' t' Hb Hq Es Eq Et]; subst.
      + exists []. split; [|reflexivity]. rewrite (lst_inj s t ss st) by auto. constructor.
      + destruct (blk0_len s ss) as [B1 B2]. destruct (arc_inv q0 b Hb) as (i & s' & x & e & H1 & H2 & [(-> & ->)|(j & Bj & -> & ->)]).
        2:{ exfalso. destruct (K_inner i s' x e j H1 H2 Bj) as (S1 & _). rewrite S1 in Es. pose proof (rd_Some_bound _ _ _ H2).
            destruct (blkS_len i s' x e j H2 Bj) as [B1' B2']. destruct (st_inj s ss 0 _ 0 i s' (x + 1) _ j Hs B1 B2 H1 B1' B2') as (_ & ? & _); lia. }
        destruct (K_first i s' x e H1 H2) as (S1 & D1 & _). rewrite S1 in Es. rewrite (lst_inj s i ss s') by auto.
        destruct (arcs_F i s' x e H1 H2) as (Fa & Sa & Da). destruct (rd_in_bound f _ Da) as (sd & Hsd).
        assert (exists q'', q' = rest i x (zlen (snd e)) 0 ++ q'' /\ apath G (lst f (dst (fst e)) 0) q'' (lst f t 0)) as (q'' & -> & Hq'').
        { rewrite D1 in Hq. destruct (zlen (snd e) <=? 1) eqn:C.
          - exists q'. rewrite rest_nil by lia. auto.
          - rewrite <- (Z.add_0_r (lst f i (x + 1))) in Hq. apply (rest_forced i s' x e t st H1 H2 Ht (Z.to_nat (zlen (snd e) - 1))) in Hq; auto; lia. }
        simpl in Hn. rewrite app_length in Hn. destruct (IH q'' (dst (fst e)) sd t st ltac:(lia) Hsd Ht Hq'') as (p & Hp & ->).
        exists ((off1 f i + x) :: p). split.
        * pose proof (ap_cons F _ _ _ _ Fa Hp) as HH. rewrite Sa in HH. exact HH.
        * unfold E. cbn [flat_map]. rewrite (chain_of_at i s' x e H1 H2). reflexivity.
  Qed.

  Lemma lst_0 : lst f 0 0 = 0.
  Proof. unfold lst. change (off1 (U f) 0) with 0. reflexivity. Qed.

  (** ** The whole FSA *)
  Hypothesis last_empty : rd f (zlen f - 1) = Some [].

  Lemma final_G : zlen G - 1 = lst f (zlen f - 1) 0.
  Proof.
    pose proof (rd_Some_bound _ _ _ last_empty) as B.
    unfold G, expanded. rewrite zlen_map. rewrite <- (off1_all (concat (U f))), <- (off1_all (U f)), zlen_U.
    replace (zlen f) with (zlen f - 1 + 1) at 1 by lia. rewrite (off1_next (U f) _ (blk (zlen f - 1) [])) by (now apply rd_U).
    rewrite zlen_blk. change (1 + zlen (@nil xarc)) with 1. unfold lst. rewrite Z.add_0_r.
    rewrite (off1_next (concat (U f)) _ [[]]); [change (zlen [[]]) with 1; lia|].
    replace (off1 (U f) (zlen f - 1)) with (off1 (U f) (zlen f - 1) + 0) by lia.
    apply (rd_concat_off (U f) _ (blk (zlen f - 1) [])); [now apply rd_U|reflexivity].
  Qed.

  Lemma successful_iff q : successful G q <-> exists p, successful F p /\ q = E p.
  Proof.
    pose proof (rd_Some_bound _ _ _ last_empty) as B. destruct (rd_in_bound f 0 ltac:(lia)) as (s0 & H0).
    assert (LF : zlen F = zlen f) by apply zlen_map.
    assert (LG : 0 < zlen G).
    { pose proof final_G. unfold lst in *. pose proof (off1_nonneg (concat (U f)) (off1 (U f) (zlen f - 1) + 0)). lia. }
    unfold successful, nstates. rewrite LF. rewrite final_G. split.
    - intros [_ H]. rewrite <- lst_0 in H. destruct (E_onto (length q) q 0 s0 (zlen f - 1) [] (le_n _) H0 last_empty H) as (p & Hp & ->). exists p. split; [split; [lia|exact Hp]|reflexivity].
    - intros (p & [_ Hp] & ->). split; [exact LG|]. pose proof (E_path _ _ _ Hp) as HH. rewrite lst_0 in HH. exact HH.
  Qed.

  (** labels and scores *)
  Lemma arcs_at_app g p p' : arcs_at g (p ++ p') = arcs_at g p ++ arcs_at g p'.
  Proof. unfold arcs_at. apply flat_map_app. Qed.

  Lemma strip_app u v : strip (u ++ v) = strip u ++ strip v.
  Proof. apply filter_app. Qed.

  Lemma rest_attr i s x e : rd f i = Some s -> rd s x = Some e -> forall d j, 0 <= j -> zlen (snd e) - 1 - j = Z.of_nat d ->
    strip (labels (arcs_at G (rest i x (zlen (snd e)) j))) = (if (lab (fst e) =? -1) && (0 <? Z.of_nat d) then [-1] else []) /\
    score (arcs_at G (rest i x (zlen (snd e)) j)) = 0.
  Proof.
    intros H1 H2. induction d as [|d IH]; intros j Hj Hd.
    - rewrite rest_nil by lia. rewrite andb_false_r. split; reflexivity.
    - rewrite rest_cons by lia. destruct (inner_arc_at i s x e j H1 H2 ltac:(lia)) as [Ha _]. rewrite (arcs_at_cons _ _ _ _ Ha).
      destruct (K_inner i s x e j H1 H2 ltac:(lia)) as (_ & _ & L1 & C1). destruct (IH (j + 1) ltac:(lia) ltac:(lia)) as [I1 I2].
      unfold labels, score in *. cbn [map zsum strip filter]. rewrite L1, C1, I2. fold (strip (map lab (arcs_at G (rest i x (zlen (snd e)) (j + 1))))). rewrite I1.
      split; [|lia]. destruct (lab (fst e) =? -1) eqn:El; cbn [negb andb]; [|reflexivity]. replace (0 <? Z.of_nat (S d)) with true by lia.
      destruct (zlen (snd e) - 1 <=? j + 1) eqn:C; [replace d with 0%nat by lia; reflexivity|]. replace (0 <? Z.of_nat d) with true by lia. reflexivity.
  Qed.

  Lemma chain_attr i s x e : rd f i = Some s -> rd s x = Some e ->
    strip (labels (arcs_at G (chain i x (zlen (snd e))))) = strip [lab (fst e)] /\ score (arcs_at G (chain i x (zlen (snd e)))) = sc (fst e).
  Proof.
    intros H1 H2. unfold chain. destruct (first_arc_at i s x e H1 H2) as [Ha _]. rewrite (arcs_at_cons _ _ _ _ Ha). destruct (K_first i s x e H1 H2) as (_ & _ & L1 & C1).
    unfold labels, score. cbn [map zsum strip filter]. rewrite L1, C1. destruct (zlen (snd e) <=? 1) eqn:C.
    - rewrite rest_nil by lia. cbn. rewrite Z.add_0_r. split; [|reflexivity]. destruct (lab (fst e) =? -1) eqn:El; [|reflexivity]. cbn [negb]. replace (lab (fst e)) with (-1) by lia. reflexivity.
    - destruct (rest_attr i s x e H1 H2 (Z.to_nat (zlen (snd e) - 1)) 0 ltac:(lia) ltac:(lia)) as [I1 I2]. unfold labels, score, strip in *. rewrite I1, I2. split; [|lia].
      destruct (lab (fst e) =? -1) eqn:El; cbn [negb andb].
      + replace (lab (fst e)) with (-1) by lia. replace (0 <? Z.of_nat (Z.to_nat (zlen (snd e) - 1))) with true by lia. reflexivity.
      + destruct (negb (lab (fst e) =? 0)); reflexivity.
  Qed.

  Lemma E_attr s p t : apath F s p t ->
    strip (labels (arcs_at G (E p))) = strip (labels (arcs_at F p)) /\ score (arcs_at G (E p)) = score (arcs_at F p).
  Proof.
    induction 1 as [s|a arc p t Ha H IH]; [split; reflexivity|]. destruct IH as [I1 I2]. rewrite (arcs_at_cons _ _ _ _ Ha).
    unfold all_arcs, F in Ha. rewrite <- concat_map, rd_map in Ha. destruct (rd (concat f) a) as [e|] eqn:Ee; [|discriminate]. injection Ha as <-.
    destruct (rd_concat_inv _ _ _ Ee) as (i & st & x & H1 & H2 & -> & _). unfold E. cbn [flat_map]. rewrite (chain_of_at i st x e H1 H2), arcs_at_app.
    destruct (chain_attr i st x e H1 H2) as [C1 C2]. unfold labels, score in *. rewrite map_app, strip_app, C1. fold (E p). rewrite I1. split.
    - change (map lab (fst e :: arcs_at F p)) with ([lab (fst e)] ++ map lab (arcs_at F p)). now rewrite strip_app.
    - rewrite map_app, zsum_app, C2, I2. reflexivity.
  Qed.

  (** ** Validity *)
  Lemma src_ok_G : src_ok G.
  Proof.
    intros o row b Ho Hb. unfold G, expanded in Ho. rewrite rd_map in Ho. destruct (rd (concat (concat (U f))) o) as [r|] eqn:Er; [|discriminate]. injection Ho as <-.
    apply in_map_iff in Hb. destruct Hb as (l & <- & Hl). apply In_rd in Hl. destruct Hl as (m & _ & Hm).
    destruct (rd_concat_inv _ _ _ Er) as (g & O & j & K1 & K2 & -> & _). destruct (rd_concat_inv _ _ _ K1) as (i & B & foo & L1 & L2 & -> & _).
    pose proof (rd_Some_bound _ _ _ L1) as Bi. rewrite zlen_U in Bi. destruct (rd_in_bound f i Bi) as (s & Hs). rewrite (rd_U f i s Hs) in L1. injection L1 as <-.
    destruct (leaf_inv i s foo O j r m l L2 K2 Hm) as [-> _]. unfold K. destruct (karc f (i, foo, j, m)). reflexivity.
  Qed.

  Lemma st_bound i s foo O j : rd f i = Some s -> rd (blk i s) foo = Some O -> 0 <= j < zlen O -> 0 <= lst f i foo + j < zlen G.
  Proof.
    intros H1 H2 B. unfold G, expanded. rewrite zlen_map. destruct (rd_in_bound O j B) as (row & Hrow).
    assert (E1 : rd (concat (U f)) (off1 (U f) i + foo) = Some O) by (apply (rd_concat_off _ _ (blk i s) foo O); auto; now apply rd_U).
    eapply rd_Some_bound. apply (rd_concat_off _ _ O j row); eauto.
  Qed.

  Lemma valid_G : valid F -> valid G.
  Proof.
    intros (_ & N & VA). pose proof (rd_Some_bound _ _ _ last_empty) as BL. unfold nstates in N.
    assert (LF : zlen F = zlen f) by apply zlen_map. rewrite LF in N.
    destruct (rd_in_bound f 0 ltac:(lia)) as (s0 & H0).
    assert (FL : 0 < lst f (zlen f - 1) 0).
    { pose proof (lst_inj 0 (zlen f - 1) s0 [] H0 last_empty) as I. rewrite lst_0 in I. pose proof (off1_nonneg (concat (U f)) (off1 (U f) (zlen f - 1) + 0)). unfold lst in *.
      destruct (Z.eq_dec 0 (off1 (concat (U f)) (off1 (U f) (zlen f - 1) + 0))) as [Eq|Nq]; [specialize (I Eq); lia|lia]. }
    split; [apply src_ok_G|]. unfold nstates, final, nstates. pose proof final_G as FG. unfold final in FG. split; [lia|].
    intros b Hb. apply In_rd in Hb. destruct Hb as (q & _ & Hq). destruct (arc_inv q b Hq) as (i & s & x & e & H1 & H2 & C).
    destruct (arcs_F i s x e H1 H2) as (Fa & Sa & Da). pose proof (rd_In _ _ _ Fa) as Fi. destruct (VA _ Fi) as (_ & V2 & V3 & V4). unfold final, nstates in V3, V4. rewrite LF, Sa in *.
    destruct (rd_in_bound f _ Da) as (sd & Hsd). destruct (blk0_len (dst (fst e)) sd) as [D1 D2]. pose proof (st_bound _ _ _ _ _ Hsd D1 D2) as SD. rewrite Z.add_0_r in SD.
    destruct (blk0_len (zlen f - 1) []) as [Z1 Z2]. rewrite FG.
    assert (DF : lst f (dst (fst e)) 0 = lst f (zlen f - 1) 0 <-> lab (fst e) = -1).
    { rewrite V3. split; [apply (lst_inj _ _ sd []); auto|intros ->; reflexivity]. }
    destruct C as [(-> & ->)|(j & Bj & -> & ->)].
    - destruct (K_first i s x e H1 H2) as (-> & -> & -> & _). destruct (blk0_len i s) as [B1 B2].
      assert (SF : lst f i 0 <> lst f (zlen f - 1) 0) by (intros Eq; apply V4; apply (lst_inj _ _ s []); auto).
      destruct (zlen (snd e) <=? 1) eqn:C.
      + split; [lia|]. destruct (lab (fst e) =? -1) eqn:El; cbn [negb]; (split; [lia|split; [|exact SF]]); rewrite DF; lia.
      + destruct (blkS_len i s x e 0 H2 ltac:(lia)) as [B1' B2']. pose proof (st_bound _ _ _ _ _ H1 B1' B2') as SB. rewrite Z.add_0_r in SB. split; [lia|].
        assert (NF : lst f i (x + 1) <> lst f (zlen f - 1) 0).
        { intros Eq. pose proof (rd_Some_bound _ _ _ H2). destruct (st_inj i s (x + 1) _ 0 (zlen f - 1) [] 0 _ 0 H1 B1' B2' last_empty Z1 Z2) as (_ & ? & _); lia. }
        destruct (lab (fst e) =? -1) eqn:El; cbn [negb]; (split; [lia|split; [|exact SF]]); split; intros; try lia.
    - destruct (K_inner i s x e j H1 H2 Bj) as (-> & -> & -> & _). destruct (blkS_len i s x e j H2 Bj) as [B1 B2]. pose proof (rd_Some_bound _ _ _ H2).
      assert (SF : lst f i (x + 1) + j <> lst f (zlen f - 1) 0).
      { intros Eq. destruct (st_inj i s (x + 1) _ j (zlen f - 1) [] 0 _ 0 H1 B1 B2 last_empty Z1 Z2) as (_ & ? & _); lia. }
      destruct (zlen (snd e) - 1 <=? j + 1) eqn:C.
      + split; [lia|]. destruct (lab (fst e) =? -1) eqn:El; cbn [negb]; (split; [lia|split; [|exact SF]]); rewrite DF; lia.
      + destruct (blkS_len i s x e (j + 1) H2 ltac:(lia)) as [B1' B2']. pose proof (st_bound _ _ _ _ _ H1 B1' B2') as SB. split; [lia|].
        assert (NF : lst f i (x + 1) + (j + 1) <> lst f (zlen f - 1) 0).
        { intros Eq. destruct (st_inj i s (x + 1) _ (j + 1) (zlen f - 1) [] 0 _ 0 H1 B1' B2' last_empty Z1 Z2) as (_ & ? & _); lia. }
        destruct (lab (fst e) =? -1) eqn:El; cbn [negb]; (split; [lia|split; [|exact SF]]); split; intros; try lia.
  Qed.
End Paths.
