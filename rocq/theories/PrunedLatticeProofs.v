From Coq Require Import ZArith List Lia Bool.
From Coq Require Import ZifyBool.
From Verif Require Import Base RaggedModel RaggedSpec FsaSpec FsaLemmas FstSpec GraphModel GraphProofs RnntModel RnntSpec PrunedLatticeModel PrunedLatticeSpec.
Import ListNotations.
Open Scope Z_scope.

Definition z0 (o : option Z) : Z := match o with Some x => x | None => 0 end.

Lemma divmod r t k : 0 <= k < r -> (t * r + k) / r = t /\ (t * r + k) mod r = k.
Proof.
  intros H. split.
  - rewrite Z.div_add_l, Z.div_small by lia. lia.
  - rewrite Z.add_comm, Z.mod_add, Z.mod_small by lia. reflexivity.
Qed.

Lemma s_bound {n r} t k : 0 <= t < n -> 0 <= k < r -> 0 <= t * r + k < n * r.
Proof. nia. Qed.
Lemma s_last {n r} t k : 0 <= t < n -> 0 <= k < r -> (t * r + k = n * r - 1 <-> t = n - 1 /\ k = r - 1).
Proof. intros; split; [|intros (-> & ->); lia]. intros E. assert (t = n - 1) by nia. subst. split; auto. lia. Qed.
Lemma s_split {n r} s1 : 1 <= r -> 0 <= s1 < n * r -> exists t k, 0 <= t < n /\ 0 <= k < r /\ s1 = t * r + k.
Proof.
  intros Hr H. exists (s1 / r), (s1 mod r). pose proof (Z.mod_pos_bound s1 r). pose proof (Z.div_mod s1 r).
  assert (0 <= s1 / r) by (apply Z.div_pos; lia). assert (s1 / r < n) by (apply Z.div_lt_upper_bound; lia). lia.
Qed.

Section One.
Variables (n r b : Z) (w : Z -> Z) (y : list Z) (lg : tensor4).

Definition l_fin s1 : tarc := (mkArc s1 (s1 + 1) (-1) 0, -1).
Definition l_ver t k : tarc :=
  let l := z0 (rd y (w t + k)) in (mkArc (t * r + k) (t * r + k + 1) l (z0 (element lg b t k l)), place lg b t k l).
Definition l_hor t k : tarc :=
  (mkArc (t * r + k) (w t + k - w (t + 1) + (t + 1) * r) 0 (z0 (element lg b t k 0)), place lg b t k 0).
Definition l_state (s1 : Z) : list tarc :=
  let t := s1 / r in let k := s1 mod r in
  if s1 =? n * r then []
  else if s1 =? n * r - 1 then [l_fin s1]
  else if k <? r - 1 then l_ver t k :: (if (t <? n - 1) && (w (t + 1) <=? w t + k) then [l_hor t k] else [])
  else [l_hor t k].
Definition l_nested : nfst := tab (n * r + 1) l_state.

Hypothesis Hr : 1 <= r.
Hypothesis Hn : 1 <= n.
Lemma zlen_l_nested : zlen l_nested = n * r + 1.
Proof. unfold l_nested. apply zlen_tab. nia. Qed.
Hypothesis Hw : forall t, 0 <= t -> t + 1 < n -> w t <= w (t + 1) <= w t + (r - 1).

Definition is_hor t k := t < n - 1 /\ w (t + 1) <= w t + k.

Lemma l_state_in a t k : 0 <= t < n -> 0 <= k < r ->
  (In a (l_state (t * r + k)) <->
   t = n - 1 /\ k = r - 1 /\ a = l_fin (n * r - 1) \/ k < r - 1 /\ a = l_ver t k \/ is_hor t k /\ a = l_hor t k).
Proof.
  intros Ht Hk. unfold l_state, is_hor. destruct (divmod r t k Hk) as (-> & ->).
  pose proof (s_bound t k Ht Hk). pose proof (s_last t k Ht Hk).
  replace (t * r + k =? n * r) with false by lia.
  destruct (Z.eqb_spec (t * r + k) (n * r - 1)) as [E|E].
  - assert (E1 : t = n - 1 /\ k = r - 1) by tauto. destruct E1 as (-> & ->). rewrite E. cbn [In]. split.
    + intros [<-|[]]. auto.
    + intros [(_ & _ & ->)|[(? & _)|((? & _) & _)]]; auto; lia.
  - destruct (Z.ltb_spec k (r - 1)).
    + destruct ((t <? n - 1) && (w (t + 1) <=? w t + k)) eqn:E1; cbn [In]; split.
      * intros [<-|[<-|[]]]; auto. right. right. split; auto. lia.
      * intros [(? & ? & _)|[(_ & ->)|(_ & ->)]]; auto; lia.
      * intros [<-|[]]; auto.
      * intros [(? & ? & _)|[(_ & ->)|(? & ->)]]; auto; lia.
    + assert (k = r - 1) by lia. subst k. assert (t < n - 1) by (destruct (Z.eq_dec t (n - 1)); [tauto|lia]).
      pose proof (Hw t). cbn [In]. split.
      * intros [<-|[]]. right. right. split; auto. lia.
      * intros [(? & ? & _)|[(? & _)|(? & ->)]]; auto; lia.
Qed.

Lemma l_state_end : l_state (n * r) = [].
Proof. unfold l_state. now rewrite Z.eqb_refl. Qed.
Lemma l_nested_in a : In a (concat l_nested) <-> exists t k, 0 <= t < n /\ 0 <= k < r /\ In a (l_state (t * r + k)).
Proof.
  unfold l_nested, tab. rewrite in_concat. split.
  - intros (st & H1 & H2). apply in_map_iff in H1 as (s1 & <- & H1). apply in_zrange in H1.
    destruct (Z.eq_dec s1 (n * r)) as [->|]; [rewrite l_state_end in H2; destruct H2|].
    destruct (s_split (n := n) (r := r) s1) as (t & k & Ht & Hk & ->); [lia|lia|]. eauto 6.
  - intros (t & k & Ht & Hk & H). pose proof (s_bound t k Ht Hk). eexists. split; eauto. apply in_map_iff. eexists. split; eauto.
    apply in_zrange. lia.
Qed.

Lemma l_src a t k : 0 <= t < n -> 0 <= k < r -> In a (l_state (t * r + k)) -> src (fst a) = t * r + k.
Proof.
  intros Ht Hk H. apply l_state_in in H; auto. destruct H as [(-> & -> & ->)|[(_ & ->)|(_ & ->)]]; cbn; lia.
Qed.
Lemma inj_tk t k t' k' : 0 <= k < r -> 0 <= k' < r -> t * r + k = t' * r + k' -> t = t' /\ k = k'.
Proof.
  intros H1 H2 E. destruct (divmod r t k H1) as (E1 & E2). destruct (divmod r t' k' H2) as (E3 & E4). rewrite E in E1, E2. split; congruence.
Qed.
(** the arcs leaving a state *)
Lemma l_from a t k : 0 <= t < n -> 0 <= k < r -> In a (concat l_nested) -> src (fst a) = t * r + k -> In a (l_state (t * r + k)).
Proof.
  intros Ht Hk H E. apply l_nested_in in H as (t' & k' & Ht' & Hk' & H). pose proof (l_src _ _ _ Ht' Hk' H) as E'.
  destruct (inj_tk t k t' k'); auto; [lia|]. now subst.
Qed.

Lemma hor_bound t k : 0 <= t -> 0 <= k < r -> is_hor t k -> 0 <= w t + k - w (t + 1) < r /\ 0 <= t + 1 < n.
Proof. intros Ht Hk (H1 & H2). pose proof (Hw t). lia. Qed.

Variables (S C : Z) (rows : list (list Z)).
Hypothesis Hrows : zlen rows = n.
Hypothesis Hrow : forall t, 0 <= t < n -> rd rows t = Some (map (fun j => w t + j) (zrange r)).
Hypothesis Hin : forall t, 0 <= t < n -> 0 <= w t /\ w t + r - 1 <= S.
Hypothesis Hy : zlen y = S.
Hypothesis Hv : Forall (fun v => 1 <= v < C) y.
Hypothesis HC : 1 <= C.
Hypothesis Hlg : forall t k c, 0 <= t < n -> 0 <= k < r -> 0 <= c < C -> exists x, element lg b t k c = Some x.

Lemma slot_iff s t k : slot rows s t k <-> 0 <= t < n /\ 0 <= k < r /\ s = w t + k.
Proof.
  unfold slot. split.
  - intros (row & H1 & H2). pose proof (rd_Some_bound _ _ _ H1) as B. rewrite Hrows in B. rewrite Hrow in H1 by auto. injection H1 as <-.
    rewrite rd_map in H2. destruct (rd (zrange r) k) as [j|] eqn:E; [|discriminate]. pose proof (rd_Some_bound _ _ _ E) as B2.
    rewrite zlen_zrange in B2 by lia. rewrite rd_zrange in E by lia. injection E as <-. injection H2 as <-. auto.
  - intros (Ht & Hk & ->). eexists. split; [now apply Hrow|]. rewrite rd_map, rd_zrange by lia. reflexivity.
Qed.
Lemma sym_at s : 0 <= s < S -> exists v, rd y s = Some v /\ 1 <= v < C.
Proof.
  intros Hs. destruct (rd_in_bound y s) as (v & E); [lia|]. exists v. split; auto. rewrite Forall_forall in Hv. apply Hv. eapply rd_In; eauto.
Qed.
Lemma sym_slot t k : 0 <= t < n -> 0 <= k < r - 1 -> exists v x, rd y (w t + k) = Some v /\ 1 <= v < C /\ element lg b t k v = Some x.
Proof.
  intros Ht Hk. pose proof (Hin t Ht). destruct (sym_at (w t + k)) as (v & E & B); [lia|].
  destruct (Hlg t k v) as (x & Ex); auto; try lia. eauto 6.
Qed.

Lemma lat_end p : tpath (concat l_nested) (n * r) p (n * r) -> p = [].
Proof.
  intros H. apply tpath_inv in H as [(-> & _)|(a & p' & -> & Ha & E & _)]; auto.
  apply l_nested_in in Ha as (t & k & Ht & Hk & Ha). rewrite (l_src _ _ _ Ht Hk Ha) in E. pose proof (s_bound t k Ht Hk). lia.
Qed.

Lemma last_slot : rd rows (n - 1) = Some (map (fun j => w (n - 1) + j) (zrange r)) /\
  rd (map (fun j => w (n - 1) + j) (zrange r)) (zlen (map (fun j => w (n - 1) + j) (zrange r)) - 1) = Some (w (n - 1) + (r - 1)).
Proof.
  split; [apply Hrow; lia|]. rewrite zlen_map, zlen_zrange, rd_map, rd_zrange by lia. reflexivity.
Qed.

Lemma lat_fwd p : forall t k, 0 <= t < n -> 0 <= k < r -> tpath (concat l_nested) (t * r + k) p (n * r) ->
  exists l, kept_alignment rows y lg b n (w t + k) t l (seen p).
Proof.
  induction p as [|a p IH]; intros t k Ht Hk H.
  - apply tpath_inv in H as [(_ & E)|(? & ? & E & _)]; [|discriminate]. pose proof (s_bound t k Ht Hk). lia.
  - apply tpath_inv in H as [(E & _)|(a' & p' & E & Ha & Es & Hp)]; [discriminate|]. injection E as <- <-.
    apply (l_from a t k Ht Hk) in Ha; auto. apply l_state_in in Ha; auto.
    destruct Ha as [(-> & -> & ->)|[(Hk1 & ->)|(Hh & ->)]].
    + cbn [l_fin fst dst] in Hp. replace (n * r - 1 + 1) with (n * r) in Hp by lia. apply lat_end in Hp. subst p.
      exists []. destruct last_slot as (L1 & L2). eapply ka_end; eauto.
    + cbn [l_ver fst dst] in Hp. replace (t * r + k + 1) with (t * r + (k + 1)) in Hp by lia. apply IH in Hp as (l & Hl); [|lia|lia].
      destruct (sym_slot t k) as (v & x & E1 & B1 & E2); [lia|lia|]. exists (true :: l).
      cbn [seen map l_ver fst snd lab sc]. rewrite E1. cbn [z0]. rewrite E2. cbn [z0]. eapply ka_emit; eauto.
      * apply slot_iff. auto.
      * apply slot_iff. split; [auto|]. split; [|instantiate (1 := k + 1); lia]. lia.
      * replace (w t + k + 1) with (w t + (k + 1)) by lia. exact Hl.
    + destruct (hor_bound t k) as (B1 & B2); auto; [lia|]. cbn [l_hor fst dst] in Hp.
      replace (w t + k - w (t + 1) + (t + 1) * r) with ((t + 1) * r + (w t + k - w (t + 1))) in Hp by lia.
      apply IH in Hp as (l & Hl); auto. replace (w (t + 1) + (w t + k - w (t + 1))) with (w t + k) in Hl by lia.
      destruct (Hlg t k 0) as (x & Ex); auto; try lia. exists (false :: l). cbn [seen map l_hor fst snd lab sc]. rewrite Ex. cbn [z0].
      eapply ka_blank; eauto; apply slot_iff; [auto|]. split; [auto|]. split; [exact B1|lia].
Qed.

Lemma lat_bwd s t l tr : kept_alignment rows y lg b n s t l tr ->
  exists p, tpath (concat l_nested) (t * r + (s - w t)) p (n * r) /\ seen p = tr.
Proof.
  induction 1 as [s row L1 L2|s t k k' v x l tr H1 H2 H3 H4 H5 (p & IH1 & IH2)|s t k k' x l tr H1 H2 H4 H5 (p & IH1 & IH2)].
  - destruct last_slot as (M1 & M2). rewrite M1 in L1. injection L1 as <-. rewrite M2 in L2. injection L2 as <-.
    exists [l_fin (n * r - 1)]. split; [|reflexivity]. apply tpath_step.
    + apply l_nested_in. exists (n - 1), (r - 1). split; [lia|]. split; [lia|]. apply l_state_in; auto; lia.
    + cbn. lia.
    + cbn [l_fin fst dst]. replace (n * r - 1 + 1) with (n * r) by lia. constructor.
  - apply slot_iff in H1 as (Ht & Hk & ->). apply slot_iff in H2 as (_ & Hk' & E'). assert (k' = k + 1) by lia. subst k'.
    exists (l_ver t k :: p). cbn [seen map l_ver fst snd lab sc]. rewrite H3. cbn [z0]. rewrite H4. cbn [z0]. split; [|now rewrite <- IH2].
    apply tpath_step.
    + apply l_nested_in. exists t, k. split; [lia|]. split; [lia|]. apply l_state_in; auto. right. left. split; [lia|].
      unfold l_ver. rewrite H3. cbn [z0]. now rewrite H4.
    + cbn. lia.
    + cbn [l_ver fst dst]. replace (t * r + k + 1) with (t * r + (w t + k + 1 - w t)) by lia. exact IH1.
  - apply slot_iff in H1 as (Ht & Hk & ->). apply slot_iff in H2 as (Ht' & Hk' & E').
    exists (l_hor t k :: p). split; [|cbn [seen map l_hor fst snd lab sc]; rewrite H4; cbn [z0]; now rewrite <- IH2].
    apply tpath_step.
    + apply l_nested_in. exists t, k. split; [lia|]. split; [lia|]. apply l_state_in; auto. right. right. split; auto. split; lia.
    + cbn. lia.
    + cbn [l_hor fst dst]. replace (w t + k - w (t + 1) + (t + 1) * r) with ((t + 1) * r + (w t + k - w (t + 1))) by lia. exact IH1.
Qed.

Lemma lat_det p : forall q t k, 0 <= t < n -> 0 <= k < r -> tpath (concat l_nested) (t * r + k) p (n * r) ->
  tpath (concat l_nested) (t * r + k) q (n * r) -> ilabels p = ilabels q -> p = q.
Proof.
  induction p as [|a p IH]; intros q t k Ht Hk H1 H2 E.
  - destruct q; [reflexivity|discriminate].
  - destruct q as [|a' q]; [discriminate|]. cbn [ilabels map] in E. injection E as E1 E2.
    apply tpath_inv in H1 as [(X & _)|(? & ? & X & Ha & Es & Hp)]; [discriminate|]. injection X as <- <-.
    apply tpath_inv in H2 as [(X & _)|(? & ? & X & Ha' & Es' & Hq)]; [discriminate|]. injection X as <- <-.
    apply (l_from a t k Ht Hk) in Ha; auto. apply (l_from a' t k Ht Hk) in Ha'; auto. apply l_state_in in Ha; auto. apply l_state_in in Ha'; auto.
    assert (V : forall v, k < r - 1 -> lab (fst (l_ver t k)) = v -> 1 <= v).
    { intros v Hk1. destruct (sym_slot t k) as (v' & x & X1 & B1 & X2); [lia|lia|]. unfold l_ver. rewrite X1. cbn. lia. }
    assert (EA : a = a').
    { destruct Ha as [(-> & -> & ->)|[(Hk1 & ->)|(Hh & ->)]]; destruct Ha' as [(? & ? & ->)|[(Hk1' & ->)|(Hh' & ->)]]; auto; try lia.
      - cbn in E1. lia.
      - exfalso. apply V in E1; [cbn in E1; lia|lia].
      - cbn in E1. lia.
      - symmetry in E1. exfalso. apply V in E1; [cbn in E1; lia|lia]. }
    subst a'. f_equal.
    destruct Ha as [(-> & -> & ->)|[(Hk1 & ->)|(Hh & ->)]].
    + cbn [l_fin fst dst] in Hp, Hq. replace (n * r - 1 + 1) with (n * r) in * by lia. apply lat_end in Hp, Hq. congruence.
    + cbn [l_ver fst dst] in Hp, Hq. replace (t * r + k + 1) with (t * r + (k + 1)) in * by lia. eapply (IH q t (k + 1)); eauto; lia.
    + destruct (hor_bound t k) as (B1 & B2); auto; [lia|]. cbn [l_hor fst dst] in Hp, Hq.
      replace (w t + k - w (t + 1) + (t + 1) * r) with ((t + 1) * r + (w t + k - w (t + 1))) in * by lia. eapply (IH q (t + 1)); eauto.
Qed.

Lemma lat_arc a : In a (concat l_nested) -> 0 <= src (fst a) < dst (fst a) /\ dst (fst a) <= n * r /\ -1 <= lab (fst a) /\
  (lab (fst a) = -1 <-> dst (fst a) = n * r) /\
  (snd a = -1 /\ lab (fst a) = -1 /\ sc (fst a) = 0 \/ 0 <= lab (fst a) /\ rd (t4_mem lg) (snd a) = Some (sc (fst a))).
Proof.
  intros H. apply l_nested_in in H as (t & k & Ht & Hk & H). apply l_state_in in H; auto.
  assert (TA : forall c x, element lg b t k c = Some x -> rd (t4_mem lg) (place lg b t k c) = Some x).
  { intros c x. unfold element. destruct (t4_size lg) as (((n0 & n1) & n2) & n3). now destruct (_ && _ && _ && _). }
  pose proof (s_bound t k Ht Hk). destruct H as [(-> & -> & ->)|[(Hk1 & ->)|(Hh & ->)]].
  - cbn. lia.
  - destruct (sym_slot t k) as (v & x & X1 & B1 & X2); [lia|lia|]. unfold l_ver. rewrite X1. cbn [z0]. rewrite X2. cbn [z0 fst snd src dst lab sc].
    pose proof (s_bound (r := r) t (k + 1) Ht ltac:(lia)). repeat (split; [lia|]). right. split; [lia|]. now apply TA.
  - destruct (hor_bound t k) as (B1 & B2); auto; [lia|]. destruct (Hlg t k 0) as (x & Ex); auto; try lia.
    unfold l_hor. rewrite Ex. cbn [z0 fst snd src dst lab sc]. pose proof (s_bound (t + 1) _ B2 B1).
    repeat (split; [lia|]). right. split; [lia|]. now apply TA.
Qed.
End One.

Lemma skipn_rd {A} (y : list A) s v : rd y s = Some v -> skipn (Z.to_nat s) y = v :: skipn (Datatypes.S (Z.to_nat s)) y.
Proof.
  unfold rd. destruct (s <? 0); [discriminate|]. generalize (Z.to_nat s). intros m. revert y. induction m as [|m IH]; intros [|a y] H; try discriminate.
  - injection H as ->. reflexivity.
  - cbn [skipn]. now apply IH.
Qed.
Lemma ka_labels rows y lg b n s t l tr : Forall (fun v => 1 <= v) y -> kept_alignment rows y lg b n s t l tr -> 0 <= s ->
  exists e row, rd rows (n - 1) = Some row /\ rd row (zlen row - 1) = Some e /\ s <= e /\
    strip (map (fun x => fst (fst x)) tr) = firstn (Z.to_nat (e - s)) (skipn (Z.to_nat s) y) ++ [-1] /\
    zlen (filter (fun x => fst (fst x) =? 0) tr) = n - 1 - t /\ zlen tr = (e - s) + (n - 1 - t) + 1.
Proof.
  intros Hy. induction 1 as [s row L1 L2|s t k k' v x l tr H1 H2 H3 H4 H5 IH|s t k k' x l tr H1 H2 H4 H5 IH]; intros Hs.
  - exists s, row. repeat (split; [auto; try lia; try reflexivity|]).
    + replace (s - s) with 0 by lia. reflexivity.
    + change (zlen (filter (fun x : Z * Z * Z => fst (fst x) =? 0) [(-1, 0, -1)])) with 0. lia.
    + change (zlen [(-1, 0, -1)]) with 1. lia.
  - destruct (IH ltac:(lia)) as (e & row & E1 & E2 & E3 & E4 & E5 & E6). exists e, row.
    assert (Hv : 1 <= v) by (rewrite Forall_forall in Hy; apply Hy; eapply rd_In; eauto).
    split; auto. split; auto. split; [lia|]. split; [|split].
    + cbn [map strip filter fst]. replace (negb (v =? 0)) with true by lia. fold (strip (map (fun x => fst (fst x)) tr)). rewrite E4.
      replace (Z.to_nat (e - s)) with (Datatypes.S (Z.to_nat (e - (s + 1)))) by lia.
      replace (Z.to_nat (s + 1)) with (Datatypes.S (Z.to_nat s)) by lia.
      rewrite (skipn_rd y s v) by auto. reflexivity.
    + cbn [filter fst]. replace (v =? 0) with false by lia. exact E5.
    + rewrite zlen_cons. lia.
  - destruct (IH ltac:(lia)) as (e & row & E1 & E2 & E3 & E4 & E5 & E6). exists e, row.
    split; auto. split; auto. split; [lia|]. split; [|split].
    + exact E4.
    + cbn [filter fst]. change (0 =? 0) with true. cbn iota. rewrite zlen_cons. lia.
    + rewrite zlen_cons. lia.
Qed.
Lemma nodup_concat {A} (key : A -> Z) (ll : list (list A)) :
  (forall i l, rd ll i = Some l -> NoDup l /\ forall a, In a l -> key a = i) -> NoDup (concat ll).
Proof.
  induction ll as [|l ll IH] using rev_ind; intros H; [constructor|].
  rewrite concat_app. cbn [concat]. rewrite app_nil_r.
  assert (HL : NoDup l /\ forall a, In a l -> key a = zlen ll) by (apply H; rewrite rd_app_r, Z.sub_diag by lia; reflexivity).
  assert (HR : forall i l0, rd ll i = Some l0 -> NoDup l0 /\ forall a, In a l0 -> key a = i).
  { intros i l0 E. apply H. rewrite rd_app_l; auto. exact (proj2 (rd_Some_bound _ _ _ E)). }
  specialize (IH HR). assert (D : forall a, In a (concat ll) -> ~ In a l).
  { intros a Ha Ha'. apply in_concat in Ha as (l0 & E & Ha). apply In_rd in E as (i & Bi & E). apply HR in E as (_ & E). apply E in Ha.
    apply HL in Ha'. lia. }
  clear H HR. destruct HL as (HL & _). induction (concat ll) as [|a q IHq]; cbn [app]; auto.
  inversion IH; subst. constructor.
  - rewrite in_app_iff. intros [?|?]; auto. eapply D; eauto. now left.
  - apply IHq; auto. intros a' Ha'. apply D. now right.
Qed.
Lemma ka_det rows y lg b n s t l tr : Forall (fun v => 1 <= v) y -> kept_alignment rows y lg b n s t l tr ->
  l = map (fun v => negb (v =? 0)) (removelast (map (fun x => fst (fst x)) tr)).
Proof.
  intros Hy. induction 1 as [s row L1 L2|s t k k' v x l tr H1 H2 H3 H4 H5 IH|s t k k' x l tr H1 H2 H4 H5 IH]; auto.
  - assert (Hv : 1 <= v) by (rewrite Forall_forall in Hy; apply Hy; eapply rd_In; eauto).
    destruct tr as [|z tr]; [inversion H5|]. change (removelast (map (fun x => fst (fst x)) ((v, x, place lg b t k v) :: z :: tr)))
      with (v :: removelast (map (fun x => fst (fst x)) (z :: tr))). rewrite map_cons. f_equal; [lia|exact IH].
  - destruct tr as [|z tr]; [inversion H5|]. change (removelast (map (fun x => fst (fst x)) ((0, x, place lg b t k 0) :: z :: tr)))
      with (0 :: removelast (map (fun x => fst (fst x)) (z :: tr))). rewrite map_cons. f_equal. exact IH.
Qed.
