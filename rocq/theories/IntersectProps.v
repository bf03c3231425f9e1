(** * C25: intersection *)
From Coq Require Import ZArith List Lia Bool.
From Coq Require Import ZifyBool.
From Verif Require Import Base RaggedModel RaggedSpec FsaSpec FsaLemmas RaggedOpsModel RaggedOpsProofs OpsModel PropsModel PropsSpec PropsProps ScoreModel ScoreSpec ShortestSpec GraphProofs IntersectModel IntersectSpec IntersectProofs IntersectPaths.
Import ListNotations.
Open Scope Z_scope.

Lemma mapM_enc {X Y T} (f : X -> option Y) (enc : T -> Y) (Q : X -> T -> Prop) l :
  (forall x, In x l -> exists t, f x = Some (enc t) /\ Q x t) -> exists ts, mapM f l = Some (map enc ts) /\ Forall2 Q l ts.
Proof.
  induction l as [|x l IH]; intros H; [exists []; split; [reflexivity|constructor]|].
  destruct (H x (or_introl eq_refl)) as (t & E & q). destruct IH as (ts & E' & F); [intros y Hy; apply H; now right|].
  exists (t :: ts). split; [cbn; rewrite E, E'; reflexivity|constructor; auto].
Qed.
Lemma Forall2_rd {X Y} (R : X -> Y -> Prop) l m : Forall2 R l m -> zlen l = zlen m /\ forall i x y, rd l i = Some x -> rd m i = Some y -> R x y.
Proof.
  induction 1 as [|x y l m H F IH]; [split; [reflexivity|intros i x y H; rewrite rd_nil in H; discriminate]|].
  destruct IH as (I1 & I2). split; [rewrite !zlen_cons; lia|]. intros i x' y' Hx Hy. pose proof (rd_Some_bound _ _ _ Hx) as B.
  destruct (Z.eq_dec i 0) as [->|]; [rewrite rd_cons_0 in *; injection Hx as <-; injection Hy as <-; exact H|].
  assert (EI : i = (i - 1) + 1) by lia. rewrite EI, rd_cons_S in Hx by lia. rewrite EI, rd_cons_S in Hy by lia. eauto.
Qed.

(** ** One FSA of a batch on the host *)
Lemma host_ok fs k f : rd fs k = Some f -> exists h, host_fsa (flat_vec fs) k = Some h /\ size1 h = zlen f /\
  forall s st, rd f s = Some st -> leaving h s = Some (posn f s st).
Proof.
  intros Hk. pose proof (rd_Some_bound _ _ _ Hk) as B. pose proof (off1_next fs k f Hk) as N. pose proof (off1_nonneg fs k). pose proof (zlen_nonneg f). pose proof (off1_bound fs (k + 1)) as OB.
  assert (OC : forall r, 0 <= r <= zlen f -> off1 (concat fs) (off1 fs k + r) = off1 (map (@concat arc) fs) k + off1 f r).
  { intros r Hr. pose proof (off1_concat fs k f r Hk Hr) as O. now rewrite <- off1_map_concat in O. }
  set (o := off1 (map (@concat arc) fs) k) in *.
  assert (SL : slice (splits_of (concat fs)) (off1 fs k) (off1 fs (k + 1) + 1) = Some (map (fun x => o + x) (splits_of f))).
  { unfold slice. rewrite N. replace (off1 fs k + zlen f + 1 - off1 fs k) with (zlen (map (fun x => o + x) (splits_of f))) by (rewrite zlen_map, zlen_splits_of; lia).
    apply RaggedOpsProofs.mapM_zrange; [apply zlen_nonneg|reflexivity|]. intros r Hr. rewrite zlen_map, zlen_splits_of in Hr. rewrite rd_splits_off by lia. rewrite OC by lia.
    rewrite rd_map, rd_splits_off by lia. reflexivity. }
  exists (mkH (map (fun x => o + x) (splits_of f)) (concat (concat fs))). split; [|split].
  - unfold host_fsa. cbn [flat_vec v_rs1 v_rs2 v_arcs]. rewrite zlen_splits_of. destruct (_ && _) eqn:E; [|lia]. rewrite !rd_splits_off by lia. rewrite SL. reflexivity.
  - unfold size1. cbn [hx]. rewrite zlen_map, zlen_splits_of. lia.
  - intros s st Hs. pose proof (rd_Some_bound _ _ _ Hs) as Bs. unfold leaving. cbn [hx hd]. rewrite !rd_map, !rd_splits_off by lia. cbn [option_map]. rewrite (off1_next f s st Hs), off1_0. pose proof (zlen_nonneg st).
    destruct (_ <=? _) eqn:E; [|lia]. clear E. replace (o + (off1 f s + zlen st) - (o + off1 f s)) with (zlen (posn f s st)) by (unfold posn; rewrite zlen_imap; lia).
    apply RaggedOpsProofs.mapM_zrange; [apply zlen_nonneg|reflexivity|]. intros j Hj. unfold posn in *. rewrite zlen_imap in Hj. rewrite rd_imap.
    destruct (rd_in_bound st j Hj) as (u & Hu). rewrite Hu. cbn [option_map].
    assert (HU : rd (concat (concat fs)) (o + (off1 f s + j)) = Some u).
    { rewrite <- concat_map_concat. apply (rd_concat_off (map (@concat arc) fs) k (concat f)); [now rewrite rd_map, Hk|]. apply (rd_concat_off f s st j u Hs Hu). }
    replace (o + off1 f s + j) with (o + (off1 f s + j)) by lia. rewrite HU. do 2 f_equal. lia.
Qed.

(** ** One pair *)
Lemma apath_pos f s q t : apath f s q t -> forall j, In j q -> 0 <= j < zlen (all_arcs f).
Proof. induction 1; intros j' Hj; [destruct Hj|]. destruct Hj as [<-|Hj]; auto. apply rd_Some_bound in H. lia. Qed.
Lemma proj_ext m m' oc oc' oa oa' q :
  (forall j, In j q -> exists i i', rd m (oc + j) = Some i /\ rd m' (oc' + j) = Some i' /\ ((i = -1 /\ i' = -1) \/ (i <> -1 /\ i' <> -1 /\ i - oa = i' - oa'))) ->
  proj m oc oa q = proj m' oc' oa' q.
Proof.
  unfold proj. induction q as [|j q IH]; intros H; cbn [flat_map]; auto. rewrite IH by (intros; apply H; now right). f_equal.
  destruct (H j (or_introl eq_refl)) as (i & i' & -> & -> & [(-> & ->)|(A & B & C)]); [reflexivity|]. destruct (i =? -1) eqn:?; [lia|]. destruct (i' =? -1) eqn:?; [lia|]. congruence.
Qed.
Lemma is_int_ext eps a b c pa pb pa' pb' : (forall q, successful c q -> pa q = pa' q /\ pb q = pb' q) ->
  is_intersection eps a b c pa pb -> is_intersection eps a b c pa' pb'.
Proof.
  intros E (I1 & I2 & I3). split; [|split].
  - intros q Q. destruct (E q Q) as (<- & <-). auto.
  - intros p1 p2 S1 S2 SL. destruct (I2 p1 p2 S1 S2 SL) as (q & Q1 & Q2 & Q3). exists q. destruct (E q Q1) as (<- & <-). auto.
  - intros Ee q q' Q Q'. destruct (E q Q) as (<- & <-). destruct (E q' Q') as (<- & <-). auto.
Qed.

Definition shift (o x : Z) : Z := if x =? -1 then x else x + o.
(** the result for one pair: [c], and the arc maps with the batch's offsets *)
Definition pair_ok (eps : bool) (a b : nfsa) (oa ob : Z) (c : nfsa) (mA mB : list Z) : Prop :=
  zlen mA = zlen (all_arcs c) /\ zlen mB = zlen (all_arcs c) /\
  (a <> [] /\ b <> [] -> valid c) /\ (a = [] \/ b = [] -> c = []) /\
  is_intersection eps a b c (proj mA 0 oa) (proj mB 0 ob) /\
  forall j u, rd (all_arcs c) j = Some u -> exists i k, rd mA j = Some i /\ rd mB j = Some k /\ origin eps a b oa ob u i k.

Lemma splits_map {X Y} (f : X -> Y) (C : list (list X)) : splits_of (map (map f) C) = splits_of C.
Proof. unfold splits_of. f_equal. rewrite map_map. apply map_ext. intros. apply zlen_map. Qed.

Lemma pair_result eps a b ha hb oa ob : (a = [] \/ valid a) -> (b = [] \/ valid b) -> p_arcsorted a -> p_arcsorted b -> int32_labels a -> int32_labels b ->
  0 <= oa -> 0 <= ob ->
  size1 ha = zlen a -> size1 hb = zlen b -> (forall s st, rd a s = Some st -> leaving ha s = Some (posn a s st)) -> (forall s st, rd b s = Some st -> leaving hb s = Some (posn b s st)) ->
  exists c mA mB arcs, intersection eps ha hb = Some (splits_of c, arcs) /\ map fst arcs = all_arcs c /\
    map (fun x => shift oa (fst (snd x))) arcs = mA /\ map (fun x => shift ob (snd (snd x))) arcs = mB /\ pair_ok eps a b oa ob c mA mB.
Proof.
  intros Va Vb Sa Sb La Lb Ho1 Ho2 Na Nb Ha Hb.
  assert (EMP : (a = [] \/ b = []) -> exists c mA mB arcs, intersection eps ha hb = Some (splits_of c, arcs) /\ map fst arcs = all_arcs c /\
    map (fun x => shift oa (fst (snd x))) arcs = mA /\ map (fun x => shift ob (snd (snd x))) arcs = mB /\ pair_ok eps a b oa ob c mA mB).
  { intros E. exists [], [], [], []. split.
    - unfold intersection. rewrite Na, Nb. destruct ((zlen a =? 0) || (zlen b =? 0)) eqn:E0; [reflexivity|]. destruct E as [-> | ->]; change (zlen []) with 0 in E0; lia.
    - split; [reflexivity|]. split; [reflexivity|]. split; [reflexivity|]. split; [reflexivity|]. split; [reflexivity|]. split; [intros (? & ?); destruct E; contradiction|]. split; [auto|]. split.
      + split; [|split].
        * intros q (Hq & _). unfold nstates in Hq. change (zlen []) with 0 in Hq. lia.
        * intros p1 p2 (H1 & _) (H2 & _). unfold nstates in *. destruct E as [-> | ->]; change (zlen []) with 0 in *; lia.
        * intros _ q q' (Hq & _). unfold nstates in Hq. change (zlen []) with 0 in Hq. lia.
      + intros j u H. cbn in H. rewrite rd_nil in H. discriminate. }
  destruct Va as [-> | Va]; [apply EMP; auto|]. destruct Vb as [-> | Vb]; [apply EMP; auto|]. clear EMP.
  destruct (intersection_ok eps a b ha hb Va Vb Sa Sb La Lb Ha Hb Na Nb) as (St & C & PO & E).
  destruct (product_ok eps a b St C Va Vb PO) as (Vc & IS). set (c := map (map fst) C) in *.
  pose proof (carcs C) as CA. fold c in CA.
  assert (ORG : forall j y, rd (concat C) j = Some y -> origin eps a b 0 0 (fst y) (fst (snd y)) (snd (snd y)) /\ -1 <= fst (snd y) /\ -1 <= snd (snd y)).
  { intros j y Hy. destruct (c_arc eps a b St C PO j y Hy) as (p & x & _ & _ & X & D1 & D2 & D3 & D4 & D5). rewrite D4. unfold origin. rewrite D2, D3, !Z.sub_0_r.
    destruct X as [i u i' v X1 X2 E1 E2 E3 E4|i u Ee X1 E1 E2|i v Ee X1 E1 E2]; cbn [x_lab x_sc x_a x_b fst snd] in *.
    - pose proof (rd_Some_bound _ _ _ X1). pose proof (rd_Some_bound _ _ _ X2). split; [|lia]. left. exists u, v. auto 8.
    - pose proof (rd_Some_bound _ _ _ X1). split; [|lia]. right; left. repeat split; auto. exists u. auto.
    - pose proof (rd_Some_bound _ _ _ X1). split; [|lia]. right; right. repeat split; auto. exists v. auto. }
  eexists c, _, _, (concat C). split; [unfold c; rewrite splits_map; exact E|]. split; [auto|]. split; [reflexivity|]. split; [reflexivity|].
  split; [rewrite CA, !zlen_map; reflexivity|]. split; [rewrite CA, !zlen_map; reflexivity|]. split; [auto|].
  split; [intros [-> | ->]; [destruct Va as (_ & H & _)|destruct Vb as (_ & H & _)]; unfold nstates in H; change (zlen []) with 0 in H; lia|]. split.
  - revert IS. apply is_int_ext. intros q (_ & Q). pose proof (apath_pos _ _ _ _ Q) as PQ. rewrite CA, zlen_map in PQ.
    split; apply proj_ext; intros j Hj; destruct (rd_in_bound (concat C) j (PQ j Hj)) as (y & Hy); destruct (ORG j y Hy) as (_ & O1 & O2);
      rewrite !Z.add_0_l, !rd_map, Hy; cbn [option_map]; do 2 eexists; (split; [reflexivity|]); (split; [reflexivity|]); unfold shift; [destruct (fst (snd y) =? -1) eqn:?|destruct (snd (snd y) =? -1) eqn:?]; [left|right|left|right]; lia.
  - intros j u Hu. rewrite CA, rd_map in Hu. destruct (rd (concat C) j) as [y|] eqn:Hy; [|discriminate]. injection Hu as <-. rewrite !rd_map, Hy. do 2 eexists. split; [reflexivity|]. split; [reflexivity|].
    destruct (ORG j y Hy) as (O & O1 & O2). cbn [option_map]. unfold origin in *. rewrite !Z.sub_0_r in O. unfold shift.
    destruct O as [(x & v & X1 & X2 & X3)|[(Ee & X0 & Em & x & X1 & X2)|(Ee & X0 & Em & x & X1 & X2)]].
    + pose proof (rd_Some_bound _ _ _ X1). pose proof (rd_Some_bound _ _ _ X2). destruct (fst (snd y) =? -1) eqn:?; [lia|]. destruct (snd (snd y) =? -1) eqn:?; [lia|]. left. exists x, v.
      replace (fst (snd y) + oa - oa) with (fst (snd y)) by lia. replace (snd (snd y) + ob - ob) with (snd (snd y)) by lia. auto.
    + pose proof (rd_Some_bound _ _ _ X1). rewrite Em. change (-1 =? -1) with true. destruct (fst (snd y) =? -1) eqn:?; [lia|]. right; left. repeat split; auto. exists x. replace (fst (snd y) + oa - oa) with (fst (snd y)) by lia. auto.
    + pose proof (rd_Some_bound _ _ _ X1). rewrite Em. change (-1 =? -1) with true. destruct (snd (snd y) =? -1) eqn:?; [lia|]. right; right. repeat split; auto. exists x. replace (snd (snd y) + ob - ob) with (snd (snd y)) by lia. auto.
Qed.

(** ** The FsaVec of the results *)
Lemma exsum_from_app o l1 l2 : exsum_from o (l1 ++ l2) = map (Z.add o) (firstn (length l1) (exsum l1)) ++ exsum_from (o + zsum l1) l2.
Proof.
  revert o. induction l1 as [|x l1 IH]; intros o; cbn [app length firstn map].
  - change (zsum []) with 0. now rewrite Z.add_0_r.
  - cbn [exsum_from]. unfold exsum. cbn [exsum_from firstn map app]. rewrite Z.add_0_r. f_equal. rewrite IH. change (zsum (x :: l1)) with (x + zsum l1). rewrite Z.add_assoc. f_equal.
    assert (G : forall l a n, firstn n (exsum_from a l) = map (Z.add a) (firstn n (exsum l))).
    { clear. unfold exsum. assert (H : forall l a c, exsum_from (a + c) l = map (Z.add a) (exsum_from c l)).
      { induction l as [|y l IHl]; intros a c; cbn [exsum_from map]; f_equal. rewrite <- IHl. f_equal. lia. }
      intros l a n. rewrite <- firstn_map, <- H, Z.add_0_r. reflexivity. }
    rewrite (G l1 (0 + x)). rewrite map_map. apply map_ext. intros. lia.
Qed.
Lemma zsum_zlen {X} (ll : list (list X)) : zsum (map zlen ll) = zlen (concat ll).
Proof. induction ll; cbn [map concat]; auto. rewrite zlen_app. change (zsum (zlen a :: map zlen ll)) with (zlen a + zsum (map zlen ll)). now rewrite IHll. Qed.

Definition enc (c : nfsa) : list Z * list arc := (splits_of c, all_arcs c).
Lemma create_ok cl : create_vec (map enc cl) = flat_vec cl.
Proof.
  unfold create_vec, flat_vec. rewrite !map_map. cbn [enc fst snd]. f_equal.
  - unfold splits_of at 2. f_equal. apply map_ext. intros c. cbn. rewrite zlen_splits_of. lia.
  - set (ab := exsum (map (fun x => zlen (snd (enc x))) cl)).
    assert (AB : forall i, 0 <= i < zlen cl -> rd ab (0 + i) = Some (0 + off1 (map all_arcs cl) i)).
    { intros i Hi. unfold ab. cbn [enc snd]. change (fun x => zlen (all_arcs x)) with (fun x => zlen ((fun y => all_arcs y) x)). rewrite <- (map_map (fun y => all_arcs y) zlen). rewrite Z.add_0_l. change (exsum (map zlen (map (fun y => all_arcs y) cl))) with (splits_of (map all_arcs cl)).
      rewrite rd_splits_off by (rewrite zlen_map; lia). f_equal. }
    assert (G : forall cl o k, (forall i, 0 <= i < zlen cl -> rd ab (k + i) = Some (o + off1 (map all_arcs cl) i)) ->
      concat (imap (fun i f => match rd ab i with Some b => map (Z.add b) (firstn (Z.to_nat (zlen (fst f) - 1)) (fst f)) | None => [] end) k (map enc cl)) ++ [o + zsum (map (fun x => zlen (snd (enc x))) cl)] =
      exsum_from o (map zlen (concat cl))).
    { clear AB. generalize ab. clear ab. intros ab. clear cl. induction cl as [|c cl IH]; intros o k H.
      - cbn. change (zsum []) with 0. now rewrite Z.add_0_r.
      - cbn [map imap concat]. pose proof (H 0) as H0. rewrite zlen_cons in H. rewrite zlen_cons in H0. pose proof (zlen_nonneg cl). rewrite off1_0, !Z.add_0_r in H0. rewrite H0 by lia. cbn [enc fst snd].
        rewrite map_app, exsum_from_app, <- app_assoc. f_equal.
        + rewrite zlen_splits_of. replace (Z.to_nat (zlen c + 1 - 1)) with (length (map zlen c)) by (rewrite map_length; unfold zlen; lia). reflexivity.
        + change (zsum (zlen (all_arcs c) :: map (fun x => zlen (all_arcs x)) cl)) with (zlen (all_arcs c) + zsum (map (fun x => zlen (all_arcs x)) cl)).
          rewrite zsum_zlen, Z.add_assoc. apply IH. intros i Hi. replace (k + 1 + i) with (k + (i + 1)) by lia. rewrite H by lia. f_equal.
          unfold off1. cbn [map]. replace (Z.to_nat (i + 1)) with (S (Z.to_nat i)) by lia. cbn [firstn concat]. rewrite zlen_app. unfold all_arcs. lia. }
    exact (G cl 0 0 AB).
  - rewrite <- (map_map enc snd). rewrite map_map. cbn [enc snd]. unfold all_arcs. apply (concat_map_concat cl).
Qed.

Lemma props_sorted sched fs : is_sched (zlen (concat (concat fs))) sched -> (forall f, In f fs -> int32_labels f) ->
  exists p, vec_props sched (flat_vec fs) = Some p /\ (negb (Z.land (snd p) kArcSorted =? 0) = true <-> forall f, In f fs -> p_arcsorted f).
Proof.
  intros Hs L. destruct (C15_property_bits sched fs Hs) as (per & tot & E & ZL & B & R & T). exists (per, tot). split; auto. cbn [snd].
  assert (HT : negb (Z.land tot kArcSorted =? 0) = true <-> has tot 0x10).
  { change kArcSorted with 0x10. unfold has. lia. }
  rewrite HT. rewrite (T 4) by lia. split.
  - intros H f Hf. apply In_rd in Hf. destruct Hf as (k & _ & Hk). destruct (B k f Hk) as (p & Hp & _ & BM). apply BM; [apply L; eapply rd_In; eauto|]. apply H. eapply rd_In; eauto.
  - intros H p Hp. apply In_rd in Hp. destruct Hp as (k & Hb & Hk). destruct (rd_in_bound fs k ltac:(lia)) as (f & Hf). destruct (B k f Hf) as (p' & Hp' & _ & BM). assert (p' = p) by congruence. subst p'.
    apply BM; [apply L; eapply rd_In; eauto|]. apply H. eapply rd_In; eauto.
Qed.

(** An input FSA: empty or valid *)
Definition input (f : nfsa) : Prop := (f = [] \/ valid f) /\ int32_labels f.

Lemma offs_ok fs : mapM (rd (splits_of (concat fs))) (splits_of fs) = Some (map (fun k => first_arc fs k) (zrange (zlen fs + 1))).
Proof.
  assert (E : splits_of fs = map (off1 fs) (zrange (zlen fs + 1))).
  { apply list_ext_rd; [rewrite zlen_splits_of, zlen_map, zlen_zrange by (pose proof (zlen_nonneg fs); lia); auto|]. intros i Hi. rewrite zlen_splits_of in Hi. rewrite rd_splits_off, rd_map, rd_zrange by lia. reflexivity. }
  rewrite E. assert (G : forall l, (forall k, In k l -> 0 <= k <= zlen fs) -> mapM (rd (splits_of (concat fs))) (map (off1 fs) l) = Some (map (fun k => first_arc fs k) l)).
  { induction l as [|k l IH]; intros H; [reflexivity|]. cbn [map mapM]. pose proof (H k (or_introl eq_refl)) as Hk. pose proof (off1_nonneg fs k). pose proof (off1_bound fs k).
    rewrite rd_splits_off by lia. rewrite IH by (intros; apply H; now right). do 2 f_equal. unfold first_arc, all_arcs. rewrite off1_map_concat. unfold off1 at 1. unfold off1.
    f_equal. f_equal. replace (Z.to_nat (zlen (concat (firstn (Z.to_nat k) fs)))) with (length (concat (firstn (Z.to_nat k) fs))) by (unfold zlen; lia).
    rewrite <- (firstn_skipn (Z.to_nat k) fs) at 2. rewrite concat_app, firstn_app, Nat.sub_diag, firstn_all. cbn. now rewrite app_nil_r. }
  apply G. intros k Hk. apply in_zrange in Hk. lia.
Qed.

(** C25.  Each pair of FSAs of two batches (or of a batch and a single FSA) is
    intersected, and the arc maps give the paths. *)
Theorem C25_intersect : forall sa sb eps al bl,
  is_sched (zlen (concat (concat al))) sa -> is_sched (zlen (concat (concat bl))) sb ->
  0 < zlen al -> 0 < zlen bl -> zlen al = zlen bl \/ zlen al = 1 \/ zlen bl = 1 ->
  (forall a, In a al -> input a /\ p_arcsorted a) -> (forall b, In b bl -> input b /\ p_arcsorted b) ->
  exists cl ma mb, intersect sa sb eps (flat_vec al) (flat_vec bl) = Some (flat_vec cl, ma, mb) /\
    zlen cl = Z.max (zlen al) (zlen bl) /\ zlen ma = zlen (concat (concat cl)) /\ zlen mb = zlen (concat (concat cl)) /\
    forall k a b c, rd al (bidx al k) = Some a -> rd bl (bidx bl k) = Some b -> rd cl k = Some c ->
      let oa := first_arc al (bidx al k) in let ob := first_arc bl (bidx bl k) in let oc := first_arc cl k in
      (a <> [] /\ b <> [] -> valid c) /\ (a = [] \/ b = [] -> c = []) /\
      is_intersection eps a b c (proj ma oc oa) (proj mb oc ob) /\
      forall j u, rd (all_arcs c) j = Some u -> exists i i', rd ma (oc + j) = Some i /\ rd mb (oc + j) = Some i' /\ origin eps a b oa ob u i i'.
Proof.
  intros sa sb eps al bl Hsa Hsb Pa Pb Sz Ia Ib. unfold intersect. cbn [flat_vec v_rs1 v_rs2 v_arcs]. rewrite !zlen_splits_of.
  replace (zlen al + 1 - 1) with (zlen al) by lia. replace (zlen bl + 1 - 1) with (zlen bl) by lia. cbv zeta.
  destruct ((0 <? zlen al) && (0 <? zlen bl)) eqn:E; [|lia]. clear E. destruct ((zlen al =? zlen bl) || (zlen al =? 1) || (zlen bl =? 1)) eqn:E; [|lia]. clear E.
  destruct (props_sorted sa al Hsa) as (pa & EA & PA); [intros; apply Ia; auto|]. destruct (props_sorted sb bl Hsb) as (pb & EB & PB); [intros; apply Ib; auto|].
  fold (flat_vec al). fold (flat_vec bl). rewrite EA, EB. rewrite (proj2 PA (fun f Hf => proj2 (Ia f Hf))), (proj2 PB (fun f Hf => proj2 (Ib f Hf))). cbn [andb]. rewrite !offs_ok.
  set (ta := if negb (zlen al =? zlen bl) && (zlen al =? 1) then 0 else 1). set (tb := if negb (zlen al =? zlen bl) && negb (zlen al =? 1) then 0 else 1).
  assert (Xa : forall k, 0 <= k < Z.max (zlen al) (zlen bl) -> k * ta = bidx al k /\ 0 <= k * ta < zlen al).
  { intros k Hk. unfold ta, bidx. destruct (zlen al =? 1) eqn:?; destruct (zlen al =? zlen bl) eqn:?; cbn [negb andb]; lia. }
  assert (Xb : forall k, 0 <= k < Z.max (zlen al) (zlen bl) -> k * tb = bidx bl k /\ 0 <= k * tb < zlen bl).
  { intros k Hk. unfold tb, bidx. destruct (zlen al =? 1) eqn:?; destruct (zlen al =? zlen bl) eqn:?; destruct (zlen bl =? 1) eqn:?; cbn [negb andb]; lia. }
  set (e3 := fun t : nfsa * (list Z * list Z) => (enc (fst t), snd t)).
  match goal with |- context [mapM ?f (zrange ?n)] => set (F := f) end.
  destruct (mapM_enc F e3 (fun k t => forall a b, rd al (bidx al k) = Some a -> rd bl (bidx bl k) = Some b ->
     pair_ok eps a b (first_arc al (bidx al k)) (first_arc bl (bidx bl k)) (fst t) (fst (snd t)) (snd (snd t))) (zrange (Z.max (zlen al) (zlen bl)))) as (ts & EM & FQ).
  { intros k Hk. apply in_zrange in Hk. destruct (Xa k Hk) as (A1 & A2). destruct (Xb k Hk) as (B1 & B2). unfold F. rewrite A1, B1. rewrite A1 in A2. rewrite B1 in B2.
    destruct (rd_in_bound al _ A2) as (a & Ra). destruct (rd_in_bound bl _ B2) as (b & Rb). pose proof (rd_In _ _ _ Ra) as Ina. pose proof (rd_In _ _ _ Rb) as Inb.
    destruct (host_ok al _ a Ra) as (ha & -> & H1 & H2). destruct (host_ok bl _ b Rb) as (hb & -> & H3 & H4).
    destruct (Ia a Ina) as ((Ia1 & Ia2) & Ia3). destruct (Ib b Inb) as ((Ib1 & Ib2) & Ib3).
    destruct (pair_result eps a b ha hb (first_arc al (bidx al k)) (first_arc bl (bidx bl k))) as (c & mA & mB & arcs & R1 & R2 & R3 & R4 & R5); auto; try apply off1_nonneg.
    rewrite R1, !rd_map, !rd_zrange by lia. cbn [option_map fst snd]. exists (c, (mA, mB)). split; [unfold e3, enc; cbn [fst snd]; unfold shift in R3, R4; rewrite R2, R3, R4; reflexivity|].
    intros a' b' Ha' Hb'. replace a' with a by congruence. replace b' with b by congruence. exact R5. }
  rewrite EM. cbv beta iota. rewrite !map_map. cbn [e3 fst snd]. destruct (Forall2_rd _ _ _ FQ) as (ZT & HT). rewrite zlen_zrange in ZT by lia.
  exists (map fst ts), (concat (map (fun x => fst (snd x)) ts)), (concat (map (fun x => snd (snd x)) ts)).
  assert (PER : forall k t, rd ts k = Some t -> exists a b, rd al (bidx al k) = Some a /\ rd bl (bidx bl k) = Some b /\
     pair_ok eps a b (first_arc al (bidx al k)) (first_arc bl (bidx bl k)) (fst t) (fst (snd t)) (snd (snd t))).
  { intros k t Hk. pose proof (rd_Some_bound _ _ _ Hk) as Bk. assert (Bk' : 0 <= k < Z.max (zlen al) (zlen bl)) by lia. destruct (Xa k Bk') as (A1 & A2). destruct (Xb k Bk') as (B1 & B2). rewrite A1 in A2. rewrite B1 in B2.
    destruct (rd_in_bound al _ A2) as (a & Ra). destruct (rd_in_bound bl _ B2) as (b & Rb). exists a, b. split; auto. split; auto. apply (HT k k t); auto. apply rd_zrange. lia. }
  assert (LEN : map (fun x => zlen (fst (snd x))) ts = map (fun x => zlen (all_arcs (fst x))) ts /\ map (fun x => zlen (snd (snd x))) ts = map (fun x => zlen (all_arcs (fst x))) ts).
  { split; apply map_ext_in; intros t Ht; apply In_rd in Ht; destruct Ht as (k & _ & Hk); destruct (PER k t Hk) as (a & b & _ & _ & PK); apply PK. }
  destruct LEN as (LA & LB).
  assert (SA : splits_of (map (fun x => fst (snd x)) ts) = splits_of (map all_arcs (map fst ts))) by (unfold splits_of; rewrite !map_map; f_equal; exact LA).
  assert (SB : splits_of (map (fun x => snd (snd x)) ts) = splits_of (map all_arcs (map fst ts))) by (unfold splits_of; rewrite !map_map; f_equal; exact LB).
  assert (ZA : zlen (concat (map (fun x => fst (snd x)) ts)) = zlen (concat (concat (map fst ts)))).
  { rewrite <- concat_map_concat, <- !zsum_zlen, !map_map. f_equal. exact LA. }
  assert (ZB : zlen (concat (map (fun x => snd (snd x)) ts)) = zlen (concat (concat (map fst ts)))).
  { rewrite <- concat_map_concat, <- !zsum_zlen, !map_map. f_equal. exact LB. }
  split; [f_equal; f_equal; f_equal; rewrite <- create_ok, map_map; reflexivity|]. split; [rewrite zlen_map; lia|]. split; [exact ZA|]. split; [exact ZB|].
  intros k a b c Ha Hb Hc. rewrite rd_map in Hc. destruct (rd ts k) as [t|] eqn:Hk; [|discriminate]. injection Hc as <-.
  destruct (PER k t Hk) as (a' & b' & Ha' & Hb' & PK). assert (a' = a) by congruence. assert (b' = b) by congruence. subst a' b'. cbv zeta.
  destruct PK as (K1 & K2 & K3 & K4 & K5 & K6). pose proof (rd_Some_bound _ _ _ Hk) as Bk.
  assert (OA : off1 (map (fun x => fst (snd x)) ts) k = first_arc (map fst ts) k).
  { unfold first_arc. pose proof (f_equal (fun l => rd l k) SA) as Q. cbn beta in Q. rewrite !rd_splits_off in Q by (rewrite !zlen_map; lia). congruence. }
  assert (OB : off1 (map (fun x => snd (snd x)) ts) k = first_arc (map fst ts) k).
  { unfold first_arc. pose proof (f_equal (fun l => rd l k) SB) as Q. cbn beta in Q. rewrite !rd_splits_off in Q by (rewrite !zlen_map; lia). congruence. }
  assert (RA : forall j i, rd (fst (snd t)) j = Some i -> rd (concat (map (fun x => fst (snd x)) ts)) (first_arc (map fst ts) k + j) = Some i).
  { intros j i Hj. rewrite <- OA. apply (rd_concat_off _ k (fst (snd t)) j i); auto. now rewrite rd_map, Hk. }
  assert (RB : forall j i, rd (snd (snd t)) j = Some i -> rd (concat (map (fun x => snd (snd x)) ts)) (first_arc (map fst ts) k + j) = Some i).
  { intros j i Hj. rewrite <- OB. apply (rd_concat_off _ k (snd (snd t)) j i); auto. now rewrite rd_map, Hk. }
  split; [exact K3|]. split; [exact K4|]. split.
  - revert K5. apply is_int_ext. intros q (_ & Q). pose proof (apath_pos _ _ _ _ Q) as PQ.
    split; apply proj_ext; intros j Hj; specialize (PQ j Hj).
    + destruct (rd_in_bound (fst (snd t)) j) as (i & Hi); [lia|]. exists i, i. rewrite Z.add_0_l. split; auto. split; [now apply RA|]. destruct (Z.eq_dec i (-1)); auto.
    + destruct (rd_in_bound (snd (snd t)) j) as (i & Hi); [lia|]. exists i, i. rewrite Z.add_0_l. split; auto. split; [now apply RB|]. destruct (Z.eq_dec i (-1)); auto.
  - intros j u Hu. destruct (K6 j u Hu) as (i & i' & I1 & I2 & I3). exists i, i'. split; [now apply RA|]. split; [now apply RB|auto].
Qed.
Print Assumptions C25_intersect.

(** ** The weighted language *)
Lemma path_apath f s p t : path (all_arcs f) s p t -> exists q, apath f s q t /\ arcs_at f q = p.
Proof.
  induction 1 as [s|u p t H P (q & Q1 & Q2)]; [exists []; split; [constructor|reflexivity]|].
  apply In_rd in H. destruct H as (j & _ & Hj). exists (j :: q). split; [now apply ap_cons|]. rewrite (arcs_at_cons f j q u Hj). now rewrite Q2.
Qed.
Lemma apath_path f s q t : apath f s q t -> path (all_arcs f) s (arcs_at f q) t.
Proof. induction 1 as [s|j u q t H P IH]; [constructor|]. rewrite (arcs_at_cons f j q u H). constructor; auto. eapply rd_In; eauto. Qed.
Lemma path_succ f p : path (all_arcs f) 0 p (final f) -> exists q, successful f q /\ arcs_at f q = p.
Proof.
  intros H. assert (0 < nstates f).
  { destruct f as [|s0 f]; [|unfold nstates; rewrite zlen_cons; pose proof (zlen_nonneg f); lia]. exfalso. change (final []) with (-1) in H. inversion H; subst. cbn in *. auto. }
  apply path_apath in H. destruct H as (q & Q1 & Q2). exists q. split; auto. split; auto.
Qed.

(** [f] accepts the string [w] with score [s]; [eps]: up to epsilons *)
Definition acc (eps : bool) (f : nfsa) (w : list Z) (s : Z) : Prop := if eps then accepts_str f w s else accepts f w s.
Lemma acc_succ eps f w s : acc eps f w s <-> exists q, successful f q /\ (if eps then strip (labels (arcs_at f q)) else labels (arcs_at f q)) = w ++ [-1] /\ score (arcs_at f q) = s.
Proof.
  unfold acc, accepts, accepts_str. split.
  - destruct eps; intros (p & P & L & S); apply path_succ in P; destruct P as (q & Q & <-); exists q; auto.
  - intros (q & (_ & Q) & L & S). apply apath_path in Q. destruct eps; eexists; split; eauto.
Qed.
Lemma int_language eps a b c pa pb : is_intersection eps a b c pa pb ->
  forall w s, acc eps c w s <-> exists s1 s2, acc eps a w s1 /\ acc eps b w s2 /\ s = s1 + s2.
Proof.
  intros (I1 & I2 & _) w s. rewrite acc_succ. split.
  - intros (q & Q & L & S). destruct (I1 q Q) as (A & B & LA & LB & SC). exists (score (arcs_at a (pa q))), (score (arcs_at b (pb q))).
    split; [|split; [|lia]]; apply acc_succ; [exists (pa q)|exists (pb q)]; split; auto; split; auto; unfold same_labels in *; destruct eps; congruence.
  - intros (s1 & s2 & H1 & H2 & ->). apply acc_succ in H1, H2. destruct H1 as (q1 & Q1 & L1 & S1). destruct H2 as (q2 & Q2 & L2 & S2).
    destruct (I2 q1 q2 Q1 Q2) as (q & Q & <- & <-); [unfold same_labels; destruct eps; congruence|]. exists q. destruct (I1 q Q) as (_ & _ & LA & _ & SC). split; auto. split; [|lia]. unfold same_labels in *. destruct eps; congruence.
Qed.

(** C25, in terms of strings: FSA k of the result accepts a string with score s iff
    both inputs do with scores that add up to s. *)
Theorem C25_language : forall sa sb eps al bl,
  is_sched (zlen (concat (concat al))) sa -> is_sched (zlen (concat (concat bl))) sb ->
  0 < zlen al -> 0 < zlen bl -> zlen al = zlen bl \/ zlen al = 1 \/ zlen bl = 1 ->
  (forall a, In a al -> input a /\ p_arcsorted a) -> (forall b, In b bl -> input b /\ p_arcsorted b) ->
  exists cl ma mb, intersect sa sb eps (flat_vec al) (flat_vec bl) = Some (flat_vec cl, ma, mb) /\ zlen cl = Z.max (zlen al) (zlen bl) /\
    forall k a b c, rd al (bidx al k) = Some a -> rd bl (bidx bl k) = Some b -> rd cl k = Some c ->
      forall w s, acc eps c w s <-> exists s1 s2, acc eps a w s1 /\ acc eps b w s2 /\ s = s1 + s2.
Proof.
  intros sa sb eps al bl H1 H2 H3 H4 H5 H6 H7. destruct (C25_intersect sa sb eps al bl H1 H2 H3 H4 H5 H6 H7) as (cl & ma & mb & E & ZC & _ & _ & K).
  exists cl, ma, mb. split; auto. split; auto. intros k a b c Ha Hb Hc. eapply int_language. apply (K k a b c Ha Hb Hc).
Qed.
Print Assumptions C25_language.

(** Unsorted input is refused. *)
Theorem C25_unsorted : forall sa sb eps al bl,
  is_sched (zlen (concat (concat al))) sa -> is_sched (zlen (concat (concat bl))) sb ->
  (forall a, In a al -> int32_labels a) -> (forall b, In b bl -> int32_labels b) ->
  (exists f, (In f al \/ In f bl) /\ ~ p_arcsorted f) -> intersect sa sb eps (flat_vec al) (flat_vec bl) = None.
Proof.
  intros sa sb eps al bl H1 H2 L1 L2 (f & Hf & NS). unfold intersect. destruct (_ && _); auto. destruct (_ || _ || _); auto. cbv zeta.
  destruct (props_sorted sa al H1 L1) as (pa & EA & PA). destruct (props_sorted sb bl H2 L2) as (pb & EB & PB). rewrite EA, EB.
  destruct (negb (Z.land (snd pa) kArcSorted =? 0)) eqn:Q1; [|reflexivity]. destruct (negb (Z.land (snd pb) kArcSorted =? 0)) eqn:Q2; [|reflexivity].
  exfalso. apply NS. destruct Hf; [now apply PA|now apply PB].
Qed.
Print Assumptions C25_unsorted.

(** A batch of two against one FSA; with an epsilon. *)
Definition c25_a1 : nfsa := [[mkArc 0 1 0 5; mkArc 0 1 7 2]; [mkArc 1 1 7 1; mkArc 1 2 (-1) 3]; []].
Definition c25_a2 : nfsa := [].
Definition c25_b : nfsa := [[mkArc 0 0 0 1; mkArc 0 1 7 10]; [mkArc 1 2 (-1) 0]; []].
Example C25_ex :
  (forall a, In a [c25_a1; c25_a2] -> input a /\ p_arcsorted a) /\ (forall b, In b [c25_b] -> input b /\ p_arcsorted b) /\
  is_sched (zlen (concat (concat [c25_a1; c25_a2]))) (zrange 4) /\ is_sched (zlen (concat (concat [c25_b]))) (zrange 3) /\
  option_map (fun r => (v_arcs (fst (fst r)), snd (fst r), snd r)) (intersect (zrange 4) (zrange 3) false (flat_vec [c25_a1; c25_a2]) (flat_vec [c25_b])) =
    Some ([mkArc 0 1 0 6; mkArc 0 2 7 12; mkArc 1 2 7 11; mkArc 2 3 (-1) 3], [0; 1; 2; 3], [0; 1; 1; 2]) /\
  acc true c25_a1 [7] 9 /\ acc true c25_b [7] 10.
Proof.
  assert (V1 : valid c25_a1) by (apply validb_ok; reflexivity). assert (V2 : valid c25_b) by (apply validb_ok; reflexivity).
  assert (L1 : int32_labels c25_a1) by (intros u [<-|[<-|[<-|[<-|[]]]]]; cbn; lia). assert (L2 : int32_labels c25_b) by (intros u [<-|[<-|[<-|[]]]]; cbn; lia).
  assert (S1 : p_arcsorted c25_a1). { intros st [<-|[<-|[<-|[]]]]; repeat constructor; left; vm_compute; reflexivity. }
  assert (S2 : p_arcsorted c25_b). { intros st [<-|[<-|[<-|[]]]]; repeat constructor; left; vm_compute; reflexivity. }
  split; [intros a [<-|[<-|[]]]; [split; [split|]; auto|split; [split; [left; reflexivity|intros u []]|intros st []]]|]. split; [intros b [<-|[]]; split; [split|]; auto|].
  split; [apply is_sched_zrange|]. split; [apply is_sched_zrange|]. split; [vm_compute; reflexivity|]. split.
  - exists [mkArc 0 1 0 5; mkArc 1 1 7 1; mkArc 1 2 (-1) 3]. split; [|split; reflexivity]. repeat (eapply path_cons with (a := mkArc _ _ _ _); [cbn; tauto|]). constructor.
  - exists [mkArc 0 1 7 10; mkArc 1 2 (-1) 0]. split; [|split; reflexivity]. repeat (eapply path_cons with (a := mkArc _ _ _ _); [cbn; tauto|]). constructor.
Qed.

(** With treat_epsilons_specially, different paths of the result may stand for the
    same pair of paths: their scores would be counted twice in the log semiring. *)
Theorem C25_epsilon_paths_refuted : exists a b c ma mb q q',
  valid a /\ valid b /\ intersect (zrange 2) (zrange 2) true (flat_vec [a]) (flat_vec [b]) = Some (flat_vec [c], ma, mb) /\
  successful c q /\ successful c q' /\ q <> q' /\ proj ma 0 0 q = proj ma 0 0 q' /\ proj mb 0 0 q = proj mb 0 0 q'.
Proof.
  exists [[mkArc 0 1 0 0]; [mkArc 1 2 (-1) 0]; []], [[mkArc 0 1 0 0]; [mkArc 1 2 (-1) 0]; []].
  exists [[mkArc 0 1 0 0; mkArc 0 2 0 0]; [mkArc 1 3 0 0]; [mkArc 2 3 0 0]; [mkArc 3 4 (-1) 0]; []], [0; -1; -1; 0; 1], [-1; 0; 0; -1; 1], [0; 2; 4], [1; 3; 4].
  split; [apply validb_ok; reflexivity|]. split; [apply validb_ok; reflexivity|]. split; [vm_compute; reflexivity|].
  split; [split; [vm_compute; reflexivity|]; repeat (eapply ap_cons with (a := mkArc _ _ _ _); [vm_compute; reflexivity|]); constructor|].
  split; [split; [vm_compute; reflexivity|]; repeat (eapply ap_cons with (a := mkArc _ _ _ _); [vm_compute; reflexivity|]); constructor|].
  split; [discriminate|]. split; vm_compute; reflexivity.
Qed.
Print Assumptions C25_epsilon_paths_refuted.
