(** * PruneTimeRange on nested frames *)
From Coq Require Import ZArith List Lia Bool QArith.
From Coq Require Import ZifyBool ZifyNat.
From Verif Require Import Base RaggedModel RaggedSpec RaggedProofs FsaSpec FsaLemmas RaggedOpsModel OpsModel RaggedOpsProofs ConnectProofs IDenseModel IPrunedModel IPrunedNest.
From Verif Require GraphProofs RmDevRagged RmDevMap EpsLoopProofs IDenseInit IDenseOut IDevCore UniqueProps ComposeProps PropsProps.
Import ListNotations.
Open Scope Z_scope.

Definition cnt (l : list bool) : Z := zsum (map b2z l).

Lemma o2n_cat ks i K x : rd ks i = Some K -> 0 <= x <= zlen K ->
  rd (old2new (concat ks)) (off1 ks i + x) = Some (cnt (concat (firstn (Z.to_nat i) ks)) + cnt (firstn (Z.to_nat x) K)).
Proof.
  intros H1 H2. rewrite rd_old2new.
  - pose proof (firstn_concat ks i K x H1 H2) as E. unfold off1. unfold off1 in E. rewrite E. unfold cnt. rewrite map_app, zsum_app. reflexivity.
  - split; [pose proof (off1_nonneg ks i); lia|]. pose proof (off1_bound ks (i + 1)). rewrite (off1_next _ _ _ H1) in H. lia.
Qed.
Lemma n2o_cat ks i K j q : rd ks i = Some K -> rd (kept_from 0 K) j = Some q ->
  rd (kept_from 0 (concat ks)) (cnt (concat (firstn (Z.to_nat i) ks)) + j) = Some (off1 ks i + q).
Proof.
  intros H1 H2. apply rd_kept_from_inv in H2 as (q' & -> & H3 & H4). cbn [Z.add].
  destruct (rd_concat_off _ _ _ _ _ H1 H3) as (H5 & _). pose proof (rd_kept_from _ 0 _ H5) as H6.
  pose proof (firstn_concat ks i K q' H1) as E. unfold off1 in *. rewrite E in H6 by (apply rd_Some_bound in H3; lia).
  rewrite map_app, zsum_app in H6. fold (cnt (concat (firstn (Z.to_nat i) ks))) in H6. rewrite H4 in H6. exact H6.
Qed.
Lemma shift_mapM {B} ks i K (G : Z -> option B) : rd ks i = Some K ->
  mapM (fun j => o <- rd (kept_from 0 (concat ks)) (cnt (concat (firstn (Z.to_nat i) ks)) + j);; G o) (zrange (cnt K)) =
  mapM (fun q => G (off1 ks i + q)) (kept_from 0 K).
Proof.
  intros H. assert (E : kept_from 0 K = map (fun j => match rd (kept_from 0 K) j with Some q => q | None => 0 end) (zrange (cnt K))).
  { unfold cnt. rewrite <- (zlen_kept_from K 0). apply list_ext_rd; [rewrite zlen_map, zlen_zrange by apply zlen_nonneg; reflexivity|].
    intros j Hj. rewrite rd_map, rd_zrange by auto. cbn. destruct (rd_in_bound _ _ Hj) as (y & Hy). now rewrite Hy. }
  rewrite E, RaggedListProofs.mapM_map. apply PropsProps.mapM_ext. intros j Hj. apply in_zrange in Hj. unfold cnt in Hj. rewrite <- (zlen_kept_from K 0) in Hj.
  destruct (rd_in_bound _ _ Hj) as (q & Hq). rewrite Hq, (n2o_cat _ _ _ _ _ H Hq). reflexivity.
Qed.
Lemma cnt_filter {X} (P : X -> bool) l : cnt (map P l) = zlen (filter P l).
Proof. apply IDenseOut.count_filter. Qed.
Lemma cnt_nonneg l : 0 <= cnt l.
Proof. replace l with (map (fun x : bool => x) l) by apply map_id. rewrite cnt_filter. apply zlen_nonneg. Qed.
Lemma firstn_filter {X} (P : X -> bool) l : forall n, firstn (length (filter P (firstn n l))) (filter P l) = filter P (firstn n l).
Proof.
  induction l as [|x l IH]; intros [|n]; try reflexivity. cbn. destruct (P x); cbn; [f_equal|]; apply IH.
Qed.
Lemma cnt_prefix {X} (P : X -> bool) l x : firstn (Z.to_nat (cnt (firstn (Z.to_nat x) (map P l)))) (filter P l) = filter P (firstn (Z.to_nat x) l).
Proof. rewrite firstn_map, cnt_filter. unfold zlen. rewrite Nat2Z.id. apply firstn_filter. Qed.

Lemma mapM2 {A B C} (f : A -> option B) (g : A -> option C) l xs ys : mapM f l = Some xs -> mapM g l = Some ys ->
  mapM (fun q => x <- f q;; y <- g q;; Some (x, y)) l = Some (combine xs ys).
Proof.
  revert xs ys. induction l as [|a l IH]; intros xs ys H1 H2; cbn in *; [injection H1 as <-; reflexivity|].
  destruct (f a); [|discriminate]. destruct (g a); [|discriminate]. destruct (mapM f l) eqn:E1; [|discriminate]. destruct (mapM g l) eqn:E2; [|discriminate].
  injection H1 as <-. injection H2 as <-. rewrite (IH _ _ eq_refl eq_refl). reflexivity.
Qed.
Lemma mapM_fst {A B C} (f : A -> option B) (g : A -> option C) l xs ys : mapM f l = Some xs -> mapM g l = Some ys ->
  map fst (combine xs ys) = xs /\ map snd (combine xs ys) = ys.
Proof.
  intros H1 H2. apply mapM_length in H1. apply mapM_length in H2. revert ys H2. rewrite <- H1. clear. induction xs as [|x xs IH]; intros [|y ys] H; cbn in *; try discriminate; auto.
  injection H as H. destruct (IH _ H) as (E1 & E2). rewrite E1, E2. auto.
Qed.

Lemma map_repeat {A B} (f : A -> B) x n : map f (repeat x n) = repeat (f x) n.
Proof. induction n; cbn; congruence. Qed.

(** dropping empty rows *)
Lemma drop_len {X Y} (P : X -> bool) (h : X -> list Y) l : (forall x, In x l -> P x = false -> h x = []) ->
  concat (map h (filter P l)) = concat (map h l).
Proof.
  induction l as [|x l IH]; intros H; [reflexivity|]. cbn. rewrite <- IH by (intros; apply H; auto using in_cons). destruct (P x) eqn:E; [reflexivity|].
  rewrite (H x) by auto using in_eq. reflexivity.
Qed.
Lemma drop_splits {X Y} (P : X -> bool) (h : X -> list Y) l : (forall x, In x l -> P x = false -> h x = []) ->
  0 :: map (fun q => off1 (map h l) (q + 1)) (kept_from 0 (map P l)) = splits_of (map h (filter P l)).
Proof.
  intros H. apply list_ext_rd.
  - rewrite zlen_cons, zlen_map, zlen_kept_from, zlen_splits_of, zlen_map. fold (cnt (map P l)). rewrite cnt_filter. lia.
  - intros i Hi. rewrite zlen_cons, zlen_map, zlen_kept_from in Hi. fold (cnt (map P l)) in Hi. rewrite cnt_filter in Hi.
    rewrite rd_splits_off by (rewrite zlen_map; lia). destruct (Z.eq_dec i 0) as [->|Hz]; [reflexivity|].
    replace i with (i - 1 + 1) at 1 by lia. rewrite rd_cons_S, rd_map by lia.
    destruct (rd_in_bound (kept_from 0 (map P l)) (i - 1)) as (q & Hq); [rewrite zlen_kept_from; fold (cnt (map P l)); rewrite cnt_filter; lia|].
    rewrite Hq. cbn [option_map]. f_equal. apply rd_kept_from_inv in Hq as (q' & -> & H1 & H2). cbn [Z.add].
    rewrite rd_map in H1. destruct (rd l q') as [x|] eqn:Ex; [|discriminate]. injection H1 as Hx. pose proof (rd_Some_bound _ _ _ Ex) as Bq.
    unfold off1. rewrite !firstn_map. fold (cnt (firstn (Z.to_nat q') (map P l))) in H2.
    assert (E : firstn (Z.to_nat i) (filter P l) = filter P (firstn (Z.to_nat (q' + 1)) l)).
    { rewrite <- cnt_prefix. do 2 f_equal. replace (Z.to_nat (q' + 1)) with (S (Z.to_nat q')) by lia.
      unfold rd in Ex. destruct (q' <? 0) eqn:?; [lia|]. rewrite (firstn_snoc (map P l) (Z.to_nat q') (P x)); [|rewrite nth_error_map, Ex; reflexivity].
      unfold cnt in *. rewrite map_app, zsum_app, H2, Hx. cbn. unfold zsum. cbn. lia. }
    rewrite E, drop_len; [reflexivity|]. intros y Hy. apply H. rewrite <- (firstn_skipn (Z.to_nat (q' + 1)) l). apply in_or_app. now left.
Qed.
Lemma drop_ids {X Y} (P : X -> bool) (h : X -> list Y) l : (forall x, In x l -> P x = false -> h x = []) -> forall r o,
  map (fun st => o + cnt (firstn (Z.to_nat (st - r)) (map P l))) (ids_from r (map h l)) = ids_from o (map h (filter P l)).
Proof.
  induction l as [|x l IH]; intros H r o; [reflexivity|]. cbn [map ids_from]. rewrite map_app.
  assert (E : map (fun st => o + cnt (firstn (Z.to_nat (st - r)) (P x :: map P l))) (ids_from (r + 1) (map h l)) =
              map (fun st => (o + b2z (P x)) + cnt (firstn (Z.to_nat (st - (r + 1))) (map P l))) (ids_from (r + 1) (map h l))).
  { apply map_ext_in. intros st Hst. assert (r + 1 <= st) by (revert Hst; generalize (r + 1); clear; induction (map h l) as [|y m IH]; intros a Ha; [easy|]; cbn in Ha; apply in_app_or in Ha as [Ha|Ha]; [apply repeat_spec in Ha; lia|apply IH in Ha; lia]).
    replace (Z.to_nat (st - r)) with (S (Z.to_nat (st - (r + 1)))) by lia. cbn [firstn]. unfold cnt. cbn [map]. unfold zsum. cbn [fold_right]. lia. }
  rewrite E, IH by (intros; apply H; auto using in_cons). cbn [filter]. destruct (P x) eqn:Ex.
  - cbn [map ids_from b2z]. f_equal. rewrite map_repeat. f_equal. rewrite Z.sub_diag. change (o + 0 = o). lia.
  - rewrite (H x) by auto using in_eq. cbn. now rewrite Z.add_0_r.
Qed.

(** marked frames: a flag for every state; for every arc its backward score and the
    arc with its new destination *)
Notation mframe := (list (list ((sinfo * bool) * list (option Z * ainfo)))).
Definition setd (x : ainfo) (d : Z) : ainfo := mkA (i_arc x) (i_ll x) d (i_end x).
Definition flg (p : (sinfo * bool) * list (option Z * ainfo)) : bool := snd (fst p).
Definition fna (z : option Z * ainfo) : bool := is_finite (fst z).
Definition keepM (M : mframe) : nframe :=
  map (fun q => map (fun p => (fst (fst p), map snd (filter fna (snd p)))) (filter flg q)) M.
Definition ks_of (M : mframe) : list bool := map flg (concat M).
Definition ka_of (M : mframe) : list bool := map fna (concat (rows M)).

Lemma keep_concat (M : mframe) : concat (keepM M) = map (fun p => (fst (fst p), map snd (filter fna (snd p)))) (filter flg (concat M)).
Proof. unfold keepM. rewrite IDenseOut.filter_concat, concat_map, map_map. reflexivity. Qed.

Section Frames.
Context (Ms : list mframe) (old : list fr) (c : cfg) (n : Z).
Hypothesis Hn : c_n c = n.
Hypothesis HM : forall i M, rd Ms i = Some M -> zlen M = n.
Hypothesis Hlen : zlen old = zlen Ms.
(** the flat frames; the arcs still have their old destinations *)
Hypothesis Hold : forall i f M, rd old i = Some f -> rd Ms i = Some M ->
  f_rs1 f = splits_of M /\ f_ids1 f = ids_of M /\ f_states f = map (fun p => fst (fst p)) (concat M) /\
  f_rs2 f = splits_of (rows M) /\ f_ids2 f = ids_of (rows M) /\ zlen (f_arcs f) = zlen (concat (rows M)).
(** the arcs to keep *)
Hypothesis Hold2 : forall i f M z k r j p s xs, rd old i = Some f -> rd Ms i = Some M -> forall u, at_arc M u k r j p s xs z -> fna z = true ->
  exists a, rd (f_arcs f) u = Some a /\
    (if i + 1 =? zlen Ms then snd z = a
     else exists M' q', rd Ms (i + 1) = Some M' /\ rd M' k = Some q' /\ 0 <= i_dst a <= zlen q' /\ snd z = setd a (cnt (firstn (Z.to_nat (i_dst a)) (map flg q')))).
Hypothesis Hdrop : forall i M p, rd Ms i = Some M -> In p (concat M) -> flg p = false -> filter fna (snd p) = [].

Let keepS := map ks_of Ms.
Let keepA := map ka_of Ms.
Let offS := exsum (map (fun f => zlen (f_states f)) old).
Let offA := exsum (map (fun f => zlen (f_arcs f)) old).

Lemma offS_ok : offS = splits_of keepS.
Proof.
  unfold offS, splits_of, keepS. f_equal. rewrite map_map. apply map_rel; [exact Hlen|]. intros i f M Hf HM'. destruct (Hold _ _ _ Hf HM') as (_ & _ & E & _).
  rewrite E. unfold ks_of. now rewrite !zlen_map.
Qed.
Lemma offA_ok : offA = splits_of keepA.
Proof.
  unfold offA, splits_of, keepA. f_equal. rewrite map_map. apply map_rel; [exact Hlen|]. intros i f M Hf HM'. destruct (Hold _ _ _ Hf HM') as (_ & _ & _ & _ & _ & E).
  rewrite E. unfold ka_of. now rewrite !zlen_map.
Qed.

Lemma cum_ok ks : mapM (rd (old2new (concat ks))) (splits_of ks) = Some (map (fun i => cnt (concat (firstn (Z.to_nat i) ks))) (zrange (zlen ks + 1))).
Proof.
  clear. apply mapM_by_rd; [rewrite zlen_map, zlen_zrange, zlen_splits_of by (pose proof (zlen_nonneg ks); lia); reflexivity|].
  intros i x Hi. pose proof (rd_Some_bound _ _ _ Hi) as Bi. rewrite zlen_splits_of in Bi. rewrite rd_splits_off in Hi by lia. injection Hi as <-.
  rewrite rd_map, rd_zrange by lia. cbn [option_map]. destruct (Z.eq_dec i (zlen ks)) as [->|].
  - rewrite EpsLoopProofs.off1_all, rd_old2new by (pose proof (zlen_nonneg (concat ks)); lia). unfold cnt, zlen. rewrite !Nat2Z.id, !firstn_all. reflexivity.
  - destruct (rd_in_bound ks i) as (K & HK); [lia|]. rewrite <- (Z.add_0_r (off1 ks i)). rewrite (o2n_cat _ _ _ _ HK) by (pose proof (zlen_nonneg K); lia).
    change (cnt (firstn (Z.to_nat 0) K)) with 0. f_equal. lia.
Qed.
Lemma cum_next (ks : list (list bool)) i K : rd ks i = Some K -> cnt (concat (firstn (Z.to_nat (i + 1)) ks)) = cnt (concat (firstn (Z.to_nat i) ks)) + cnt K.
Proof.
  clear. intros H. pose proof (rd_Some_bound _ _ _ H). replace (Z.to_nat (i + 1)) with (S (Z.to_nat i)) by lia. unfold rd in H. destruct (i <? 0) eqn:?; [lia|].
  rewrite (firstn_snoc _ _ _ H), concat_app. unfold cnt. rewrite map_app, zsum_app. cbn. now rewrite app_nil_r.
Qed.

Lemma frame_ok i f M : rd old i = Some f -> rd Ms i = Some M ->
  let o2nS := old2new (concat keepS) in let o2nA := old2new (concat keepA) in
  let n2oS := kept_from 0 (concat keepS) in let n2oA := kept_from 0 (concat keepA) in
  let oS := off1 keepS i in let oA := off1 keepA i in
  let nS0 := cnt (concat (firstn (Z.to_nat i) keepS)) in let nA0 := cnt (concat (firstn (Z.to_nat i) keepA)) in
  exists rs1 per arcs,
   mapM (fun k => x <- rd (f_rs1 f) k;; p0 <- rd o2nS oS;; p <- rd o2nS (oS + x);; Some (p - p0)) (zrange (c_n c + 1)) = Some rs1 /\
   mapM (fun j =>
          o <- rd n2oS (nS0 + j);;
          k <- rd (f_ids1 f) (o - oS);;
          e <- rd (f_rs2 f) (o - oS + 1);; p <- rd o2nA (e + oA);;
          s <- rd (f_states f) (o - oS);;
          Some (k, p - nA0, s)) (zrange (cnt (ks_of M))) = Some per /\
   mapM (fun j =>
          o <- rd n2oA (nA0 + j);;
          st <- rd (f_ids2 f) (o - oA);; k <- rd (f_ids1 f) st;;
          p <- rd o2nS (st + oS);;
          a <- rd (f_arcs f) (o - oA);;
          d <- (if i + 1 =? zlen Ms then Some (i_dst a)
                else
                  nf <- rd old (i + 1);; oS' <- rd offS (i + 1);;
                  x <- rd (f_rs1 nf) k;;
                  q0 <- rd o2nS (oS' + x);; q1 <- rd o2nS (oS' + (x + i_dst a));;
                  Some (q1 - q0));;
          Some (p - nS0, mkA (i_arc a) (i_ll a) d (i_end a))) (zrange (cnt (ka_of M))) = Some arcs /\
   isA (mkFr rs1 (map (fun x => fst (fst x)) per) (map snd per) (0 :: map (fun x => snd (fst x)) per) (map fst arcs) (map snd arcs)) (keepM M).
Proof.
  intros Hf HMi o2nS o2nA n2oS n2oA oS oA nS0 nA0.
  destruct (Hold _ _ _ Hf HMi) as (F1 & F2 & F3 & F4 & F5 & F6). pose proof (HM _ _ HMi) as Ln.
  assert (KS : rd keepS i = Some (ks_of M)) by (unfold keepS; rewrite rd_map, HMi; reflexivity).
  assert (KA : rd keepA i = Some (ka_of M)) by (unfold keepA; rewrite rd_map, HMi; reflexivity).
  assert (ZS : zlen (ks_of M) = zlen (concat M)) by (unfold ks_of; apply zlen_map).
  assert (ZA : zlen (ka_of M) = zlen (concat (rows M))) by (unfold ka_of; apply zlen_map).
  assert (oS0 : rd o2nS oS = Some nS0).
  { unfold o2nS, oS. rewrite <- (Z.add_0_r (off1 keepS i)). rewrite (o2n_cat _ _ _ _ KS) by (pose proof (zlen_nonneg (ks_of M)); lia). change (cnt (firstn (Z.to_nat 0) (ks_of M))) with 0. f_equal. unfold nS0. lia. }
  (* rs1 *)
  exists (splits_of (map (filter flg) M)).
  (* per *)
  set (ids := ids_of (map (filter flg) M)).
  set (spl := map (fun q => off1 (map (filter fna) (rows M)) (q + 1)) (kept_from 0 (ks_of M))).
  set (sts := map (fun p : (sinfo * bool) * list (option Z * ainfo) => fst (fst p)) (filter flg (concat M))).
  exists (combine (combine ids spl) sts).
  set (iar := map (fun st => cnt (firstn (Z.to_nat st) (ks_of M))) (ids_of (map (filter fna) (rows M)))).
  set (ars := map snd (filter fna (concat (rows M)))).
  exists (combine iar ars).
  assert (P1 : mapM (rd (ids_of M)) (kept_from 0 (ks_of M)) = Some ids) by apply RmDevRagged.n2o_ids.
  assert (P2 : mapM (fun q => Some (off1 (map (filter fna) (rows M)) (q + 1))) (kept_from 0 (ks_of M)) = Some spl) by (apply mapM_Some_map; auto).
  assert (P3 : mapM (rd (map (fun p : (sinfo * bool) * list (option Z * ainfo) => fst (fst p)) (concat M))) (kept_from 0 (ks_of M)) = Some sts) by apply RmDevRagged.n2o_values.
  pose proof (mapM2 _ _ _ _ _ P1 P2) as P12. pose proof (mapM2 _ _ _ _ _ P12 P3) as P123.
  destruct (mapM_fst _ _ _ _ _ P1 P2) as (Q1 & Q2). destruct (mapM_fst _ _ _ _ _ P12 P3) as (Q3 & Q4).
  assert (R1 : mapM (fun q => st <- rd (ids_of (rows M)) q;; Some (cnt (firstn (Z.to_nat st) (ks_of M)))) (kept_from 0 (ka_of M)) = Some iar).
  { pose proof (RmDevRagged.n2o_ids fna (rows M)) as E. unfold ka_of. unfold iar. revert E. generalize (ids_of (map (filter fna) (rows M))). generalize (kept_from 0 (map fna (concat (rows M)))).
    induction l as [|q l IH]; intros l0 E; cbn in *; [injection E as <-; reflexivity|]. destruct (rd (ids_of (rows M)) q); [|discriminate]. destruct (mapM (rd (ids_of (rows M))) l); [|discriminate].
    injection E as <-. now rewrite (IH _ eq_refl). }
  assert (R2 : mapM (fun q => Some (match rd (concat (rows M)) q with Some z => snd z | None => mkA 0 None 0 None end)) (kept_from 0 (ka_of M)) = Some ars).
  { unfold ka_of, ars. apply RmDevMap.kept_eval. intros j x Hx _. now rewrite Hx. }
  pose proof (mapM2 _ _ _ _ _ R1 R2) as R12. destruct (mapM_fst _ _ _ _ _ R1 R2) as (Q5 & Q6).
  split; [|split; [|split]].
  - rewrite Hn, <- Ln. apply mapM_by_rd; [rewrite zlen_splits_of, zlen_map, zlen_zrange by (pose proof (zlen_nonneg M); lia); reflexivity|].
    intros k x Hk. pose proof (rd_Some_bound _ _ _ Hk) as Bk. rewrite zlen_zrange in Bk by (pose proof (zlen_nonneg M); lia). rewrite rd_zrange in Hk by lia. injection Hk as <-.
    pose proof (off1_nonneg M k) as B0. pose proof (off1_bound M k) as B1.
    rewrite F1, rd_splits_off by lia. rewrite oS0. unfold o2nS, oS. rewrite (o2n_cat _ _ _ _ KS) by lia. fold nS0.
    pose proof (RmDevRagged.o2n_splits flg M) as E. pose proof (ComposeProps.mapM_at _ _ _ k (off1 M k) E) as E'. rewrite E' by (apply rd_splits_off; lia).
    fold (ks_of M). rewrite rd_old2new by lia. fold (cnt (firstn (Z.to_nat (off1 M k)) (ks_of M))). f_equal. lia.
  - unfold n2oS, nS0. rewrite (shift_mapM keepS i (ks_of M) (fun o => k <- rd (f_ids1 f) (o - oS);; e <- rd (f_rs2 f) (o - oS + 1);; p <- rd o2nA (e + oA);; s <- rd (f_states f) (o - oS);; Some (k, p - nA0, s)) KS).
    fold oS. rewrite <- P123. apply PropsProps.mapM_ext. intros q Hq. apply In_rd in Hq as (j & _ & Hq). apply rd_kept_from_inv in Hq as (q' & -> & Hq & _). rewrite !Z.add_0_l.
    apply rd_Some_bound in Hq. rewrite ZS in Hq. replace (oS + q' - oS) with q' by lia. rewrite F2, F4, F3. destruct (rd (ids_of M) q'); [|reflexivity].
    rewrite rd_splits_off by (unfold rows; rewrite zlen_map; lia).
    pose proof (off1_nonneg (rows M) (q' + 1)) as B0. pose proof (off1_bound (rows M) (q' + 1)) as B1.
    rewrite Z.add_comm. unfold o2nA, oA. rewrite (o2n_cat _ _ _ _ KA) by lia. fold nA0.
    pose proof (RmDevRagged.o2n_splits fna (rows M)) as E. pose proof (ComposeProps.mapM_at _ _ _ (q' + 1) (off1 (rows M) (q' + 1)) E) as E'.
    rewrite !rd_splits_off in E' by (rewrite ?zlen_map; unfold rows; rewrite ?zlen_map; lia). specialize (E' eq_refl).
    fold (ka_of M) in E'. rewrite rd_old2new in E' by lia. fold (cnt (firstn (Z.to_nat (off1 (rows M) (q' + 1))) (ka_of M))) in E'. injection E' as E'. rewrite <- E'.
    destruct (rd (map (fun p : (sinfo * bool) * list (option Z * ainfo) => fst (fst p)) (concat M)) q'); [|reflexivity]. do 3 f_equal. lia.
  - unfold n2oA, nA0. match goal with |- mapM (fun j => o <- _;; ?G) _ = _ => idtac end.
    rewrite (shift_mapM keepA i (ka_of M) (fun o => st <- rd (f_ids2 f) (o - oA);; k <- rd (f_ids1 f) st;; p <- rd o2nS (st + oS);; a <- rd (f_arcs f) (o - oA);;
          d <- (if i + 1 =? zlen Ms then Some (i_dst a)
                else nf <- rd old (i + 1);; oS' <- rd offS (i + 1);; x <- rd (f_rs1 nf) k;; q0 <- rd o2nS (oS' + x);; q1 <- rd o2nS (oS' + (x + i_dst a));; Some (q1 - q0));;
          Some (p - nS0, mkA (i_arc a) (i_ll a) d (i_end a))) KA).
    fold oA. rewrite <- R12. apply PropsProps.mapM_ext. intros q Hq. apply In_rd in Hq as (j & _ & Hq). apply rd_kept_from_inv in Hq as (q' & -> & Hq & _). rewrite !Z.add_0_l.
    replace (oA + q' - oA) with q' by lia. unfold ka_of in Hq. rewrite rd_map in Hq. destruct (rd (concat (rows M)) q') as [z|] eqn:Ez; [|discriminate]. injection Hq as Hz.
    destruct (arc_at _ _ _ Ez) as (k & r & j' & p & s & xs & AT). destruct (at_ids _ _ _ _ _ _ _ _ _ AT) as (_ & J2).
    pose proof AT as [A1 A2 A3 A4]. destruct (state_at _ _ _ _ _ _ A1 A2) as (J3 & J4 & _).
    rewrite F5, J2, F2, J4. rewrite Z.add_comm. unfold o2nS at 1, oS at 1. apply rd_Some_bound in J3 as B3. rewrite (o2n_cat _ _ _ _ KS) by lia. fold nS0.
    destruct (Hold2 _ _ _ _ _ _ _ _ _ _ Hf HMi _ AT Hz) as (a & Ha & Hd). rewrite Ha.
    assert (G : (if i + 1 =? zlen Ms then Some (i_dst a)
                else nf <- rd old (i + 1);; oS' <- rd offS (i + 1);; x <- rd (f_rs1 nf) k;; q0 <- rd o2nS (oS' + x);; q1 <- rd o2nS (oS' + (x + i_dst a));; Some (q1 - q0)) = Some (i_dst (snd z)) /\
                mkA (i_arc a) (i_ll a) (i_dst (snd z)) (i_end a) = snd z).
    { destruct (i + 1 =? zlen Ms).
      - rewrite Hd. split; [reflexivity|]. destruct a; reflexivity.
      - destruct Hd as (M' & q & HM' & Hq & Bd & Ed). rewrite Ed. cbn. split; [|reflexivity].
        destruct (rd_in_bound old (i + 1)) as (nf & Hnf); [rewrite Hlen; apply rd_Some_bound in HM'; lia|]. rewrite Hnf.
        destruct (Hold _ _ _ Hnf HM') as (G1 & _ & G3 & _). rewrite offS_ok.
        assert (KS' : rd keepS (i + 1) = Some (ks_of M')) by (unfold keepS; rewrite rd_map, HM'; reflexivity).
        pose proof (rd_Some_bound _ _ _ KS'). rewrite rd_splits_off by lia. pose proof (rd_Some_bound _ _ _ Hq). rewrite G1, rd_splits_off by lia.
        assert (ZS' : zlen (ks_of M') = zlen (concat M')) by (unfold ks_of; apply zlen_map).
        pose proof (off1_nonneg M' k). pose proof (off1_bound M' (k + 1)) as BB. rewrite (off1_next _ _ _ Hq) in BB.
        unfold o2nS. rewrite !(o2n_cat _ _ _ _ KS') by lia. f_equal. unfold ks_of.
        rewrite !firstn_map. unfold off1 at 1. rewrite (firstn_concat _ _ _ _ Hq) by lia.
        assert (E0 : firstn (Z.to_nat (off1 M' k)) (concat M') = concat (firstn (Z.to_nat k) M')).
        { rewrite <- (Z.add_0_r (off1 M' k)). unfold off1. rewrite (firstn_concat _ _ _ _ Hq) by lia. cbn. now rewrite app_nil_r. }
        rewrite E0, map_app. unfold cnt. rewrite map_app, zsum_app. lia. }
    destruct G as (G1 & G2). rewrite G1, G2. do 2 f_equal. lia.
  - cbn. split; [split|..]; cbn.
    + apply IDevCore.same_sizes. unfold keepM. rewrite !map_map. apply map_ext. intros. now rewrite zlen_map.
    + rewrite <- (map_map fst fst). rewrite Q3, Q1. unfold ids. apply IDevCore.same_sizes. unfold keepM. rewrite !map_map. apply map_ext. intros. now rewrite zlen_map.
    + rewrite Q4, keep_concat, map_map. reflexivity.
    + rewrite <- (map_map fst snd), Q3, Q2. unfold spl. unfold rows. rewrite keep_concat, !map_map. cbn [snd].
      unfold ks_of. rewrite (drop_splits flg (fun p => filter fna (snd p)) (concat M)) by (intros; eapply Hdrop; eauto).
      apply IDevCore.same_sizes. rewrite !map_map. apply map_ext. intros. now rewrite zlen_map.
    + rewrite Q5. unfold iar, rows. rewrite keep_concat, !map_map. cbn [snd]. unfold ids_of.
      pose proof (drop_ids flg (fun p => filter fna (snd p)) (concat M) (fun x Hx => Hdrop _ _ x HMi Hx) 0 0) as E.
      etransitivity; [|etransitivity; [exact E|]].
      * apply map_ext. intros. now rewrite Z.sub_0_r.
      * apply IDevCore.same_sizes. rewrite !map_map. apply map_ext. intros. now rewrite zlen_map.
    + rewrite Q6. unfold ars, rows. rewrite keep_concat, map_map. cbn [snd]. rewrite IDenseOut.filter_concat, map_map.
      rewrite <- (drop_len flg (fun p => filter fna (snd p)) (concat M)) by (intros; eapply Hdrop; eauto).
      rewrite concat_map, map_map. reflexivity.
Qed.
End Frames.

Lemma mapM_exists {B} (body : Z -> option B) (R : Z -> B -> Prop) n : 0 <= n -> (forall i, 0 <= i < n -> exists y, body i = Some y /\ R i y) ->
  exists ys, mapM body (zrange n) = Some ys /\ zlen ys = n /\ forall i y, rd ys i = Some y -> R i y.
Proof.
  intros H0 H. assert (G : forall l, (forall i, In i l -> 0 <= i < n) -> exists ys, mapM body l = Some ys).
  { induction l as [|i l IH]; intros Hl; [exists []; reflexivity|]. destruct (H i) as (y & Hy & _); [apply Hl, in_eq|]. destruct IH as (ys & Hys); [intros; apply Hl; auto using in_cons|].
    exists (y :: ys). cbn. now rewrite Hy, Hys. }
  destruct (G (zrange n)) as (ys & Hys); [intros i; apply in_zrange|]. exists ys. split; [exact Hys|]. split; [apply mapM_length in Hys; unfold zlen; rewrite Hys, zrange_length; lia|].
  intros i y Hy. destruct (mapM_rd _ _ _ _ _ Hys Hy) as (i' & H1 & H2). pose proof (rd_Some_bound _ _ _ H1) as Bi. rewrite zlen_zrange in Bi by lia. rewrite rd_zrange in H1 by lia. injection H1 as <-.
  destruct (H i Bi) as (y' & E & HR). congruence.
Qed.
Lemma Forall2_rd {A B} (R : A -> B -> Prop) l m : Forall2 R l m -> zlen l = zlen m /\ forall i x y, rd l i = Some x -> rd m i = Some y -> R x y.
Proof.
  intros H. split; [induction H; rewrite ?zlen_cons, ?zlen_nil; auto; lia|]. intros i x y. unfold rd. destruct (i <? 0); [discriminate|]. generalize (Z.to_nat i). clear i.
  induction H as [|a b l m Hab H IH]; intros [|n]; cbn; try discriminate; [intros [= <-] [= <-]; auto|apply IH].
Qed.
Lemma Forall2_of_rd {A B} (R : A -> B -> Prop) l : forall m, zlen l = zlen m -> (forall i x y, rd l i = Some x -> rd m i = Some y -> R x y) -> Forall2 R l m.
Proof.
  induction l as [|a l IH]; intros [|b m] H1 H2.
  - constructor.
  - rewrite zlen_nil, zlen_cons in H1. pose proof (zlen_nonneg m). lia.
  - rewrite zlen_nil, zlen_cons in H1. pose proof (zlen_nonneg l). lia.
  - constructor; [apply (H2 0); reflexivity|]. rewrite !zlen_cons in H1. apply IH; [lia|]. intros i x y Hx Hy. pose proof (rd_Some_bound _ _ _ Hx). apply (H2 (i + 1)); rewrite rd_cons_S by lia; auto.
Qed.

Section Prune.
Context (c : cfg) (ord : Z -> list Z) (Ho : fair ord).

Notation darc := (ainfo * option Z)%type.
Notation dframe := (list (list (sinfo * list darc))).
Definition nxt (r : list dframe) (last : list (list sinfo)) : list (list sinfo) :=
  match r with [] => last | Q :: _ => map (map fst) Q end.
Fixpoint bw_all (Ns : list nframe) (last : list (list sinfo)) : list dframe :=
  match Ns with
  | [] => []
  | N :: rest => bw c N (nxt (bw_all rest last) last) :: bw_all rest last
  end.
Fixpoint good_all (Ns : list nframe) (last : list (list sinfo)) : Prop :=
  match Ns with
  | [] => True
  | N :: rest => good_all rest last /\ forall k p nx, rd N k = Some p -> rd (nxt (bw_all rest last) last) k = Some nx -> Forall (ok1 c nx) p
  end.
(** the states of the last frame of the range *)
Definition lastS (NL : nframe) : list (list (sinfo * list ainfo)) :=
  map (map (fun p => (mkS (s_a (fst p)) (s_f (fst p)) (oneg (s_f (fst p))), snd p))) NL.

Lemma set_final_S f NL : isS f NL -> isS (set_final_probs f) (lastS NL).
Proof.
  intros [H1 H2 H3]. assert (E : map zlen NL = map zlen (lastS NL)) by (unfold lastS; rewrite map_map; apply map_ext; intros; now rewrite zlen_map).
  destruct (IDevCore.same_sizes _ _ E) as (E1 & E2). split; cbn; [congruence|congruence|]. rewrite H3. unfold lastS. rewrite <- concat_map, !map_map. reflexivity.
Qed.
Lemma set_final_A f NL : isA f NL -> isA (set_final_probs f) (lastS NL).
Proof.
  intros [H1 H2 H3 H4]. assert (E : rows (lastS NL) = rows NL) by (unfold rows, lastS; rewrite <- concat_map, map_map; reflexivity).
  split; [now apply set_final_S| | |]; cbn; rewrite E; assumption.
Qed.

Lemma zlen_bw N NX : zlen N = zlen NX -> zlen (bw c N NX) = zlen N.
Proof. intros H. unfold bw. now rewrite zlen_map, zlen_combine. Qed.
Lemma zlen_bw_all Ns last : zlen (bw_all Ns last) = zlen Ns.
Proof. induction Ns; cbn [bw_all]; [reflexivity|]. rewrite !zlen_cons. lia. Qed.
Lemma zlen_nxt n Ns last : Forall (fun N => zlen N = n) Ns -> zlen last = n -> zlen (nxt (bw_all Ns last) last) = n.
Proof.
  induction Ns as [|N Ns IH]; intros H1 H2; [exact H2|]. cbn. rewrite zlen_map. inversion H1; subst. rewrite zlen_bw; auto. now rewrite IH.
Qed.

Record res_of (r : fr * list bool * list bool) (B : dframe) : Prop := {
  ro_ks : snd (fst r) = map (fun p => is_finite (s_b (fst p))) (concat B);
  ro_ka : snd r = map (fun x => is_finite (snd x)) (concat (rows B));
  ro_1 : isS (fst (fst r)) B;
  ro_4 : f_rs2 (fst (fst r)) = splits_of (rows B); ro_5 : f_ids2 (fst (fst r)) = ids_of (rows B); ro_6 : f_arcs (fst (fst r)) = map fst (concat (rows B)) }.

Lemma backward_all_ok n lastf (LX : list (list (sinfo * list ainfo))) : isS lastf LX -> zlen LX = n -> forall fs Ns, Forall2 isA fs Ns -> Forall (fun N => zlen N = n) Ns ->
  good_all Ns (map (map fst) LX) -> exists rs, backward_all c fs lastf = Some rs /\ Forall2 res_of rs (bw_all Ns (map (map fst) LX)).
Proof.
  intros HL Ln fs Ns H. induction H as [|f N fs Ns Hf H IH]; intros HN HG; [exists []; split; [reflexivity|constructor]|].
  inversion HN as [|? ? HN1 HN2]; subst. cbn in HG. destruct HG as (HG1 & HG2). destruct (IH HN2 HG1) as (rs & E & HR). cbn [backward_all bw_all]. rewrite E.
  assert (LN : zlen (nxt (bw_all Ns (map (map fst) LX)) (map (map fst) LX)) = zlen N) by (erewrite (zlen_nxt (zlen LX)); [auto|auto|now rewrite zlen_map]).
  assert (G : exists f', propagate_backward c f (match rs with [] => lastf | x :: _ => fst (fst x) end) = Some f' /\ res_of f' (bw c N (nxt (bw_all Ns (map (map fst) LX)) (map (map fst) LX)))).
  { destruct HR as [|r B rs Bs HB HR].
    - destruct (backward_ok c f lastf N LX Hf HL HN1) as (f' & E1 & E2 & E3 & E4 & E5 & E6 & E7).
      + intros k p nx Hp Hnx. apply (HG2 k p (map fst nx) Hp). cbn. rewrite rd_map, Hnx. reflexivity.
      + eexists. split; [exact E1|]. split; auto. split; auto.
    - cbn [nxt] in *. destruct (backward_ok c f (fst (fst r)) N B Hf (ro_1 _ _ HB)) as (f' & E1 & E2 & E3 & E4 & E5 & E6 & E7).
      + rewrite zlen_map in LN. auto.
      + intros k p nx Hp Hnx. apply (HG2 k p (map fst nx) Hp). cbn. rewrite rd_map, Hnx. reflexivity.
      + eexists. split; [exact E1|]. split; auto. split; auto. }
  destruct G as (f' & E1 & E2). rewrite E1. eexists. split; [reflexivity|]. constructor; auto.
Qed.

(** new destinations *)
Definition rmap (q : list (sinfo * list darc)) (d : Z) : Z := cnt (firstn (Z.to_nat d) (map (fun p => is_finite (s_b (fst p))) q)).
Definition mark (first : bool) (B : dframe) (rm : list (Z -> Z)) : mframe :=
  map (fun q => map (fun p => ((fst p, first || is_finite (s_b (fst p))), map (fun x => (snd x, setd (fst x) (snd q (i_dst (fst x))))) (snd p))) (fst q)) (combine B rm).
Definition rms (Bs : list dframe) (i : Z) (B : dframe) : list (Z -> Z) :=
  match rd Bs (i + 1) with Some B' => map rmap B' | None => map (fun _ d => d) B end.
Definition mark_all (Bs : list dframe) : list mframe := imap (fun i B => mark (i =? 0) B (rms Bs i B)) 0 Bs.
Definition pruned (Ns : list nframe) (last : list (list sinfo)) : list nframe := map keepM (mark_all (bw_all Ns last)).

Lemma mark_row first B rm k q : rd (mark first B rm) k = Some q -> exists p g, rd B k = Some p /\ rd rm k = Some g /\
  q = map (fun p => ((fst p, first || is_finite (s_b (fst p))), map (fun x => (snd x, setd (fst x) (g (i_dst (fst x))))) (snd p))) p.
Proof. unfold mark. rewrite rd_map, rd_combine. destruct (rd B k); [|discriminate]. destruct (rd rm k); [|discriminate]. intros [= <-]. eauto. Qed.
Lemma mark_same first B rm : zlen B = zlen rm -> same B (mark first B rm).
Proof.
  intros H. unfold same. apply map_rel; [unfold mark; now rewrite zlen_map, zlen_combine|].
  intros k p q Hp Hq. destruct (mark_row _ _ _ _ _ Hq) as (p' & g & H1 & H2 & ->). rewrite Hp in H1. injection H1 as <-. rewrite map_map. apply map_ext. intros. cbn. now rewrite zlen_map.
Qed.
Lemma rd_bw_all Ns last i N : rd Ns i = Some N -> rd (bw_all Ns last) i = Some (bw c N (match rd (bw_all Ns last) (i + 1) with Some Q => map (map fst) Q | None => last end)).
Proof.
  revert i. induction Ns as [|N0 Ns IH]; intros i H; [now rewrite rd_nil in H|]. pose proof (rd_Some_bound _ _ _ H) as Bi. cbn [bw_all]. destruct (Z.eq_dec i 0) as [->|Hz].
  - rewrite rd_cons_0 in *. injection H as <-. rewrite rd_cons_S by lia. destruct (bw_all Ns last); reflexivity.
  - assert (exists j, i = j + 1) as (j & ->) by (exists (i - 1); lia). rewrite rd_cons_S in H by lia.
    rewrite !rd_cons_S by lia. rewrite <- (IH _ H). reflexivity.
Qed.
Lemma kmax_none l : kmax l = None -> Forall (fun x => x = None) l.
Proof.
  unfold kmax. assert (G : forall l a, fold_left omax l a = None -> a = None /\ Forall (fun x => x = None) l).
  { clear l. induction l as [|x l IH]; intros a H; cbn in H; [auto|]. apply IH in H as (H1 & H2). destruct a, x; cbn in H1; try discriminate. auto. }
  intros H. now apply G in H.
Qed.

Lemma prune_ok n fs Ns lastf NL : c_n c = n -> Forall2 isA fs Ns -> isS lastf NL -> Forall (fun N => zlen N = n) Ns -> zlen NL = n ->
  good_all Ns (map (map fst) (lastS NL)) ->
  exists fs', prune_frames ord c fs lastf = Some fs' /\ Forall2 isA fs' (pruned Ns (map (map fst) (lastS NL))).
Proof.
  intros Hn HF HL HN HNL HG. set (last := map (map fst) (lastS NL)) in *.
  assert (LL : zlen (lastS NL) = n) by (unfold lastS; now rewrite zlen_map). assert (LLa : zlen last = n) by (unfold last; now rewrite zlen_map).
  destruct (backward_all_ok n _ _ (set_final_S _ _ HL) LL fs Ns HF HN HG) as (rs & E & HR). fold last in HR. unfold prune_frames. rewrite E.
  set (Bs := bw_all Ns last) in *. set (Ms := mark_all Bs). destruct (Forall2_rd _ _ _ HR) as (LR & HR').
  assert (LM : zlen Ms = zlen Bs) by apply zlen_imap.
  assert (LBs : zlen Bs = zlen Ns) by apply zlen_bw_all.
  assert (LF : zlen fs = zlen Ns) by apply (Forall2_rd _ _ _ HF).
  assert (HB : forall i B, rd Bs i = Some B -> zlen B = n).
  { intros i B HB. pose proof (rd_Some_bound _ _ _ HB) as Bi. destruct (rd_in_bound Ns i) as (N & HNi); [lia|]. pose proof (rd_bw_all _ last _ _ HNi) as E1. fold Bs in E1. rewrite HB in E1. injection E1 as ->.
    assert (Z1 : zlen N = n) by (rewrite Forall_forall in HN; apply HN; eapply rd_In; eauto). rewrite zlen_bw; [exact Z1|]. rewrite Z1.
    assert (G : forall Ns i, Forall (fun N => zlen N = n) Ns -> zlen (match rd (bw_all Ns last) i with Some Q => map (map fst) Q | None => last end) = n).
    { clear - LLa. induction Ns as [|N Ns IH]; intros i H; [cbn; rewrite rd_nil; exact LLa|]. inversion H as [|? ? Hz Hr]. cbn [bw_all]. rewrite rd_cons.
      destruct (i =? 0) eqn:E0.
      - replace i with 0 by lia. cbn. rewrite zlen_map, zlen_bw; auto. rewrite (zlen_nxt n); auto.
      - apply IH. auto. }
    symmetry. apply (G Ns (i + 1) HN). }
  assert (HM : forall i M, rd Ms i = Some M -> exists B, rd Bs i = Some B /\ M = mark (i =? 0) B (rms Bs i B) /\ zlen (rms Bs i B) = zlen B).
  { intros i M H. unfold Ms, mark_all in H. pose proof (rd_Some_bound _ _ _ H) as Bi. rewrite zlen_imap in Bi. destruct (rd_in_bound _ _ Bi) as (B & HBi). rewrite rd_imap, HBi in H.
    cbn in H. injection H as <-. exists B. split; [exact HBi|]. split; [reflexivity|]. unfold rms. destruct (rd Bs (i + 1)) as [B'|] eqn:E'; rewrite zlen_map; [|reflexivity].
    now rewrite (HB _ _ HBi), (HB _ _ E'). }
  assert (EK : match map (fun x => snd (fst x)) rs with [] => [] | x :: r => map (fun _ => true) x :: r end = map ks_of Ms).
  { apply list_ext_rd.
    - rewrite zlen_map, LM, <- LR. destruct rs; [reflexivity|]. cbn [map]. rewrite !zlen_cons, zlen_map. reflexivity.
    - intros i Hi. assert (Hi' : 0 <= i < zlen rs) by (destruct rs; [exact Hi|cbn [map] in Hi; rewrite zlen_cons, zlen_map in Hi; rewrite zlen_cons; exact Hi]).
      destruct (rd_in_bound Bs i) as (B & HBi); [lia|]. destruct (rd_in_bound rs i Hi') as (r & Hr). destruct (rd_in_bound Ms i) as (M & HMi); [lia|].
      rewrite rd_map, HMi. cbn [option_map]. destruct (HM _ _ HMi) as (B' & HBi' & -> & ZB). rewrite HBi in HBi'. injection HBi' as <-.
      pose proof (HR' _ _ _ Hr HBi) as RO.
      assert (EM : forall first, ks_of (mark first B (rms Bs i B)) = map (fun p => first || is_finite (s_b (fst p))) (concat B)).
      { intros first. unfold ks_of. rewrite !concat_map. f_equal. symmetry. apply map_rel; [unfold mark; now rewrite zlen_map, zlen_combine|].
        intros k p q Hp Hq. destruct (mark_row _ _ _ _ _ Hq) as (p' & g & H1 & H2 & ->). rewrite Hp in H1. injection H1 as <-. rewrite map_map. reflexivity. }
      rewrite EM. destruct rs as [|r0 rs]; [rewrite rd_nil in Hr; discriminate|]. cbn [map]. destruct (Z.eq_dec i 0) as [->|Hz].
      + rewrite rd_cons_0 in *. injection Hr as ->. rewrite (ro_ks _ _ RO), map_map. reflexivity.
      + replace (i =? 0) with false by lia. assert (exists j, i = j + 1) as (j & Ej) by (exists (i - 1); lia). rewrite Ej in Hr |- *. rewrite rd_cons_S in Hr by lia. rewrite rd_cons_S by lia. rewrite rd_map, Hr. cbn [option_map]. rewrite (ro_ks _ _ RO). reflexivity. }
  assert (EA : map snd rs = map ka_of Ms).
  { apply map_rel; [lia|]. intros i r M Hr HMi. destruct (HM _ _ HMi) as (B & HBi & -> & ZB). rewrite (ro_ka _ _ (HR' _ _ _ Hr HBi)).
    unfold ka_of, rows. rewrite !concat_map. do 2 f_equal. rewrite !map_map. apply map_rel; [unfold mark; now rewrite zlen_map, zlen_combine|].
    intros k p q Hp Hq. destruct (mark_row _ _ _ _ _ Hq) as (p' & g & H1 & H2 & ->). rewrite Hp in H1. injection H1 as <-. rewrite !map_map. apply map_ext. intros a. cbn. rewrite map_map. reflexivity. }
  set (old := map (fun x => fst (fst x)) rs).
  assert (LO : zlen old = zlen Ms) by (unfold old; rewrite zlen_map; lia).
  assert (FB : forall i f M, rd old i = Some f -> rd Ms i = Some M -> exists B, rd Bs i = Some B /\ M = mark (i =? 0) B (rms Bs i B) /\ same B M /\ isS f B /\
     f_rs2 f = splits_of (rows B) /\ f_ids2 f = ids_of (rows B) /\ f_arcs f = map fst (concat (rows B))).
  { intros i f M Hf HMi. destruct (HM _ _ HMi) as (B & HBi & HMe & ZB). unfold old in Hf. rewrite rd_map in Hf. destruct (rd rs i) as [r|] eqn:Er; [|discriminate]. injection Hf as <-.
    pose proof (HR' _ _ _ Er HBi) as RO. exists B. split; [exact HBi|]. split; [exact HMe|]. split; [rewrite HMe; apply mark_same; auto|]. destruct RO; auto. }
  assert (Hold : forall i f M, rd old i = Some f -> rd Ms i = Some M ->
    f_rs1 f = splits_of M /\ f_ids1 f = ids_of M /\ f_states f = map (fun p => fst (fst p)) (concat M) /\
    f_rs2 f = splits_of (rows M) /\ f_ids2 f = ids_of (rows M) /\ zlen (f_arcs f) = zlen (concat (rows M))).
  { intros i f M Hf HMi. destruct (FB _ _ _ Hf HMi) as (B & HBi & HMe & HS & [I1 I2 I3] & I4 & I5 & I6).
    destruct (same_refs _ _ HS) as (_ & _ & E1 & E2 & E3 & E4 & E5 & E6 & E7). rewrite I1, I2, I3, I4, I5, I6, zlen_map. repeat split; auto.
    subst M. rewrite !concat_map. f_equal. apply map_rel; [exact E7|].
    intros k p q Hp Hq. destruct (mark_row _ _ _ _ _ Hq) as (p' & g & H1 & H2 & ->). rewrite Hp in H1. injection H1 as <-. rewrite map_map. reflexivity. }
  assert (ZM : forall i M, rd Ms i = Some M -> zlen M = n).
  { intros i M HMi. destruct (HM _ _ HMi) as (B & HBi & -> & ZB). rewrite <- (HB _ _ HBi). unfold mark. now rewrite zlen_map, zlen_combine. }
  (* the backward score of a kept arc *)
  assert (BA : forall i B k r j p s xs z u, rd Bs i = Some B -> at_arc B u k r j p s xs z -> is_finite (snd z) = true ->
     exists d nx, rd (match rd Bs (i + 1) with Some Q => map (map fst) Q | None => last end) k = Some nx /\ rd nx (i_dst (fst z)) = Some d).
  { intros i B k r j p s xs z u HBi [A1 A2 A3 A4] Hfin. pose proof (rd_Some_bound _ _ _ HBi) as Bi. destruct (rd_in_bound Ns i) as (N & HNi); [lia|].
    pose proof (rd_bw_all _ last _ _ HNi) as E1. fold Bs in E1. rewrite HBi in E1. injection E1 as E1. rewrite E1 in A1. destruct (bw_row _ _ _ _ _ A1) as (p0 & nx & _ & Hnx & ->).
    rewrite rd_map in A2. destruct (rd p0 r) as [[s0 xs0]|]; [|discriminate]. cbn in A2. injection A2 as <- <-. rewrite rd_map in A3. destruct (rd xs0 j) as [x0|]; [|discriminate]. injection A3 as <-.
    cbn [fst snd] in *. exists (match rd nx (i_dst x0) with Some d => d | None => mkS 0 None None end), nx. split; [exact Hnx|]. unfold bl in Hfin.
    destruct (i_dst x0 =? -1); [discriminate|]. destruct (rd nx (i_dst x0)); [reflexivity|discriminate]. }
  assert (Hold2 : forall i f M z k r j p s xs, rd old i = Some f -> rd Ms i = Some M -> forall u, at_arc M u k r j p s xs z -> fna z = true ->
    exists a, rd (f_arcs f) u = Some a /\
    (if i + 1 =? zlen Ms then snd z = a
     else exists M' q', rd Ms (i + 1) = Some M' /\ rd M' k = Some q' /\ 0 <= i_dst a <= zlen q' /\ snd z = setd a (cnt (firstn (Z.to_nat (i_dst a)) (map flg q'))))).
  { intros i f M z k r j p s xs Hf HMi u AT Hz. destruct (FB _ _ _ Hf HMi) as (B & HBi & HMe & HS & [I1 I2 I3] & I4 & I5 & I6).
    destruct (same_refs _ _ HS) as (O1 & O2 & _). destruct AT as [A1 A2 A3 A4]. subst M. destruct (mark_row _ _ _ _ _ A1) as (p0 & g & H1 & H2 & ->).
    rewrite rd_map in A2. destruct (rd p0 r) as [[s0 xs0]|] eqn:Er; [|discriminate]. cbn in A2. injection A2 as <- <-. rewrite rd_map in A3. destruct (rd xs0 j) as [x0|] eqn:Ej; [|discriminate]. cbn in A3. injection A3 as <-.
    assert (AB : at_arc B u k r j p0 s0 xs0 x0) by (split; auto; now rewrite O1, O2). destruct (at_ids _ _ _ _ _ _ _ _ _ AB) as (J1 & _).
    exists (fst x0). split; [rewrite I6, rd_map, J1; reflexivity|]. cbn [snd]. destruct (i + 1 =? zlen Ms) eqn:El.
    - unfold rms in H2. destruct (rd Bs (i + 1)) eqn:E'; [apply rd_Some_bound in E'; lia|]. rewrite rd_map, H1 in H2. injection H2 as <-. unfold setd. destruct (fst x0); reflexivity.
    - pose proof (rd_Some_bound _ _ _ HMi) as Bi. destruct (rd_in_bound Ms (i + 1)) as (M' & HM'); [lia|]. destruct (HM _ _ HM') as (B' & HB' & HMe' & ZB').
      destruct (BA _ _ _ _ _ _ _ _ _ _ HBi AB Hz) as (d & nx & D1 & D2). rewrite HB' in D1. rewrite rd_map in D1. destruct (rd B' k) as [q0|] eqn:Eq; [|discriminate]. injection D1 as <-.
      destruct (rd_in_bound M' k) as (q' & Hq'); [rewrite (ZM _ _ HM'), <- (HB _ _ HB'); apply rd_Some_bound in Eq; lia|]. exists M', q'. split; [exact HM'|]. split; [exact Hq'|].
      rewrite HMe' in Hq'. destruct (mark_row _ _ _ _ _ Hq') as (p' & g' & H1' & H2' & ->). rewrite Eq in H1'. injection H1' as <-. rewrite zlen_map.
      pose proof (rd_Some_bound _ _ _ D2) as BD. rewrite zlen_map in BD. split; [lia|]. f_equal. unfold rms in H2. rewrite HB', rd_map, Eq in H2. injection H2 as <-.
      unfold rmap. do 2 f_equal. rewrite map_map. apply map_ext. intros. unfold flg. cbn. replace (i + 1 =? 0) with false by lia. reflexivity. }
  assert (Hdrop : forall i M p, rd Ms i = Some M -> In p (concat M) -> flg p = false -> filter fna (snd p) = []).
  { intros i M p HMi Hp Hfl. destruct (HM _ _ HMi) as (B & HBi & -> & ZB). apply in_concat in Hp as (q & Hq & Hp). apply In_rd in Hq as (k & _ & Hk).
    destruct (mark_row _ _ _ _ _ Hk) as (p0 & g & H1 & H2 & ->). apply in_map_iff in Hp as ([s xs] & <- & Hp). unfold flg in Hfl. cbn in Hfl |- *.
    destruct (i =? 0); [discriminate|]. cbn in Hfl. pose proof (rd_Some_bound _ _ _ HBi) as Bi. destruct (rd_in_bound Ns i) as (N & HNi); [lia|].
    pose proof (rd_bw_all _ last _ _ HNi) as E1. fold Bs in E1. rewrite HBi in E1. injection E1 as E1. rewrite E1 in H1. destruct (bw_row _ _ _ _ _ H1) as (p1 & nx & _ & Hnx & ->).
    apply in_map_iff in Hp as ([s1 xs1] & Hs1 & _). injection Hs1 as <- <-. unfold bst in Hfl. cbn [fst snd s_b] in Hfl.
    assert (A : Forall (fun x => bl c nx s1 x = None) xs1).
    { apply Forall_forall. intros x Hx. destruct (fin c (s_a s1)).
      - destruct (s_f s1) eqn:Ef; [discriminate|]. unfold bl. destruct (if i_dst x =? -1 then None else rd nx (i_dst x)); [|reflexivity]. rewrite Ef. destruct (oadd (i_ll x) (s_b s)); reflexivity.
      - destruct (kmax (map (bl c nx s1) xs1)) eqn:Ek; [discriminate|]. apply kmax_none in Ek. rewrite Forall_forall in Ek. apply Ek. now apply in_map. }
    rewrite map_map. clear - A. induction A as [|x xs Hx A IH]; [reflexivity|]. cbn. unfold fna at 1. cbn. rewrite Hx. exact IH. }
  rewrite EK, EA. fold old.
  rewrite (new2old_kept _ _ (Ho _)), (new2old_kept _ _ (Ho _)).
  pose proof (offS_ok Ms old LO Hold) as EoS. pose proof (offA_ok Ms old LO Hold) as EoA. rewrite EoS, EoA, !cum_ok.
  set (kS := map ks_of Ms) in *. set (kA := map ka_of Ms) in *.
  match goal with |- exists fs', mapM ?b (zrange _) = _ /\ _ => set (body := b) end.
  assert (ZK : zlen kS = zlen Ms) by (unfold kS; apply zlen_map). assert (ZKA : zlen kA = zlen Ms) by (unfold kA; apply zlen_map).
  destruct (mapM_exists body (fun i f => forall M, rd Ms i = Some M -> isA f (keepM M)) (zlen fs) (zlen_nonneg _)) as (fs' & E1 & E2 & E3).
  { intros i Hi. destruct (rd_in_bound Ms i) as (M & HMi); [lia|]. destruct (rd_in_bound old i) as (f & Hf); [lia|].
    destruct (frame_ok Ms old c n Hn ZM LO Hold Hold2 Hdrop i f M Hf HMi) as (rs1 & per & arcs & G1 & G2 & G3 & G4).
    fold kS kA in G1, G2, G3. rewrite EoS in G3. rewrite rd_splits_off in G3 by lia.
    assert (K1 : rd kS i = Some (ks_of M)) by (unfold kS; rewrite rd_map, HMi; reflexivity).
    assert (K2 : rd kA i = Some (ka_of M)) by (unfold kA; rewrite rd_map, HMi; reflexivity).
    eexists. split; [|intros M' HM'; rewrite HMi in HM'; injection HM' as <-; exact G4].
    unfold body. rewrite Hf, !rd_splits_off, !rd_map, !rd_zrange by lia. cbn [option_map].
    rewrite (cum_next _ _ _ K1), (cum_next _ _ _ K2). cbv beta.
    replace (cnt (concat (firstn (Z.to_nat i) kS)) + cnt (ks_of M) - cnt (concat (firstn (Z.to_nat i) kS))) with (cnt (ks_of M)) by lia.
    replace (cnt (concat (firstn (Z.to_nat i) kA)) + cnt (ka_of M) - cnt (concat (firstn (Z.to_nat i) kA))) with (cnt (ka_of M)) by lia.
    rewrite G1, G2. replace (zlen fs) with (zlen Ms) by lia. rewrite G3. reflexivity. }
  exists fs'. split; [exact E1|]. unfold pruned. fold Bs Ms. apply Forall2_of_rd; [rewrite zlen_map; lia|].
  intros i f N Hf HN'. rewrite rd_map in HN'. destruct (rd Ms i) as [M|] eqn:EM; [|discriminate]. injection HN' as <-. exact (E3 _ _ Hf _ EM).
Qed.
End Prune.
