(** * C41: DenseFsaVec. *)
From Coq Require Import ZArith List Lia Bool.
From Coq Require Import ZifyBool ZifyNat.
From Verif Require Import Base RaggedModel RaggedSpec RaggedProofs FsaSpec FsaLemmas EpsLoopProofs RaggedOpsModel RaggedOpsSpec RaggedOpsProofs RaggedCatProofs TransposeProofs OpsModel GraphModel GraphProofs LevProofs ConnectProofs ConnectProps DenseModel DenseSpec.
Import ListNotations.
Open Scope Z_scope.

Section D.
Variables (ninf N T C trunc : Z) (x : list (list (list Z))).
Hypothesis HX : shaped3 N T C x.
Notation rows_of := (segment_rows ninf T C x).

Lemma rd_flat q t : 0 <= q < N -> 0 <= t < T -> rd (concat x) (t + q * T) = Some (at2 x q t) /\ zlen (at2 x q t) = C.
Proof.
  destruct HX as (H1 & H2). intros Hq Ht. destruct (rd_in_bound x q ltac:(lia)) as (m & Hm). destruct (H2 m (rd_In _ _ _ Hm)) as (L & HR). destruct (rd_in_bound m t ltac:(lia)) as (row & Hr).
  unfold at2. rewrite Hm, Hr. split; [|apply HR; eapply rd_In; eauto]. rewrite Z.add_comm, (uniform_rd x T q t m); auto. intros row' Hr'. now apply H2.
Qed.
Lemma kept_range s d : 0 <= s < T -> 0 <= d -> 0 <= kept T s d /\ kept T s d = Z.min (s + d) T - s /\ s + kept T s d <= T.
Proof. unfold kept. lia. Qed.

(** indexes, last frames and rows *)
Definition idx_of (seg : list Z) : list Z := match seg with [q; s; d] => map (fun t => s + t + q * T) (zrange (kept T s d)) ++ [0] | _ => [] end.
Fixpoint last_of (cur : Z) (segs : list (list Z)) : list Z :=
  match segs with [] => [] | seg :: rest => cur + segment_frames T seg :: last_of (cur + segment_frames T seg + 1) rest end.
Fixpoint len_of (segs : list (list Z)) : Z := match segs with [] => 0 | seg :: rest => segment_frames T seg + 1 + len_of rest end.

Lemma seg_loop_ok segs : forall cur, Forall (segment_ok N T trunc) segs ->
  seg_loop N T trunc segs cur = Some (concat (map idx_of segs), last_of cur segs, cur + len_of segs).
Proof.
  induction segs as [|seg segs IH]; intros cur HF; [cbn; repeat f_equal; lia|]. inversion HF as [|? ? (q & s & d & -> & Hq & Hs & Hd & Ht) HF']; subst. cbn [seg_loop].
  replace ((0 <=? q) && (q <? N)) with true by lia. replace ((0 <=? s) && (s <? T)) with true by lia. replace (0 <=? d) with true by lia. replace (s + d <=? T + trunc) with true by lia. rewrite IH by auto.
  destruct (kept_range s d Hs Hd) as (K1 & K2 & K3). rewrite <- K2. cbn [map concat idx_of last_of len_of segment_frames]. rewrite <- app_assoc. cbn [app]. replace (cur + (kept T s d + 1 + len_of segs)) with (cur + kept T s d + 1 + len_of segs) by lia. reflexivity.
Qed.
Lemma seg_loop_some segs : forall cur r, seg_loop N T trunc segs cur = Some r -> Forall (segment_ok N T trunc) segs.
Proof using.
  clear. induction segs as [|seg segs IH]; intros cur r H; [constructor|]. cbn [seg_loop] in H. destruct seg as [|q [|s [|d [|]]]]; try discriminate.
  destruct ((0 <=? q) && (q <? N)) eqn:E1; [|discriminate]. destruct ((0 <=? s) && (s <? T)) eqn:E2; [|discriminate]. destruct (0 <=? d) eqn:E3; [|discriminate]. destruct (s + d <=? T + trunc) eqn:E4; [|discriminate].
  destruct (seg_loop N T trunc segs _) eqn:E; [|discriminate]. constructor; [|eapply IH; eauto]. exists q, s, d. repeat split; auto; lia.
Qed.
Lemma zlen_rows seg : segment_ok N T trunc seg -> zlen (rows_of seg) = segment_frames T seg + 1 /\ 0 <= segment_frames T seg.
Proof.
  intros (q & s & d & -> & Hq & Hs & Hd & Ht). destruct (kept_range s d Hs Hd) as (K1 & _). cbn [segment_rows segment_frames]. rewrite zlen_app, zlen_map, zlen_zrange by lia. change (zlen [_]) with 1. lia.
Qed.
(** the rows before the last frames are set: the placeholder selects row 0 *)
Definition raw_of (seg : list Z) : list (list Z) := match seg with [q; s; d] => map (fun t => at2 x q (s + t)) (zrange (kept T s d)) ++ [at2 x 0 0] | _ => [] end.
Lemma select_ok segs : Forall (segment_ok N T trunc) segs -> mapM (rd (concat x)) (concat (map idx_of segs)) = Some (concat (map raw_of segs)).
Proof.
  induction 1 as [|seg segs (q & s & d & -> & Hq & Hs & Hd & Ht) HF IH]; [reflexivity|]. destruct (kept_range s d Hs Hd) as (K1 & K2 & K3). cbn [map concat idx_of raw_of].
  assert (G : forall A B (f : A -> option B) l1 l2 r1 r2, mapM f l1 = Some r1 -> mapM f l2 = Some r2 -> mapM f (l1 ++ l2) = Some (r1 ++ r2)).
  { intros A B f l1. induction l1 as [|a l1 IHl]; intros l2 r1 r2 H1 H2; cbn in *; [injection H1 as <-; auto|]. destruct (f a); [|discriminate]. destruct (mapM f l1) eqn:E; [|discriminate]. injection H1 as <-. now rewrite (IHl l2 l r2). }
  apply G; auto. apply G; [|cbn; destruct (rd_flat 0 0 ltac:(lia) ltac:(lia)) as (R & _); replace (0 + 0 * T) with 0 in R by lia; now rewrite R].
  assert (Q : forall l, (forall t, In t l -> 0 <= t < kept T s d) -> mapM (rd (concat x)) (map (fun t => s + t + q * T) l) = Some (map (fun t => at2 x q (s + t)) l)).
  { induction l as [|t l IHl]; intros Hl; cbn [map mapM]; auto. destruct (rd_flat q (s + t) Hq ltac:(specialize (Hl t (or_introl eq_refl)); lia)) as (-> & _). rewrite IHl; auto. intros; apply Hl; now right. }
  apply Q. intros t Hi. now apply in_zrange in Hi.
Qed.
Lemma zlen_raw segs : Forall (segment_ok N T trunc) segs -> zlen (concat (map raw_of segs)) = len_of segs.
Proof.
  induction 1 as [|seg segs (q & s & d & -> & Hq & Hs & Hd & Ht) HF IH]; [reflexivity|]. destruct (kept_range s d Hs Hd) as (K1 & _). cbn [map concat raw_of len_of segment_frames]. rewrite !zlen_app, IH, zlen_map, zlen_zrange by lia. change (zlen [_]) with 1. lia.
Qed.

Notation lastrow := (Some 0 :: map Some (repeat ninf (Z.to_nat C))).
Notation pre_row := (fun r : list Z => Some ninf :: map Some r).
Lemma set_last segs : Forall (segment_ok N T trunc) segs -> forall pre,
  foldM (fun sc j => wr sc j lastrow) (last_of (zlen pre) segs) (pre ++ map pre_row (concat (map raw_of segs))) = Some (pre ++ map (map Some) (concat (map rows_of segs))).
Proof.
  induction 1 as [|seg segs (q & s & d & -> & Hq & Hs & Hd & Ht) HF IH]; intros pre; [reflexivity|]. destruct (kept_range s d Hs Hd) as (K1 & _). cbn [map concat last_of raw_of segment_rows segment_frames foldM].
  set (A := map (fun t => at2 x q (s + t)) (zrange (kept T s d))). set (p1 := pre ++ map pre_row A). assert (L1 : zlen p1 = zlen pre + kept T s d) by (unfold p1, A; rewrite zlen_app, !zlen_map, zlen_zrange by lia; lia).
  rewrite <- app_assoc, map_app. cbn [app map]. rewrite app_assoc. fold p1. rewrite <- L1.
  assert (W : forall B (l1 : list B) y l2 z, wr (l1 ++ y :: l2) (zlen l1) z = Some (l1 ++ z :: l2)).
  { intros B l1 y l2 z. destruct (wr_Some (l1 ++ y :: l2) (zlen l1) z) as (l' & E & L & R); [rewrite zlen_app, zlen_cons; pose proof (zlen_nonneg l1); pose proof (zlen_nonneg l2); lia|].
    rewrite E. f_equal. apply list_ext_rd; [rewrite L, !zlen_app, !zlen_cons; lia|]. intros i Hi. rewrite R. destruct (i =? zlen l1) eqn:Ei.
    - replace i with (zlen l1) by lia. rewrite rd_app_r by lia. now replace (zlen l1 - zlen l1) with 0 by lia.
    - destruct (Z_lt_le_dec i (zlen l1)); [now rewrite !rd_app_l by lia|]. rewrite !rd_app_r by lia. rewrite !rd_cons. now replace (i - zlen l1 =? 0) with false by lia. }
  rewrite W. cbv beta iota. replace (p1 ++ lastrow :: map pre_row (concat (map raw_of segs))) with ((p1 ++ [lastrow]) ++ map pre_row (concat (map raw_of segs))) by (rewrite <- app_assoc; reflexivity).
  replace (zlen p1 + 1) with (zlen (p1 ++ [lastrow])) by (rewrite zlen_app; reflexivity). rewrite IH. unfold p1, A. rewrite !map_app, !map_map, <- !app_assoc. reflexivity.
Qed.
Lemma freeze_rows (l : list (list Z)) : mapM freeze (map (map Some) l) = Some l.
Proof using. clear. induction l as [|r l IH]; [reflexivity|]. cbn [map mapM]. replace (freeze (map Some r)) with (Some r); [now rewrite IH|]. unfold freeze. induction r as [|a r IHr]; [reflexivity|]. cbn [map mapM]. now rewrite <- IHr. Qed.
Lemma splits_last segs : Forall (segment_ok N T trunc) segs -> 0 :: map (fun z => z + 1) (last_of 0 segs) = splits_of (map rows_of segs).
Proof.
  intros HF. unfold splits_of, exsum. assert (G : forall cur, cur :: map (fun z => z + 1) (last_of cur segs) = exsum_from cur (map zlen (map rows_of segs))); [|apply G].
  induction HF as [|seg segs H HF IH]; intros cur; [reflexivity|]. cbn [map last_of exsum_from]. f_equal. destruct (zlen_rows seg H) as (-> & _). replace (cur + segment_frames T seg + 1) with (cur + (segment_frames T seg + 1)) by lia. apply IH.
Qed.

(** C41: for every tensor of shape (N, T, C) and every argument, the call succeeds
    exactly on a non-empty list of acceptable segments (and at least one class),
    and then the rows, row splits and durations are those of the segments. *)
Theorem C41_dense_fsa_vec segs :
  (dense_fsa_vec ninf N T C x segs trunc <> None <-> 0 <= trunc /\ segs <> [] /\ 0 < C /\ Forall (segment_ok N T trunc) segs) /\
  (forall d, dense_fsa_vec ninf N T C x segs trunc = Some d ->
     d = mkDense (concat (map rows_of segs)) (splits_of (map rows_of segs)) (map (segment_frames T) segs)).
Proof.
  assert (OK : 0 <= trunc -> segs <> [] -> 0 < C -> Forall (segment_ok N T trunc) segs ->
     dense_fsa_vec ninf N T C x segs trunc = Some (mkDense (concat (map rows_of segs)) (splits_of (map rows_of segs)) (map (segment_frames T) segs))).
  { intros H1 H2 H3 HF. unfold dense_fsa_vec. replace (0 <=? trunc) with true by lia. rewrite seg_loop_ok by auto. assert (0 < zlen segs) by (destruct segs as [|sg sgs]; [congruence|rewrite zlen_cons; pose proof (zlen_nonneg sgs); lia]).
    replace (0 <? zlen segs) with true by lia. replace (0 <? C) with true by lia. rewrite select_ok by auto. rewrite zlen_raw by auto. rewrite Z.add_0_l, Z.eqb_refl, map_map. cbn [tl map].
    pose proof (set_last segs HF []) as SL. cbn [app] in SL. change (zlen (@nil (list (option Z)))) with 0 in SL. rewrite SL, freeze_rows. rewrite splits_last by auto.
    rewrite (RaggedOpsProofs.mapM_zrange _ _ (map (segment_frames T) segs)); [|apply zlen_nonneg|apply zlen_map|].
    - rewrite zlen_splits_of. replace (zlen (map rows_of segs) + 1 - 1) with (zlen (map rows_of segs)) by lia. now rewrite rd_splits_last, Z.eqb_refl.
    - intros i Hi. rewrite !rd_splits_off by (rewrite zlen_map; lia). destruct (rd_in_bound segs i Hi) as (seg & Hs). rewrite rd_map, Hs. cbn [option_map]. rewrite (off1_next (map rows_of segs) i (rows_of seg)) by (rewrite rd_map, Hs; auto).
      rewrite Forall_forall in HF. destruct (zlen_rows seg (HF seg (rd_In _ _ _ Hs))) as (-> & _). f_equal. lia. }
  assert (INV : forall d, dense_fsa_vec ninf N T C x segs trunc = Some d -> 0 <= trunc /\ segs <> [] /\ 0 < C /\ Forall (segment_ok N T trunc) segs).
  { intros d H. unfold dense_fsa_vec in H. destruct (0 <=? trunc) eqn:E1; [|discriminate]. destruct (seg_loop N T trunc segs 0) as [((idx, last), cur)|] eqn:E2; [|discriminate]. apply seg_loop_some in E2. destruct (0 <? zlen segs) eqn:E3; [|discriminate]. destruct (0 <? C) eqn:E4; [|discriminate].
    repeat split; auto; try lia. intros ->. discriminate. }
  split.
  - split; [|intros (H1 & H2 & H3 & H4); rewrite OK by auto; discriminate]. intros H. destruct (dense_fsa_vec ninf N T C x segs trunc) as [d|] eqn:E; [now apply (INV d)|congruence].
  - intros d H. destruct (INV d H) as (H1 & H2 & H3 & H4). rewrite OK in H by auto. now injection H.
Qed.
End D.
Print Assumptions C41_dense_fsa_vec.
