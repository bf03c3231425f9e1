(** * Proofs: paths of one FSA of a batch, paths through an arc, cuts. *)
From Coq Require Import ZArith List Lia Lra Bool Reals Permutation.
From Coq Require Import ZifyBool ZifyNat.
From Verif Require Import Base RaggedModel RaggedSpec RaggedProofs FsaSpec FsaLemmas EpsLoopProofs
  PropsSpec PropsProofs PropsProps ConnectSpec ConnectProofs ExtractProofs TopSortRun LogReal MutualInfoProofs
  BatchModel ScoreModel ScoreSpec PathSums ScoreProofs ScoreRun.
Import ListNotations.
Open Scope Z_scope.

Lemma path_sum_image l w w' (h g : list Z -> list Z) (P Q : list Z -> Prop) x :
  (forall p, Q p -> g (h p) = p /\ P (h p)) -> (forall p', P p' -> exists p, Q p /\ p' = h p) -> (forall p, Q p -> pweight w (h p) = pweight w' p) ->
  path_sum l w P x -> path_sum l w' Q x.
Proof.
  intros H1 H2 H3 (L & ND & HL & ->). exists (map g L). split; [|split].
  - assert (G : forall L', NoDup L' -> (forall p, In p L' -> P p) -> NoDup (map g L')).
    { induction L' as [|p L' IH]; intros N HP; [constructor|]. apply NoDup_cons_iff in N as (N1 & N2). cbn [map]. constructor; [|apply IH; auto; intros; apply HP; now right].
      intros I. apply in_map_iff in I as (p' & E & I). destruct (H2 p (HP p (or_introl eq_refl))) as (u & Q1 & ->). destruct (H2 p' (HP p' (or_intror I))) as (u' & Q2 & ->).
      destruct (H1 u Q1) as (E1 & _). destruct (H1 u' Q2) as (E2 & _). rewrite E1, E2 in E. subst. auto. }
    apply G; auto. intros p. apply HL.
  - intros p. rewrite in_map_iff. split.
    + intros (p' & <- & I). apply HL in I. destruct (H2 p' I) as (u & Q1 & ->). now destruct (H1 u Q1) as (-> & _).
    + intros Q1. destruct (H1 p Q1) as (E & I). exists (h p). split; auto. now apply HL.
  - f_equal. rewrite map_map. apply map_ext_in. intros p' I. apply HL in I. destruct (H2 p' I) as (u & Q1 & ->). destruct (H1 u Q1) as (-> & _). now apply H3.
Qed.
Lemma path_sum_ext l w (P Q : list Z -> Prop) x : (forall p, P p <-> Q p) -> path_sum l w P x -> path_sum l w Q x.
Proof. intros H (L & ND & HL & E). exists L. split; auto. split; auto. intros p. now rewrite HL. Qed.
Lemma map_inj {A B} (f : A -> B) (l l' : list A) : (forall x y, f x = f y -> x = y) -> map f l = map f l' -> l = l'.
Proof. intros I. revert l'. induction l as [|a l IH]; intros [|b l'] H; try discriminate; auto. injection H as H1 H2. f_equal; auto. Qed.

Lemma NoDup_map_in {A B} (h : A -> B) l : NoDup l -> (forall x y, In x l -> In y l -> h x = h y -> x = y) -> NoDup (map h l).
Proof.
  induction 1 as [|a l N ND IH]; intros H; [constructor|]. cbn [map]. constructor.
  - intros I. apply in_map_iff in I as (b & E & I). assert (b = a) by (apply H; auto; [now right|now left]). congruence.
  - apply IH. intros; apply H; auto; now right.
Qed.

Section Loc.
Variable fs : list nfsa.
Hypothesis WF : Forall well_formed fs.
Hypothesis TS : Forall p_topsorted_acyclic fs.
Notation Sn := (zlen (concat fs)).
Notation An := (zlen (concat (concat fs))).
Variable scores : list (option R).

Section One.
Variables (k : Z) (f : nfsa).
Hypothesis Hk : rd fs k = Some f.
Notation sh := (map (fun j => abase fs k + j)).
Notation o := (off1 fs k).
Notation gp := (gpath An (srcq fs) (dstq fs)).

Lemma apath_gp s p t : apath f s p t -> gp (o + s) (sh p) (o + t).
Proof.
  induction 1 as [s|j a p t Ha Hp IH]; [reflexivity|]. cbn [map gpath]. destruct (arc_kj fs WF k f j a Hk Ha) as (A1 & A2 & A3). rewrite A2, A3. repeat split; auto; lia.
Qed.
Lemma gp_apath P : forall s T, 0 <= s < zlen f -> gp (o + s) P T -> exists p t, P = sh p /\ T = o + t /\ 0 <= t < zlen f /\ apath f s p t.
Proof.
  induction P as [|q P IH]; intros s T Hs H.
  - cbn in H. subst T. exists [], s. repeat split; auto; try lia. constructor.
  - cbn [gpath] in H. destruct H as (Hq & E & H). destruct (arc_q fs WF q Hq) as (k' & f' & j & a & Hk' & Ha & -> & B1 & B2 & S1 & S2 & _). rewrite S1 in E.
    destruct (row_unique fs k' f' (src a) k f s Hk' Hk ltac:(lia) ltac:(lia) ltac:(lia)) as (-> & <- & ->). rewrite S2 in H. destruct (IH (dst a) T B2 H) as (p & t & -> & -> & Bt & Hp).
    exists (j :: p), t. repeat split; auto; try lia. now constructor.
Qed.
Lemma sw_arc j : sw scores (abase fs k + j) = arc_score fs scores k j.
Proof. reflexivity. Qed.
Lemma pweight_sh p : pweight (sw scores) (sh p) = pweight (arc_score fs scores k) p.
Proof. rewrite pweight_map. apply pweight_ext. intros j _. apply sw_arc. Qed.
Notation un := (map (fun q => q - abase fs k)).
Lemma un_sh p : un (sh p) = p.
Proof. rewrite map_map. rewrite <- (map_id p) at 2. apply map_ext. intros. lia. Qed.

End One.

Lemma gp_apath_end k f k' f' P t : rd fs k = Some f -> rd fs k' = Some f' -> 0 <= t < zlen f -> 0 < zlen f' -> gpath An (srcq fs) (dstq fs) (off1 fs k') P (off1 fs k + t) ->
  exists p, P = map (fun j => abase fs k + j) p /\ apath f 0 p t.
Proof using WF.
  intros Hk Hk' Ht L H. replace (off1 fs k') with (off1 fs k' + 0) in H by lia. destruct (gp_apath k' f' Hk' P 0 _ ltac:(lia) H) as (p & t' & -> & E & Bt & Hp).
  destruct (row_unique fs k f t k' f' t' Hk Hk' Ht Bt E) as (-> & -> & ->). eauto.
Qed.

Lemma Fw_sum k f l t : rd fs k = Some f -> 0 <= t < zlen f -> path_sum l (arc_score fs scores k) (fun p => apath f 0 p t) (Fw fs scores l (off1 fs k + t)).
Proof using WF TS.
  intros Hk Ht. eapply (path_sum_image l (sw scores) _ (map (fun j => abase fs k + j)) (map (fun q => q - abase fs k))); [| | |apply (tot_to_sum An (srcq fs) (dstq fs) rk (is_start fs) (RK fs WF TS))].
  - intros p Hp. split; [apply un_sh|]. exists (off1 fs k). split; [apply is_start_iff; exists k, f; repeat split; auto; lia|]. pose proof (apath_gp k f Hk 0 p t Hp) as G. now rewrite Z.add_0_r in G.
  - intros P (s & Hs & HP). apply is_start_iff in Hs as (k' & f' & Hk' & L & ->). destruct (gp_apath_end k f k' f' P t Hk Hk' Ht L HP) as (p & -> & Hp). eauto.
  - intros p _. apply pweight_sh.
Qed.
Lemma Bw_sum k f l s : rd fs k = Some f -> 0 <= s < zlen f -> path_sum l (arc_score fs scores k) (fun p => apath f s p (nstates f - 1)) (Bw fs scores l (off1 fs k + s)).
Proof using WF TS.
  intros Hk Hs. eapply (path_sum_image l (sw scores) _ (fun p => rev (map (fun j => abase fs k + j) p)) (fun P => map (fun q => q - abase fs k) (rev P))); [| | |apply (tot_to_sum An (dstq fs) (srcq fs) (rk' fs) (is_final fs) (RK' fs WF TS))].
  - intros p Hp. split; [rewrite rev_involutive; apply un_sh|]. exists (off1 fs k + (nstates f - 1)). split; [apply is_final_iff; exists k, f; unfold nstates; repeat split; auto; lia|].
    apply (gpath_rev An (srcq fs) (dstq fs)). now apply (apath_gp k f Hk).
  - intros P (T & HT & HP). rewrite <- (rev_involutive P) in HP. apply (gpath_rev An (srcq fs) (dstq fs)) in HP. destruct (gp_apath k f Hk _ s T Hs HP) as (p & t & E & -> & Bt & Hp).
    rewrite (is_final_at fs k f t Hk Bt) in HT. exists p. split; [unfold nstates; now replace (zlen f - 1) with t by lia|]. now rewrite <- E, rev_involutive.
  - intros p _. rewrite pweight_rev. apply pweight_sh.
Qed.

Lemma apath_split k f j a p1 p2 p1' p2' s t : rd fs k = Some f -> rd (all_arcs f) j = Some a -> apath f s (p1 ++ j :: p2) t -> p1 ++ j :: p2 = p1' ++ j :: p2' -> p1 = p1' /\ p2 = p2'.
Proof using WF TS.
  intros Hk Ha H E. apply (apath_gp k f Hk) in H. assert (E' := f_equal (map (fun x => abase fs k + x)) E). rewrite !map_app in E'. cbn [map] in E'. rewrite map_app in H. cbn [map] in H.
  destruct (split_unique An (srcq fs) (dstq fs) rk (RK fs WF TS) _ _ _ _ _ _ _ H E') as (E1 & E2). split; eapply map_inj; eauto; intros; cbn in *; lia.
Qed.
Lemma apath_app f p p' : forall s t, apath f s (p ++ p') t <-> exists u, apath f s p u /\ apath f u p' t.
Proof using.
  induction p as [|j p IH]; intros s t; cbn [app].
  - split; [intros H; exists s; split; auto; constructor|]. intros (u & H & H'). inversion H; subst. exact H'.
  - split.
    + intros H. inversion H as [|? a ? ? Ha Hp]; subst. apply IH in Hp as (u & H1 & H2). exists u. split; auto. now constructor.
    + intros (u & H & H'). inversion H as [|? a ? ? Ha Hp]; subst. constructor; auto. apply IH. eauto.
Qed.

(** sum over the paths through an arc *)
Lemma through_sum l w q (P1 P2 : list Z -> Prop) x y :
  (forall a b a' b', P1 a -> P2 b -> P1 a' -> P2 b' -> a ++ q :: b = a' ++ q :: b' -> a = a' /\ b = b') ->
  path_sum l w P1 x -> path_sum l w P2 y -> path_sum l w (fun p => exists a b, P1 a /\ P2 b /\ p = a ++ q :: b) (ladd (ladd (w q) x) y).
Proof using.
  intros U (L1 & N1 & H1 & ->) (L2 & N2 & H2 & ->). exists (flat_map (fun a => map (fun b => a ++ q :: b) L2) L1). split; [|split].
  - apply NoDup_flat_map; auto.
    + intros a Ha. apply NoDup_map_in; auto. intros b b' Hb Hb' E. apply U in E; try apply H1; try apply H2; auto. tauto.
    + intros a a' p Ha Ha' I I'. apply in_map_iff in I as (b & <- & Hb). apply in_map_iff in I' as (b' & E & Hb'). apply U in E; try apply H1; try apply H2; auto. destruct E; auto.
  - intros p. rewrite in_flat_map. split.
    + intros (a & Ha & I). apply in_map_iff in I as (b & <- & Hb). exists a, b. rewrite <- H1, <- H2. auto.
    + intros (a & b & Ha & Hb & ->). exists a. split; [now apply H1|]. apply (in_map (fun b => a ++ q :: b)). now apply H2.
  - assert (E : forall Q : list (list Z) , map (pweight w) (flat_map (fun a => map (fun b => a ++ q :: b) L2) Q) = flat_map (fun a => map (ladd (ladd (w q) (pweight w a))) (map (pweight w) L2)) Q).
    { induction Q as [|a Q IH]; auto. cbn [flat_map]. rewrite map_app, IH. f_equal. rewrite !map_map. apply map_ext. intros b. rewrite pweight_app. change (pweight w (q :: b)) with (ladd (w q) (pweight w b)).
      rewrite ladd_assoc. f_equal. apply ladd_comm. }
    rewrite E, ssum_flat_map. rewrite (ssum_distr_l l (map (pweight w) L1) (w q)), (ssum_distr l _ (ssum l (map (pweight w) L2))), (map_map (pweight w)), map_map. f_equal. apply map_ext. intros a. now rewrite <- ssum_distr_l.
Qed.
Lemma arc_through k f l j a : rd fs k = Some f -> rd (all_arcs f) j = Some a ->
  path_sum l (arc_score fs scores k) (fun p => successful f p /\ In j p)
    (ladd (ladd (arc_score fs scores k j) (Fw fs scores l (off1 fs k + src a))) (Bw fs scores l (off1 fs k + dst a))).
Proof using WF TS.
  intros Hk Ha. destruct (arc_by_pos fs WF k f j a Hk Ha) as (_ & _ & _ & B1 & B2).
  eapply path_sum_ext; [|apply (through_sum l (arc_score fs scores k) j (fun p => apath f 0 p (src a)) (fun p => apath f (dst a) p (nstates f - 1)))]; [| |now apply (Fw_sum k f l (src a))|now apply (Bw_sum k f l (dst a))].
  - intros p. split.
    + intros (p1 & p2 & H1 & H2 & ->). split; [|apply in_or_app; right; now left]. split; [unfold nstates; lia|]. apply apath_app. exists (src a). split; auto. now constructor.
    + intros ((_ & H) & I). apply in_split in I as (p1 & p2 & ->). apply apath_app in H as (u & H1 & H2). inversion H2 as [|? a' ? ? Ha' Hp]; subst. replace a' with a in * by congruence. eauto.
  - intros p1 p2 p1' p2' H1 H2 H1' H2' E. eapply (apath_split k f j a); eauto. apply apath_app. exists (src a). split; eauto. constructor; eauto.
Qed.
Lemma apath_nodup k f s p t : rd fs k = Some f -> apath f s p t -> NoDup p.
Proof using WF TS.
  intros Hk. revert s. induction p as [|j p IH]; intros s H; [constructor|]. inversion H as [|? a ? ? Ha Hp]; subst. constructor; [|eauto].
  intros I. apply in_split in I as (p1 & p2 & ->). change (j :: p1 ++ j :: p2) with ([] ++ j :: (p1 ++ j :: p2)) in H.
  assert (E : [] = j :: p1 /\ p1 ++ j :: p2 = p2) by (eapply (apath_split k f j a); eauto; reflexivity). destruct E; discriminate.
Qed.
Lemma apath_arcs f s p t j : apath f s p t -> In j p -> 0 <= j < zlen (all_arcs f).
Proof using. induction 1 as [s|i a p t Ha Hp IH]; intros []; auto. subst. now apply rd_Some_bound in Ha. Qed.
End Loc.

(** ** Cuts *)
Open Scope R_scope.
Definition bR (b : bool) : R := if b then 1 else 0.
Lemma crossings f (U : Z -> bool) (c : Z -> R) s p t : (forall j a, rd (all_arcs f) j = Some a -> c j = bR (U (src a)) - bR (U (dst a))) ->
  apath f s p t -> sumf c p = bR (U s) - bR (U t).
Proof. intros HC. induction 1 as [s|j a p t Ha Hp IH]; [rewrite sumf_nil; lra|]. rewrite sumf_cons, IH, (HC j a Ha). lra. Qed.
Lemma sum_members (c : Z -> R) A p : NoDup p -> (forall j, In j p -> (0 <= j < A)%Z) ->
  sumf (fun j => c j * bR (if in_dec Z.eq_dec j p then true else false)) (zrange A) = sumf c p.
Proof.
  intros N H. transitivity (sumf c (filter (fun j => if in_dec Z.eq_dec j p then true else false) (zrange A))).
  - rewrite sumf_filter. apply sumf_ext. intros j _. destruct (in_dec Z.eq_dec j p); cbn; lra.
  - apply sumf_perm. apply NoDup_Permutation; [apply NoDup_filter, NoDup_zrange|auto|]. intros j. rewrite filter_In, in_zrange. specialize (H j). destruct (in_dec Z.eq_dec j p); intuition congruence.
Qed.
Lemma cut_sum (W : list Z -> R) (y c : Z -> R) (A : Z) (L : list (list Z)) :
  (forall p, In p L -> NoDup p /\ (forall j, In j p -> (0 <= j < A)%Z) /\ sumf c p = 1) ->
  (forall j, (0 <= j < A)%Z -> y j = sumf W (filter (fun p => if in_dec Z.eq_dec j p then true else false) L)) ->
  sumf (fun j => c j * y j) (zrange A) = sumf W L.
Proof.
  intros HL HY. transitivity (sumf (fun j => sumf (fun p => W p * (c j * bR (if in_dec Z.eq_dec j p then true else false))) L) (zrange A)).
  - apply sumf_ext. intros j Hj. apply in_zrange in Hj. rewrite (HY j Hj), sumf_filter, <- sumf_scale. apply sumf_ext. intros p _. destruct (in_dec Z.eq_dec j p); cbn; lra.
  - rewrite sumf_swap. apply sumf_ext. intros p Hp. destruct (HL p Hp) as (N & B & E). rewrite sumf_scale, (sum_members c A p N B), E. lra.
Qed.
