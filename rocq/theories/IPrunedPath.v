(** * The paths of the pruned intersection *)
From Coq Require Import ZArith List Lia Bool QArith.
From Coq Require Import ZifyBool ZifyNat.
From Verif Require Import Base RaggedModel RaggedSpec RaggedProofs FsaSpec FsaLemmas RaggedOpsModel OpsModel RaggedOpsProofs ConnectProofs ScoreSpec ScorePaths ShortestSpec
  IDenseModel IDenseSpec IDensePaths IPrunedModel IPrunedNest IPrunedCut IPrunedMerge IPrunedFwd IPrunedCol IPrunedInv IPrunedPrune IPrunedAlive IPrunedOut.
From Verif Require RmDevRagged IDenseInit DetInv.
Import ListNotations.
Open Scope Z_scope.

Lemma arcs_at_c f j p u : rd (all_arcs f) j = Some u -> arcs_at f (j :: p) = u :: arcs_at f p.
Proof. intros H. unfold arcs_at. cbn. now rewrite H. Qed.

Lemma ap_nil_inv f s d : apath f s [] d -> s = d.
Proof. intros H. inversion H. reflexivity. Qed.
Lemma ap_cons_inv f s j p d : apath f s (j :: p) d -> exists a, rd (all_arcs f) j = Some a /\ src a = s /\ apath f (dst a) p d.
Proof. intros H. inversion H; subst. eauto. Qed.

Lemma ap_snoc' f s l j a : apath f s l (src a) -> rd (all_arcs f) j = Some a -> apath f s (l ++ [j]) (dst a).
Proof.
  intros H Ha. remember (src a) as t eqn:E. induction H as [s|j' a' p t Hj H IH]; [|cbn; econstructor; eauto].
  subst s. cbn. econstructor; [exact Ha|constructor].
Qed.

Lemma apath_nn f s l d : apath f s l d -> forall i, In i l -> 0 <= i.
Proof. induction 1 as [|j a p t Ha Hr IH]; intros i Hi; [easy|]. destruct Hi as [<-|Hi]; [apply rd_Some_bound in Ha; lia|auto]. Qed.

Section Path.
Context (V : list nfsa) (seqs : list frames) (cols stride : Z) (c : cfg) (SU : setup V seqs cols stride c).
Context (k : Z) (Hk : 0 <= k < zlen seqs).
Notation f := (gr V c k).
Notation rws := (rw seqs k).
Notation TT := (zlen (rw seqs k)).
Notation vbk := (vb V c k).
Notation ABk := (AB V c k).
Hypothesis HT : 0 < TT.
Hypothesis HR1 : forall t, 0 <= t < TT - 1 -> frame rws t (-1) = None.
Hypothesis HR2 : forall l, l <> -1 -> frame rws (TT - 1) l = None.
Context (pmf : bool) (H : list (list nst)) (L : Z).
Hypothesis CI : cinv V seqs c k pmf H L.
Hypothesis ZH : zlen H = L.
Hypothesis HL : TT < L.
Context (r0 ext : Z) (fc : list nst).
Hypothesis Hfc : rd H TT = Some fc.
Hypothesis Hfl : zlen fc <= 1.
Hypothesis Hext : ext = b2z (0 <? zlen f) * (1 - zlen fc).
Notation O := (orow f ABk TT r0 cols H ext).
Notation oa := (oarc f ABk TT r0 cols H).
Definition pg : nfsa := map (map fst) O.
Notation g := pg.
Definition pam (i : Z) : Z := match rd (concat O) i with Some o => if fst (snd o) =? -1 then -1 else fst (snd o) - ABk | None => 0 end.
Definition pbm (i : Z) : Z := match rd (concat O) i with Some o => snd (snd o) | None => 0 end.
Notation nd t j := (off1 H t + j).
Definition stt (t j : Z) (x : nst) : Prop := exists col, rd H t = Some col /\ rd col j = Some x.

Let W := imap (fun t col => imap (fun j x => map (oa t j) (snd x)) 0 col) 0 H.
Lemma W_off t : off1 W t = off1 H t.
Proof. apply IDenseInit.off1_same. apply list_ext_rd; [rewrite !zlen_map; apply zlen_imap|]. intros i Hi. rewrite !rd_map. unfold W. rewrite rd_imap. destruct (rd H i); [|reflexivity]. cbn. now rewrite zlen_imap. Qed.
Lemma W_len : zlen (concat W) = zlen (concat H).
Proof. rewrite <- !IDenseInit.off1_all, W_off. f_equal. apply zlen_imap. Qed.
Lemma stt_on t j x : stt t j x -> on H t x.
Proof. intros (col & A & B). exists col. split; [exact A|eapply rd_In; eauto]. Qed.
Lemma stt_row t j x : stt t j x -> rd O (nd t j) = Some (map (oa t j) (snd x)) /\ 0 <= nd t j < zlen (concat H) /\ rd (ids_of H) (nd t j) = Some t.
Proof.
  intros (col & A & B). destruct (rd_concat_off _ _ _ _ _ A B) as (E1 & E2). pose proof (rd_Some_bound _ _ _ E1) as BB. split; [|auto]. unfold orow. fold W. rewrite rd_app_l by (rewrite W_len; lia). rewrite <- W_off.
  apply (rd_concat_off W t (imap (fun j x => map (oa t j) (snd x)) 0 col)); [unfold W; rewrite rd_imap, A, Z.add_0_l; reflexivity|]. rewrite rd_imap, B, Z.add_0_l. reflexivity.
Qed.
Lemma row_stt i row : rd O i = Some row -> (exists t j x, stt t j x /\ i = nd t j /\ row = map (oa t j) (snd x)) \/ (zlen (concat H) <= i /\ row = []).
Proof.
  intros E. unfold orow in E. fold W in E. pose proof (rd_Some_bound _ _ _ E) as B. destruct (Z_lt_ge_dec i (zlen (concat W))) as [Hi|Hi].
  - left. rewrite rd_app_l in E by lia. apply rd_concat_inv in E as (t & l & j & E1 & E2 & E3 & _). unfold W in E1. rewrite rd_imap in E1. destruct (rd H t) as [col|] eqn:Ec; [|discriminate]. injection E1 as <-. rewrite rd_imap, !Z.add_0_l in E2. destruct (rd col j) as [x|] eqn:Ex; [|discriminate]. injection E2 as <-.
    exists t, j, x. split; [exists col; auto|]. rewrite W_off in E3. auto.
  - right. rewrite W_len in Hi. split; [lia|]. rewrite rd_app_r in E by (rewrite W_len; lia). apply rd_In in E. apply repeat_spec in E. exact E.
Qed.
Lemma stt_inj t j x t' j' x' : stt t j x -> stt t' j' x' -> nd t j = nd t' j' -> t = t' /\ j = j' /\ x = x'.
Proof.
  intros A A' E. destruct (stt_row _ _ _ A) as (_ & _ & B). destruct (stt_row _ _ _ A') as (_ & _ & B'). rewrite E, B' in B. injection B as <-. assert (j = j') as -> by lia. split; [reflexivity|]. split; [reflexivity|]. destruct A as (c1 & A1 & A2), A' as (c2 & A3 & A4). congruence.
Qed.
Lemma zlen_O : zlen O = zlen (concat H) + ext /\ 0 <= ext.
Proof.
  assert (0 <= ext) by (rewrite Hext; destruct (0 <? zlen f); cbn [b2z]; lia). split; [|exact H0]. unfold orow. fold W. rewrite zlen_app, W_len. f_equal. unfold zlen. rewrite repeat_length. lia.
Qed.
Lemma stt_t t j x : stt t j x -> 0 <= t <= TT /\ 0 < zlen f /\ 0 <= j.
Proof.
  intros A. pose proof (stt_on _ _ _ A) as Ao. destruct (ci_rng _ _ _ _ _ _ _ CI _ _ Ao) as (R1 & R2 & _). destruct A as (col & A1 & A2). apply rd_Some_bound in A1, A2. lia.
Qed.
Lemma empty_after t : TT < t <= L -> off1 H t = off1 H (TT + 1).
Proof.
  intros Ht. replace t with (TT + 1 + Z.of_nat (Z.to_nat (t - TT - 1))) by lia. assert (X : (Z.to_nat (t - TT - 1) <= Z.to_nat (L - TT - 1))%nat) by lia. revert X. generalize (Z.to_nat (t - TT - 1)). intros n.
  induction n as [|n IH]; intros X; [f_equal; lia|]. destruct (rd_in_bound H (TT + 1 + Z.of_nat n)) as (col & Hc); [lia|]. replace (TT + 1 + Z.of_nat (S n)) with (TT + 1 + Z.of_nat n + 1) by lia. rewrite (off1_next _ _ _ Hc), IH by lia.
  destruct col as [|x col]; [rewrite zlen_nil; lia|]. destruct (stt_t (TT + 1 + Z.of_nat n) 0 x) as (B & _); [exists (x :: col); split; [exact Hc|apply rd_cons_0]|]. lia.
Qed.
Lemma total : zlen (concat H) = off1 H TT + zlen fc.
Proof. rewrite <- IDenseInit.off1_all, ZH, (empty_after L) by lia. apply (off1_next _ _ _ Hfc). Qed.
Lemma empty_f : f = [] -> g = [].
Proof.
  intros E. destruct zlen_O as (Z1 & _). assert (ext = 0) as X by (rewrite Hext, E; reflexivity). assert (Y : concat H = []).
  { destruct (concat H) as [|x l] eqn:Ec; [reflexivity|]. assert (Hx : rd (concat H) 0 = Some x) by (rewrite Ec; apply rd_cons_0). apply rd_concat_inv in Hx as (t & col & j & A & B & _). destruct (stt_t t j x) as (_ & X' & _); [exists col; auto|]. rewrite E, zlen_nil in X'. lia. }
  unfold pg. assert (Z2 : zlen O = 0) by (rewrite Y, zlen_nil in Z1; lia). revert Z2. generalize O. intros [|l0 l] Z2; [reflexivity|]. rewrite zlen_cons in Z2. pose proof (zlen_nonneg l). lia.
Qed.

(** the first and the last state *)
Hypothesis Hf : 0 < zlen f.
Lemma start_stt : exists x, stt 0 0 x /\ s_a (fst x) = vbk.
Proof.
  destruct (ci_0 _ _ _ _ _ _ _ CI) as (col & A1 & A2 & _). assert (E : sas col = [vbk]) by (destruct f; [rewrite zlen_nil in Hf; lia|exact A2]). destruct col as [|x [|x' col]]; try discriminate. injection E as E. exists x. split; [exists [x]; split; [exact A1|apply rd_cons_0]|exact E].
Qed.
Lemma final_nd : zlen O - 1 = off1 H TT /\ (zlen fc = 1 \/ (zlen fc = 0 /\ zlen O - 1 = zlen (concat H))).
Proof. destruct zlen_O as (E & _). rewrite total in *. replace (0 <? zlen f) with true in Hext by lia. cbn [b2z] in Hext. pose proof (zlen_nonneg fc). lia. Qed.
Lemma stt_final t j x : stt t j x -> (nd t j = zlen O - 1 <-> t = TT) /\ (t = TT -> j = 0).
Proof.
  intros A. destruct final_nd as (E & E'). destruct (stt_t _ _ _ A) as (Bt & _ & Bj). pose proof A as (col & A1 & A2). pose proof (rd_Some_bound _ _ _ A2) as Bc. assert (J : t = TT -> j = 0). { intros ->. assert (col = fc) as -> by congruence. lia. } split; [|exact J]. split.
  - intros X. destruct (Z.eq_dec t TT) as [|Hn]; [assumption|]. pose proof (off1_mono H (t + 1) TT ltac:(lia)). rewrite (off1_next _ _ _ A1) in H0. lia.
  - intros X. rewrite (J X), X. lia.
Qed.

(** arcs *)
Record isarc (i : Z) (a : arc) (t j m : Z) (x : nst) (y : ainfo) (x' : nst) (ja : Z) (b : arc) : Prop := {
  ia_st : stt t j x; ia_t : t < TT; ia_m : rd (snd x) m = Some y; ia_i : i = off1 O (nd t j) + m; ia_o : rd (concat O) i = Some (oa t j y);
  ia_a : a = fst (oa t j y); ia_b : rd (all_arcs f) ja = Some b; ia_ja : i_arc y = ABk + ja; ia_src : src b = s_a (fst x) - vbk; ia_gl : glab f ABk y = lab b;
  ia_to : stt (t + 1) (i_dst y) x'; ia_tg : s_a (fst x') = vbk + tg V c k (Pt seqs k pmf t) b; ia_ll : Some (sc a) = ll seqs k (Pt seqs k pmf t) t b; ia_pl : Pt seqs k pmf t = true -> lab b <> -1 }.
Lemma mk_arc t j m x y : stt t j x -> rd (snd x) m = Some y -> exists x' ja b, isarc (off1 O (nd t j) + m) (fst (oa t j y)) t j m x y x' ja b.
Proof.
  intros A M. pose proof (stt_on _ _ _ A) as Ao. destruct (ci_arc _ _ _ _ _ _ _ CI _ _ _ Ao (rd_In _ _ _ M)) as (ja & b & B1 & B2 & B3 & (B4 & B5) & B6).
  assert (Bt : t < L) by (destruct A as (col & A1 & _); apply rd_Some_bound in A1; lia). destruct (ci_clean _ _ _ _ _ _ _ CI _ _ _ Ao (rd_In _ _ _ M) Bt) as (D1 & w & D2). destruct B6 as [B6|(_ & col & x' & C1 & C2 & C3 & _)]; [lia|].
  destruct (stt_row _ _ _ A) as (R & _). assert (T' : stt (t + 1) (i_dst y) x') by (exists col; auto). exists x', ja, b. split; auto.
  - destruct (stt_t _ _ _ T') as (X & _). lia.
  - apply (rd_concat_off _ _ _ _ _ R). rewrite rd_map, M. reflexivity.
  - unfold glab. replace (i_arc y - ABk) with ja by lia. now rewrite B2.
  - cbn. rewrite <- B4, D2. reflexivity.
Qed.
Lemma g_arcs : all_arcs g = map fst (concat O).
Proof. unfold all_arcs, pg. now rewrite concat_map. Qed.
Lemma arc_is i a : rd (all_arcs g) i = Some a -> exists t j m x y x' ja b, isarc i a t j m x y x' ja b.
Proof.
  intros E. rewrite g_arcs, rd_map in E. destruct (rd (concat O) i) as [o|] eqn:Eo; [|discriminate]. injection E as <-. apply rd_concat_inv in Eo as (r & row & m & E1 & E2 & E3 & _). destruct (row_stt _ _ E1) as [(t & j & x & A & -> & ->)|(_ & ->)]; [|rewrite rd_nil in E2; discriminate].
  rewrite rd_map in E2. destruct (rd (snd x) m) as [y|] eqn:Ey; [|discriminate]. injection E2 as <-. destruct (mk_arc _ _ _ _ _ A Ey) as (x' & ja & b & I). exists t, j, m, x, y, x', ja, b. rewrite E3. exact I.
Qed.
Lemma fvd : valid f. Proof. apply (fvalid V seqs cols stride c SU k Hf). Qed.
(** the two kinds of arcs *)
Lemma arc_kind i a t j m x y x' ja b : isarc i a t j m x y x' ja b ->
  rd (all_arcs g) i = Some a /\ src a = nd t j /\ dst a = nd (t + 1) (i_dst y) /\ pbm i = (r0 + t) * cols + (lab b + 1) /\
  ((pam i = ja /\ lab a = lab b /\ (exists w, frame rws t (lab b) = Some w /\ sc a = sc b + w) /\ s_a (fst x') = vbk + dst b /\ (t = TT - 1 <-> lab b = -1)) \/
   (pmf = true /\ pam i = -1 /\ lab a = -1 /\ lab b <> -1 /\ sc a = sc b /\ t = TT - 1)).
Proof.
  intros I. destruct I as [I1 I2 I3 I4 I5 I6 I7 I8 I9 I10 I11 I12 I13 I14]. split; [rewrite g_arcs, rd_map, I5, I6; reflexivity|]. rewrite I6 in *. cbn [fst oarc src dst lab sc] in *. split; [reflexivity|]. split; [reflexivity|]. unfold pbm, pam. rewrite I5. cbn [oarc snd fst]. rewrite I10. split; [reflexivity|].
  unfold part. rewrite I10. destruct (stt_t _ _ _ I1) as (Bt & _). assert (Bj : 0 <= ABk + ja) by (apply rd_Some_bound in I7; pose proof (off1_nonneg (concat V) (vb V c k)); unfold AB; lia).
  destruct (Z.eqb_spec t (TT - 1)) as [Et|Et]; cbn [andb].
  - destruct (Z.eqb_spec (lab b) (-1)) as [El|El]; cbn [negb].
    + left. rewrite I8. replace (ABk + ja =? -1) with false by lia. assert (Ep : Pt seqs k pmf t = false) by (destruct (Pt seqs k pmf t); [exfalso; apply I14; auto|reflexivity]). rewrite Ep in *. split; [lia|]. split; [reflexivity|]. split; [|split; [exact I12|tauto]].
      unfold ll in I13. destruct (frame rws t (lab b)) as [w|]; [|discriminate]. exists w. split; [reflexivity|]. cbn in I13. injection I13 as I13. lia.
    + right. assert (Ep : pmf = true). { destruct pmf; [reflexivity|]. unfold ll, Pt in I13. cbn [andb] in I13. rewrite Et, HR2 in I13 by auto. discriminate. } split; [exact Ep|]. rewrite Z.eqb_refl. repeat (split; [first [reflexivity|assumption]|]). split; [|exact Et].
      unfold Pt in I13. rewrite Ep, Et, Z.eqb_refl in I13. cbn in I13. injection I13 as I13. lia.
  - left. rewrite I8. replace (ABk + ja =? -1) with false by lia. assert (Ep : Pt seqs k pmf t = false) by (unfold Pt; replace (t =? TT - 1) with false by lia; apply andb_false_r). rewrite Ep in *. split; [lia|]. split; [reflexivity|].
    unfold ll in I13. destruct (frame rws t (lab b)) as [w|] eqn:Ew; [|discriminate]. split; [exists w; split; [reflexivity|]; cbn in I13; injection I13 as I13; lia|]. split; [exact I12|]. split; [lia|]. intros X. rewrite X, HR1 in Ew by lia. discriminate.
Qed.

Lemma pg_valid : valid g.
Proof.
  destruct final_nd as (E & E'). destruct start_stt as (x0 & S0 & _). destruct (stt_row _ _ _ S0) as (_ & B0 & _). change (off1 H 0) with 0 in B0.
  assert (Zg : nstates g = zlen O) by (unfold nstates, pg; apply zlen_map). assert (N2 : 2 <= zlen O). { destruct S0 as (col & A & B). pose proof (off1_next _ _ _ A) as X. change (off1 H 0) with 0 in X. apply rd_Some_bound in B. pose proof (off1_mono H (0 + 1) TT ltac:(lia)). lia. }
  split; [|split; [lia|]].
  - intros i row a Hr Ha. unfold pg in Hr. rewrite rd_map in Hr. destruct (rd O i) as [row'|] eqn:Er; [|discriminate]. injection Hr as <-. destruct (row_stt _ _ Er) as [(t & j & x & A & -> & ->)|(_ & ->)]; [|easy]. apply in_map_iff in Ha as (o & <- & Ho). apply in_map_iff in Ho as (y & <- & _). reflexivity.
  - intros a Ha. apply In_rd in Ha as (i & _ & Ha). destruct (arc_is _ _ Ha) as (t & j & m & x & y & x' & ja & b & I). destruct (arc_kind _ _ _ _ _ _ _ _ _ _ I) as (_ & K1 & K2 & _ & K3). pose proof (ia_st _ _ _ _ _ _ _ _ _ _ I) as A. pose proof (ia_to _ _ _ _ _ _ _ _ _ _ I) as A'. pose proof (ia_t _ _ _ _ _ _ _ _ _ _ I) as Bt.
    destruct (stt_row _ _ _ A') as (_ & B' & _). destruct (stt_final _ _ _ A) as (F1 & _). destruct (stt_final _ _ _ A') as (F2 & _). destruct fvd as (_ & _ & V3). destruct (V3 b (rd_In _ _ _ (ia_b _ _ _ _ _ _ _ _ _ _ I))) as (_ & Lb & _). destruct zlen_O as (ZO & ZE). rewrite Zg. unfold final. change (zlen g) with (nstates g). rewrite ?Zg. rewrite K1, K2.
    split; [lia|]. split; [destruct K3 as [(_ & -> & _)|(_ & _ & -> & _)]; lia|]. split; [|intros X; apply F1 in X; lia].
    rewrite F2. destruct K3 as [(_ & -> & _ & _ & K)|(_ & _ & -> & _ & _ & K)]; [rewrite <- K; lia|lia].
Qed.

(** ** Soundness *)
Definition loc (t l : Z) : Z := (r0 + t) * cols + (l + 1).
Definition bm_ok (t : Z) (q : list Z) : Prop := forall i jj a, rd q i = Some jj -> rd (all_arcs g) jj = Some a -> pbm jj = loc (t + i) (lab a).
Definition full (t s : Z) (q : list Z) : Prop :=
  apath f s (map pam q) (zlen f - 1) /\ zlen q = TT - t /\ labels (arcs_at g q) = labels (arcs_at f (map pam q)) /\ dense_score f rws t (map pam q) = Some (score (arcs_at g q)) /\ bm_ok t q.
Definition cutp (t s : Z) (q : list Z) : Prop :=
  pmf = true /\ exists q' jj a b s', q = q' ++ [jj] /\ zlen q = TT - t /\ apath f s (map pam q') s' /\ labels (arcs_at g q') = labels (arcs_at f (map pam q')) /\ dense_score f rws t (map pam q') = Some (score (arcs_at g q')) /\ bm_ok t q' /\
    rd (all_arcs g) jj = Some a /\ pam jj = -1 /\ lab a = -1 /\ In b (all_arcs f) /\ src b = s' /\ lab b <> -1 /\ sc a = sc b /\ pbm jj = loc (TT - 1) (lab b).

Lemma bm_cons t jj q a : rd (all_arcs g) jj = Some a -> pbm jj = loc t (lab a) -> bm_ok (t + 1) q -> bm_ok t (jj :: q).
Proof.
  intros Ha Hb HB i jj' a' Hi Ha'. pose proof (rd_Some_bound _ _ _ Hi) as B. destruct (Z.eq_dec i 0) as [->|Hn].
  - rewrite rd_cons_0 in Hi. injection Hi as <-. rewrite Ha in Ha'. injection Ha' as <-. now rewrite Z.add_0_r.
  - replace i with (i - 1 + 1) in Hi by lia. rewrite rd_cons_S in Hi by lia. rewrite (HB _ _ _ Hi Ha'). f_equal. lia.
Qed.
Lemma full_cons t s q jj ja a b w : full (t + 1) (dst b) q -> rd (all_arcs g) jj = Some a -> rd (all_arcs f) ja = Some b -> pam jj = ja -> lab a = lab b -> src b = s -> frame rws t (lab b) = Some w -> sc a = sc b + w -> pbm jj = loc t (lab b) ->  full t s (jj :: q).
Proof.
  intros (F1 & F2 & F3 & F4 & F5) Ha Hb Hj Hl Hs Hw Hsc Hbm. split; [|split; [|split; [|split]]].
  - cbn [map]. rewrite Hj, <- Hs. econstructor; eauto.
  - rewrite zlen_cons. lia.
  - cbn [map]. rewrite Hj, (arcs_at_c _ _ _ _ Ha), (arcs_at_c _ _ _ _ Hb). cbn. f_equal; assumption.
  - cbn [map dense_score]. rewrite Hj, Hb, Hw, F4, (arcs_at_c _ _ _ _ Ha). unfold score. cbn. f_equal. lia.
  - eapply bm_cons; eauto. now rewrite Hl.
Qed.
Lemma sound q : forall t j x, stt t j x -> apath g (nd t j) q (zlen O - 1) -> full t (s_a (fst x) - vbk) q \/ cutp t (s_a (fst x) - vbk) q.
Proof.
  induction q as [|jj q IH]; intros t j x A Hq.
  - apply ap_nil_inv in Hq. destruct (stt_final _ _ _ A) as ((F & _) & _). specialize (F Hq). left. destruct (ci_rng _ _ _ _ _ _ _ CI _ _ (stt_on _ _ _ A)) as (_ & _ & (_ & R)). specialize (R F). cbn [map]. split; [rewrite R; constructor|]. split; [rewrite zlen_nil; lia|]. split; [reflexivity|]. split; [reflexivity|]. intros i jj a Hi. rewrite rd_nil in Hi. discriminate.
  - apply ap_cons_inv in Hq as (a & Ha & Es & Hr). destruct (arc_is _ _ Ha) as (t' & j' & m & x1 & y & x' & ja & b & I). destruct (arc_kind _ _ _ _ _ _ _ _ _ _ I) as (_ & K1 & K2 & K3 & K4). destruct I as [I1 I2 I3 I4 I5 I6 I7 I8 I9 I10 I11 I12 I13 I14].
    destruct (stt_inj _ _ _ _ _ _ I1 A) as (-> & -> & ->); [lia|]. rewrite K2 in Hr. specialize (IH _ _ _ I11 Hr). fold (loc t (lab b)) in K3.
    destruct K4 as [(P1 & P2 & (w & P3 & P4) & P5 & P6)|(P0 & P1 & P2 & P3 & P4 & P5)].
    + assert (Ed : s_a (fst x') - vbk = dst b) by lia. rewrite Ed in IH. destruct IH as [IH|(M & q' & jj' & a' & b' & s' & Q1 & Q2 & Q3 & Q4 & Q5 & Q6 & Q7)].
      * left. eapply full_cons; eauto.
      * right. split; [exact M|]. exists (jj :: q'), jj', a', b', s'. split; [rewrite Q1; reflexivity|]. split; [rewrite zlen_cons; lia|]. assert (F : apath f (src b) (map pam (jj :: q')) s') by (cbn [map]; rewrite P1; econstructor; eauto). split; [rewrite <- I9; exact F|].
        split; [cbn [map]; rewrite P1, (arcs_at_c _ _ _ _ Ha), (arcs_at_c _ _ _ _ I7); cbn; f_equal; assumption|]. split; [cbn [map dense_score]; rewrite P1, I7, P3, Q5, (arcs_at_c _ _ _ _ Ha); unfold score; cbn; f_equal; lia|]. split; [eapply bm_cons; eauto; now rewrite P2|exact Q7].
    + right. split; [exact P0|]. assert (q = []) as ->. { assert (zlen q = TT - (t + 1)) as Zq by (destruct IH as [(_ & E & _)|(_ & q' & jj' & a' & b' & s' & _ & E & _)]; exact E). destruct q; [reflexivity|]. rewrite zlen_cons in Zq. pose proof (zlen_nonneg q). lia. }
      exists [], jj, a, b, (src b). split; [reflexivity|]. split; [rewrite zlen_cons, zlen_nil; lia|]. split; [rewrite <- I9; constructor|]. split; [reflexivity|]. split; [reflexivity|]. split; [intros i jj' a' Hi; rewrite rd_nil in Hi; discriminate|]. pose proof (rd_In _ _ _ I7). rewrite <- P5. auto 12.
Qed.
Lemma sound_0 q : successful g q -> full 0 0 q \/ cutp 0 0 q.
Proof.
  intros (_ & Hq). destruct start_stt as (x & A & E). pose proof (sound q 0 0 x A) as S0. change (off1 H 0 + 0) with 0 in S0. replace (s_a (fst x) - vbk) with 0 in S0 by lia. apply S0. replace (zlen O) with (nstates g) by (unfold nstates, pg; apply zlen_map). exact Hq.
Qed.

(** ** Completeness *)
Lemma unique q : forall q' s d d', apath g s q d -> apath g s q' d' -> map pam q = map pam q' -> (forall j, In j (map pam q) -> 0 <= j) -> q = q'.
Proof.
  induction q as [|jj q IH]; intros [|jj' q'] s d d' Hq Hq' E Hp; try discriminate; [reflexivity|]. cbn [map] in E. injection E as E1 E2.
  apply ap_cons_inv in Hq as (a & Ha & Es & Hr). apply ap_cons_inv in Hq' as (a' & Ha' & Es' & Hr'). destruct (arc_is _ _ Ha) as (t & j & m & x & y & x1 & ja & b & I). destruct (arc_is _ _ Ha') as (t' & j' & m' & x' & y' & x1' & ja' & b' & I').
  destruct (arc_kind _ _ _ _ _ _ _ _ _ _ I) as (_ & K1 & K2 & K3 & K4). destruct (arc_kind _ _ _ _ _ _ _ _ _ _ I') as (_ & K1' & K2' & K3' & K4').
  destruct (stt_inj _ _ _ _ _ _ (ia_st _ _ _ _ _ _ _ _ _ _ I') (ia_st _ _ _ _ _ _ _ _ _ _ I)) as (-> & -> & ->); [lia|]. assert (P : 0 <= pam jj) by (apply Hp; now left).
  destruct K4 as [(P1 & _)|(_ & P1 & _)]; [|lia]. destruct K4' as [(P1' & _)|(_ & P1' & _)]; [|lia]. assert (ja' = ja) as -> by lia.
  assert (m' = m) as ->. { pose proof (ci_and _ _ _ _ _ _ _ CI _ _ (stt_on _ _ _ (ia_st _ _ _ _ _ _ _ _ _ _ I))) as N. pose proof (ia_m _ _ _ _ _ _ _ _ _ _ I) as M. pose proof (ia_m _ _ _ _ _ _ _ _ _ _ I') as M'. pose proof (ia_ja _ _ _ _ _ _ _ _ _ _ I) as J. pose proof (ia_ja _ _ _ _ _ _ _ _ _ _ I') as J'.
    eapply DetInv.NoDup_rd; [exact N|rewrite rd_map, M'; reflexivity|rewrite rd_map, M; cbn; congruence]. }
  assert (jj' = jj) as -> by (rewrite (ia_i _ _ _ _ _ _ _ _ _ _ I), (ia_i _ _ _ _ _ _ _ _ _ _ I'); reflexivity). f_equal. rewrite Ha in Ha'. injection Ha' as <-. eapply IH; eauto. intros i Hi. apply Hp. now right.
Qed.

Section Complete.
Context (p : list Z) (z : Z).
Hypothesis Hp : apath f 0 p (zlen f - 1).
Hypothesis Zp : zlen p = TT.
Hypothesis Hz : dense_score f rws 0 p = Some z.
Hypothesis AL : alive V seqs c k p pmf H.
Lemma trace m : Z.of_nat m <= TT -> exists x j q, at_p V seqs c k p H (Z.of_nat m) x /\ stt (Z.of_nat m) j x /\ apath g 0 q (nd (Z.of_nat m) j) /\ map pam q = firstn m p.
Proof.
  induction m as [|m IH]; intros Hm.
  - destruct (at_p_0 V seqs c k HT p z Hp Zp Hz pmf H L CI) as (x & A). pose proof A as ((col & C1 & C2) & _). apply In_rd in C2 as (j & _ & C2). exists x, j, []. split; [exact A|]. split; [exists col; auto|]. split; [|reflexivity].
    destruct start_stt as (x0 & (col0 & S1 & S2) & _). change (Z.of_nat 0) with 0 in *. assert (col0 = col) as -> by congruence. destruct (ci_0 _ _ _ _ _ _ _ CI) as (col' & A1 & A2 & _). assert (col' = col) as -> by congruence. assert (E : sas col = [vbk]) by (destruct f; [rewrite zlen_nil in Hf; lia|exact A2]).
    apply (f_equal zlen) in E. unfold sas in E. rewrite zlen_map, zlen_cons, zlen_nil in E. apply rd_Some_bound in C2. assert (j = 0) as -> by lia. constructor.
  - destruct IH as (x & j & q & B1 & B2 & B3 & B4); [lia|]. destruct (at_p_step V seqs c k p z Hp Zp Hz pmf H L (Z.of_nat m) x CI AL B1) as (ja & a & y & col' & x' & D1 & D2 & D3 & D4 & D5 & D6 & D7 & D8 & D9 & _); [lia|lia|].
    apply In_rd in D3 as (my & _ & D3). destruct (mk_arc _ _ _ _ _ B2 D3) as (x1 & ja1 & b & I). destruct (arc_kind _ _ _ _ _ _ _ _ _ _ I) as (K0 & K1 & K2 & K3 & K4). destruct AL as (AL1 & _).
    destruct K4 as [(P1 & _)|(P1 & _)]; [|rewrite AL1 in P1 by lia; discriminate]. pose proof (ia_ja _ _ _ _ _ _ _ _ _ _ I) as J. assert (ja1 = ja) as -> by lia.
    replace (Z.of_nat (S m)) with (Z.of_nat m + 1) by lia. exists x', (i_dst y), (q ++ [off1 O (nd (Z.of_nat m) j) + my]). split; [exact D9|]. split; [exists col'; auto|]. split.
    + rewrite <- K2. apply ap_snoc'; [rewrite K1; exact B3|exact K0].
    + rewrite map_app, B4. cbn [map]. rewrite P1. destruct (p_at V seqs c k p z Hp Zp Hz (Z.of_nat m)) as (j0 & a0 & Q1 & _ & _ & Q4 & _); [lia|]. assert (j0 = ja) as -> by congruence. replace (Z.to_nat (Z.of_nat m + 1)) with (S m) in Q4 by lia. rewrite Nat2Z.id in Q4. now rewrite Q4.
Qed.
Lemma complete : exists! q, successful g q /\ map pam q = p.
Proof.
  assert (Zg : nstates g = zlen O) by (unfold nstates, pg; apply zlen_map).
  destruct (trace (Z.to_nat TT)) as (x & j & q & A & B & C & D); [lia|]. rewrite Z2Nat.id in * by lia. destruct (stt_final _ _ _ B) as ((_ & F) & _). rewrite F in C by reflexivity. assert (ES : successful g q). { split; [rewrite Zg; destruct (stt_row _ _ _ B) as (_ & B' & _); destruct zlen_O; lia|]. rewrite Zg. exact C. }
  assert (EM : map pam q = p) by (rewrite D; apply firstn_all2; unfold zlen in *; lia). exists q. split; [auto|]. intros q' ((_ & Q1) & Q2). rewrite Zg in Q1. eapply unique; [exact C|exact Q1|congruence|]. rewrite EM. intros i Hi. exact (apath_nn _ _ _ _ Hp i Hi).
Qed.
End Complete.
End Path.
