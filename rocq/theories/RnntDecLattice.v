(** * The lattice of one stream *)
From Coq Require Import ZArith List Lia Bool Permutation Sorted.
From Coq Require Import ZifyBool ZifyNat.
From Verif Require Import Base RaggedModel RaggedSpec RaggedProofs FsaSpec FsaLemmas RaggedOpsModel OpsModel RaggedOpsProofs RaggedListProofs ScoreSpec ShortestSpec IDenseModel IDenseSpec IDensePaths
  RnntDecModel RnntDecSpec RnntDecList RnntDecGroup RnntDecArith RnntDecStep RnntDecSession.
From Verif Require DetInv IPrunedOut IPrunedPath IDenseInit.
Import ListNotations.
Open Scope Z_scope.
Notation arcs_at_c := IPrunedPath.arcs_at_c.
Notation ap_nil_inv := IPrunedPath.ap_nil_inv.
Notation ap_cons_inv := IPrunedPath.ap_cons_inv.

(** ** hypotheses *)
Lemma hyp_fun f h net p s ctx x : hyp f h net p s ctx x -> forall s' ctx' x', hyp f h net p s' ctx' x' -> s' = s /\ ctx' = ctx /\ x' = x.
Proof.
  induction 1 as [|p s ctx x H IH Hs|p s ctx x j a H IH Ha Hs]; intros s' ctx' x' H'.
  - inversion H' as [E|p0 s0 c0 x0 A B E|p0 s0 c0 x0 j0 a0 A B C E]; [auto|destruct p0; discriminate|destruct p0; discriminate].
  - inversion H' as [E|p0 s0 c0 x0 A B E|p0 s0 c0 x0 j0 a0 A B C E]; [destruct p; discriminate| |].
    + apply app_inj_tail in E as (-> & _). destruct (IH _ _ _ A) as (E1 & E2 & E3). subst. auto.
    + apply app_inj_tail in E as (-> & ->). apply rd_Some_bound in B. lia.
  - inversion H' as [E|p0 s0 c0 x0 A B E|p0 s0 c0 x0 j0 a0 A B C E]; [destruct p; discriminate| |].
    + apply app_inj_tail in E as (-> & E). rewrite <- E in Ha. apply rd_Some_bound in Ha. lia.
    + apply app_inj_tail in E as (-> & ->). destruct (IH _ _ _ A) as (E1 & E2 & E3). rewrite B in Ha. injection Ha as <-. rewrite E2, E3. auto.
Qed.
Lemma firstn_snoc {A} (p : list A) ja m : firstn m (p ++ [ja]) = if (m <=? length p)%nat then firstn m p else p ++ [ja].
Proof. rewrite firstn_app. destruct (Nat.leb_spec m (length p)) as [L|L]; [replace (m - length p)%nat with 0%nat by lia; apply app_nil_r|]. rewrite firstn_all2 by lia. f_equal. destruct (m - length p)%nat eqn:E; [lia|]. cbn. now rewrite firstn_nil. Qed.
Lemma hyp_pre f h net p s ctx x m : hyp f h net p s ctx x -> exists s' ctx' x', hyp f h net (firstn m p) s' ctx' x'.
Proof.
  intros H. assert (K : exists s' ctx' x', hyp f h net p s' ctx' x') by eauto. clear s ctx x H. revert m K. induction p as [|ja p IH] using rev_ind; intros m K; [now rewrite firstn_nil|]. rewrite firstn_snoc. destruct (m <=? length p)%nat; [|exact K]. apply IH. destruct K as (s & ctx & x & K). inversion K as [E|p0 s0 c0 x0 A B E|p0 s0 c0 x0 j0 a0 A B C E]; [destruct p; discriminate| |]; apply app_inj_tail in E as (-> & _); eauto.
Qed.
Lemma firstn_S_rd {A} (p : list A) m : 0 <= m < zlen p -> exists ja, rd p m = Some ja /\ firstn (Z.to_nat (m + 1)) p = firstn (Z.to_nat m) p ++ [ja].
Proof.
  intros Hm. destruct (rd_in_bound p m Hm) as (ja & Hj). exists ja. split; [exact Hj|]. assert (E : p = firstn (Z.to_nat m) p ++ skipn (Z.to_nat m) p) by (symmetry; apply firstn_skipn). assert (Lf : length (firstn (Z.to_nat m) p) = Z.to_nat m) by (rewrite firstn_length; unfold zlen in *; lia).
  destruct (skipn (Z.to_nat m) p) as [|y r] eqn:Es; [apply (f_equal (@length A)) in Es; rewrite skipn_length in Es; unfold zlen in Hm; cbn in Es; lia|]. assert (y = ja) as ->. { rewrite E in Hj. rewrite rd_app_r in Hj by (unfold zlen; lia). replace (m - zlen (firstn (Z.to_nat m) p)) with 0 in Hj by (unfold zlen; lia). rewrite rd_cons_0 in Hj. congruence. }
  rewrite E at 1. rewrite firstn_app, Lf. rewrite firstn_all2 by lia. f_equal. replace (Z.to_nat (m + 1) - Z.to_nat m)%nat with 1%nat by lia. reflexivity.
Qed.

Section Lat.
Context (f : nfsa) (c : rcfg) (net : Z -> list Z -> list Z).
Hypothesis Hf : valid f.
Hypothesis HV : 1 <= r_vocab c.
Hypothesis Hh : 1 <= r_hist c.
Hypothesis Hlab : forall a, In a (all_arcs f) -> lab a < r_vocab c.
Notation V := (r_vocab c).
Notation h := (r_hist c).
Notation n := (nstates f).
Notation cof := (ctxof V h).
Notation hy := (hyp f h net).
Notation lc := (larc f c net).
Notation inr := (inr f c).
Notation unp := (unp f c net).
Context (fs : list frame) (H : list (list (list (Z * Z)))) (partial : bool).
Notation T := (zlen fs).
Hypothesis HT : 1 <= T.
Hypothesis HL : zlen H = T + 1.
Hypothesis H0 : rd H 0 = Some [[(0, 0)]].
Hypothesis HO : forall t st, rd H t = Some st -> okS f c net t st.
Hypothesis HS : forall t fr st st', rd fs t = Some fr -> rd H t = Some st -> rd H (t + 1) = Some st' -> stepR f c net t (concat st) (concat fr) (concat st').

Definition hasf : bool := match rd fs (T - 1) with Some fr => existsb (fun a => x_lab a =? -1) (concat (concat fr)) | None => false end.
Definition keepf (a : ainf) : bool := (x_lab a =? -1) || (partial && negb hasf).
Definition cols : list (list (list ainf)) := imap (fun t fr => if t =? T - 1 then map (filter keepf) (concat fr) else concat fr) 0 fs.
Definition ol (a : ainf) : Z := if x_lab a =? -1 then 0 else x_lab a.
Notation nd t j := (off1 cols t + j).
Definition oa (t j : Z) (a : ainf) : arc * Z :=
  if t =? T - 1 then (mkArc (nd t j) (off1 cols T) (-1) 0, -1) else (mkArc (nd t j) (off1 cols (t + 1) + x_dst a) (ol a) (x_sc a), x_arc a).
Definition W : list (list (list (arc * Z))) := imap (fun t col => imap (fun j row => map (oa t j) row) 0 col) 0 cols.
Definition lat : list (list (arc * Z)) := concat W ++ [[]].
Definition lg : nfsa := map (map fst) lat.
Definition lam (i : Z) : Z := match rd (concat lat) i with Some o => snd o | None => 0 end.
Notation g := lg.
Notation fin := (off1 cols T).

Lemma zcols : zlen cols = T. Proof. apply zlen_imap. Qed.
Lemma W_off t : off1 W t = off1 cols t.
Proof. apply IDenseInit.off1_same. unfold W. rewrite map_imap. rewrite (imap_ext _ (fun _ col => zlen col)) by (intros; apply zlen_imap). now rewrite imap_const. Qed.
Lemma W_len : zlen (concat W) = fin.
Proof. rewrite <- IDenseInit.off1_all, W_off. f_equal. unfold W. rewrite zlen_imap. apply zcols. Qed.
Lemma C_len : zlen (concat cols) = fin.
Proof. rewrite <- IDenseInit.off1_all. now rewrite zcols. Qed.
Lemma zlat : zlen lat = fin + 1.
Proof. unfold lat. now rewrite zlen_app, W_len. Qed.

(** state [j] before frame [t], with the arcs [frow] of the frame and those of the lattice *)
Record stt (t j v x : Z) (frow row : list ainf) : Prop := {
  s_col : exists col fr, rd cols t = Some col /\ rd col j = Some row /\ rd fs t = Some fr /\ rd (concat fr) j = Some frow;
  s_st : exists st, rd H t = Some st /\ rd (concat st) j = Some (v, x);
  s_row : row = if t =? T - 1 then filter keepf frow else frow }.
Lemma H_at t : 0 <= t <= T -> exists st, rd H t = Some st /\ okS f c net t st.
Proof. intros Ht. destruct (rd_in_bound H t) as (st & Hs); [lia|]. eauto. Qed.
Lemma stt_of_col t j col row : rd cols t = Some col -> rd col j = Some row -> exists v x frow, stt t j v x frow row.
Proof.
  intros Hc Hr. pose proof Hc as Hc'. unfold cols in Hc'. rewrite rd_imap, Z.add_0_l in Hc'. destruct (rd fs t) as [fr|] eqn:Ef; [|discriminate]. pose proof (rd_Some_bound _ _ _ Ef) as Bt. destruct (H_at t ltac:(lia)) as (st & Hs & _). destruct (H_at (t + 1) ltac:(lia)) as (st' & Hs' & _). pose proof (st_len _ _ _ _ _ _ _ (HS _ _ _ _ Ef Hs Hs')) as ZF. injection Hc' as Hc'.
  assert (exists frow, rd (concat fr) j = Some frow /\ row = if t =? T - 1 then filter keepf frow else frow) as (frow & F1 & F2).
  { destruct (t =? T - 1); subst col; [|eauto]. rewrite rd_map in Hr. destruct (rd (concat fr) j) as [frow|]; [|discriminate]. injection Hr as <-. eauto. }
  destruct (rd_in_bound (concat st) j) as ((v & x) & Hv); [rewrite <- ZF; eapply rd_Some_bound; eauto|]. exists v, x, frow. split; [exists col, fr; auto|eauto|exact F2].
Qed.
Lemma stt_of_state t j v x st : 0 <= t < T -> rd H t = Some st -> rd (concat st) j = Some (v, x) -> exists frow row, stt t j v x frow row.
Proof.
  intros Bt Hs Hv. destruct (rd_in_bound fs t Bt) as (fr & Ef). destruct (H_at (t + 1) ltac:(lia)) as (st' & Hs' & _). pose proof (st_len _ _ _ _ _ _ _ (HS _ _ _ _ Ef Hs Hs')) as ZF. destruct (rd_in_bound (concat fr) j) as (frow & F1); [rewrite ZF; eapply rd_Some_bound; eauto|].
  exists frow, (if t =? T - 1 then filter keepf frow else frow). split; [|eauto|reflexivity]. exists (if t =? T - 1 then map (filter keepf) (concat fr) else concat fr), fr. unfold cols. rewrite rd_imap, Ef, Z.add_0_l. split; [reflexivity|]. split; [|auto]. destruct (t =? T - 1); [rewrite rd_map, F1; reflexivity|exact F1].
Qed.
Lemma stt_t t j v x frow row : stt t j v x frow row -> 0 <= t < T /\ 0 <= j /\ inr v /\ exists p, hy p (v mod n) (cof (v / n)) x /\ zlen p = t.
Proof.
  intros [(col & fr & A1 & A2 & A3 & A4) (st & B1 & B2) _]. split; [eapply rd_Some_bound; eauto|]. split; [apply rd_Some_bound in A2; lia|]. apply (os_hyp _ _ _ _ _ (HO _ _ B1) v x). eapply rd_In; eauto.
Qed.
Lemma stt_arc t j v x frow row a : stt t j v x frow row -> In a frow -> exists st' v' x', rd H (t + 1) = Some st' /\ lc t v (x_arc a) (x_lab a) (x_sc a) v' /\ rd (concat st') (x_dst a) = Some (v', x') /\ x + x_sc a <= x'.
Proof.
  intros S Ha. pose proof (stt_t _ _ _ _ _ _ S) as (Bt & _). destruct S as [(col & fr & A1 & A2 & A3 & A4) (st & B1 & B2) _]. destruct (H_at (t + 1) ltac:(lia)) as (st' & Hs' & _). destruct (st_arc _ _ _ _ _ _ _ (HS _ _ _ _ A3 B1 Hs') _ _ _ _ _ B2 A4 Ha) as (v' & x' & C1 & C2 & C3). exists st', v', x'. auto.
Qed.
Lemma row_frow t j v x frow row a : stt t j v x frow row -> In a row -> In a frow /\ (t = T - 1 -> keepf a = true).
Proof. intros [_ _ ->] Ha. destruct (Z.eqb_spec t (T - 1)) as [E|E]; [apply filter_In in Ha as (A & B); auto|split; [exact Ha|intros; congruence]]. Qed.
Lemma larc_nf t v ja l w v' : lc t v ja l w v' -> v mod n <> final f.
Proof. unfold final. intros [(_ & _ & X & _)|(b & B1 & B2 & _)]; [exact X|]. rewrite <- B2. destruct Hf as (_ & _ & VF). apply (VF b (rd_In _ _ _ B1)). Qed.
Lemma larc_lab t v ja l w v' : lc t v ja l w v' -> -1 <= l /\ l = hlab f ja /\ (l = -1 -> v' mod n = final f /\ exists b, rd (all_arcs f) ja = Some b /\ src b = v mod n /\ lab b = -1).
Proof.
  intros [(-> & -> & _)|(b & B1 & B2 & -> & -> & _)].
  - split; [lia|]. split; [|intros; lia]. unfold hlab. destruct (rd (all_arcs f) (-1)) eqn:E; [apply rd_Some_bound in E; lia|reflexivity].
  - destruct Hf as (_ & _ & VF). destruct (VF b (rd_In _ _ _ B1)) as (D & L & (F1 & _) & _). split; [exact L|]. split; [unfold hlab; now rewrite B1|]. intros E. split; [rewrite (proj2 (join f net _ _ D)); auto|]. exists b. auto.
Qed.

Lemma stt_row t j v x frow row : stt t j v x frow row -> rd lat (nd t j) = Some (map (oa t j) row) /\ 0 <= nd t j < fin /\ rd (ids_of cols) (nd t j) = Some t.
Proof.
  intros [(col & fr & A1 & A2 & _) _ _]. destruct (rd_concat_off _ _ _ _ _ A1 A2) as (E1 & E2). pose proof (rd_Some_bound _ _ _ E1) as BB. rewrite C_len in BB. split; [|auto]. unfold lat. rewrite rd_app_l by (rewrite W_len; lia). rewrite <- W_off.
  apply (rd_concat_off W t (imap (fun j row => map (oa t j) row) 0 col)); [unfold W; rewrite rd_imap, A1, Z.add_0_l; reflexivity|]. rewrite rd_imap, A2, Z.add_0_l. reflexivity.
Qed.
Lemma row_stt i r : rd lat i = Some r -> (exists t j v x frow row, stt t j v x frow row /\ i = nd t j /\ r = map (oa t j) row) \/ (i = fin /\ r = []).
Proof.
  intros E. unfold lat in E. pose proof (rd_Some_bound _ _ _ E) as B. rewrite zlen_app, W_len, zlen_cons, zlen_nil in B. destruct (Z_lt_ge_dec i fin) as [Hi|Hi].
  - left. rewrite rd_app_l in E by (rewrite W_len; lia). apply rd_concat_inv in E as (t & l & j & E1 & E2 & E3 & _). unfold W in E1. rewrite rd_imap in E1. destruct (rd cols t) as [col|] eqn:Ec; [|discriminate]. injection E1 as <-. rewrite rd_imap, !Z.add_0_l in E2. destruct (rd col j) as [row|] eqn:Ex; [|discriminate]. injection E2 as <-.
    destruct (stt_of_col _ _ _ _ Ec Ex) as (v & x & frow & S). exists t, j, v, x, frow, row. rewrite W_off in E3. auto.
  - right. split; [lia|]. rewrite rd_app_r in E by (rewrite W_len; lia). rewrite W_len in E. replace (i - fin) with 0 in E by lia. rewrite rd_cons_0 in E. congruence.
Qed.
Lemma stt_inj t j v x frow row t' j' v' x' frow' row' : stt t j v x frow row -> stt t' j' v' x' frow' row' -> nd t j = nd t' j' -> t' = t /\ j' = j /\ v' = v /\ x' = x /\ frow' = frow /\ row' = row.
Proof.
  intros A A' E. destruct (stt_row _ _ _ _ _ _ A) as (_ & _ & B). destruct (stt_row _ _ _ _ _ _ A') as (_ & _ & B'). rewrite E, B' in B. injection B as E1. subst t'. assert (j' = j) as -> by lia. destruct A as [(c1 & r1 & A1 & A2 & A3 & A4) (s1 & B1 & B2) _], A' as [(c2 & r2 & C1 & C2 & C3 & C4) (s2 & D1 & D2) _].
  assert (c2 = c1) by congruence. subst c2. assert (r2 = r1) by congruence. subst r2. assert (s2 = s1) by congruence. subst s2. rewrite B2 in D2. injection D2 as <- <-. repeat split; congruence.
Qed.
Lemma start_stt : exists frow row, stt 0 0 0 0 frow row.
Proof. apply (stt_of_state 0 0 0 0 [[(0, 0)]]); [lia|exact H0|reflexivity]. Qed.

(** arcs *)
Record isarc (i : Z) (a : arc) (t j v x : Z) (frow row : list ainf) (m : Z) (y : ainf) : Prop := {
  ia_st : stt t j v x frow row; ia_m : rd row m = Some y; ia_i : i = off1 lat (nd t j) + m; ia_o : rd (concat lat) i = Some (oa t j y); ia_a : a = fst (oa t j y) }.
Lemma mk_arc t j v x frow row m y : stt t j v x frow row -> rd row m = Some y -> isarc (off1 lat (nd t j) + m) (fst (oa t j y)) t j v x frow row m y.
Proof.
  intros S M. destruct (stt_row _ _ _ _ _ _ S) as (R & _). split; auto. apply (rd_concat_off _ _ _ _ _ R). rewrite rd_map, M. reflexivity.
Qed.
Lemma g_arcs : all_arcs g = map fst (concat lat).
Proof. unfold all_arcs, lg. now rewrite concat_map. Qed.
Lemma arc_is i a : rd (all_arcs g) i = Some a -> exists t j v x frow row m y, isarc i a t j v x frow row m y.
Proof.
  intros E. rewrite g_arcs, rd_map in E. destruct (rd (concat lat) i) as [o|] eqn:Eo; [|discriminate]. injection E as <-. pose proof Eo as Eo'. apply rd_concat_inv in Eo as (r & row0 & m & E1 & E2 & E3 & _). destruct (row_stt _ _ E1) as [(t & j & v & x & frow & row & S & -> & ->)|(_ & ->)]; [|rewrite rd_nil in E2; discriminate].
  rewrite rd_map in E2. destruct (rd row m) as [y|] eqn:Ey; [|discriminate]. injection E2 as <-. exists t, j, v, x, frow, row, m, y. split; auto.
Qed.
Lemma arc_kind i a t j v x frow row m y : isarc i a t j v x frow row m y ->
  rd (all_arcs g) i = Some a /\ src a = nd t j /\
  ((t < T - 1 /\ dst a = nd (t + 1) (x_dst y) /\ lab a = ol y /\ sc a = x_sc y /\ lam i = x_arc y /\
     exists v' x' frow' row', lc t v (x_arc y) (x_lab y) (x_sc y) v' /\ x + x_sc y <= x' /\ stt (t + 1) (x_dst y) v' x' frow' row') \/
   (t = T - 1 /\ dst a = fin /\ lab a = -1 /\ sc a = 0 /\ lam i = -1 /\ keepf y = true /\ exists v', lc t v (x_arc y) (x_lab y) (x_sc y) v')).
Proof.
  intros [I1 I2 I3 I4 I5]. split; [rewrite g_arcs, rd_map, I4, I5; reflexivity|]. destruct (row_frow _ _ _ _ _ _ _ I1 (rd_In _ _ _ I2)) as (Hy & KY). destruct (stt_arc _ _ _ _ _ _ _ I1 Hy) as (st' & v' & x' & S1 & S2 & S3 & S4). destruct (stt_t _ _ _ _ _ _ I1) as (Bt & _). unfold lam. rewrite I4, I5. unfold oa. destruct (Z.eqb_spec t (T - 1)) as [E|E]; cbn [fst snd src dst lab sc]; (split; [reflexivity|]).
  - right. repeat (split; [first [reflexivity|assumption|auto]|]). eauto.
  - left. split; [lia|]. repeat (split; [reflexivity|]). destruct (stt_of_state (t + 1) (x_dst y) v' x' st') as (frow' & row' & S'); [lia|exact S1|exact S3|]. exists v', x', frow', row'. auto.
Qed.
Lemma Zg : nstates g = fin + 1.
Proof. unfold nstates, lg. rewrite zlen_map. apply zlat. Qed.
Lemma lg_valid : valid g.
Proof.
  destruct start_stt as (fr0 & r0 & S0). destruct (stt_row _ _ _ _ _ _ S0) as (_ & B0 & _). split; [|split; [rewrite Zg; lia|]].
  - intros i row a Hr Ha. unfold lg in Hr. rewrite rd_map in Hr. destruct (rd lat i) as [row'|] eqn:Er; [|discriminate]. injection Hr as <-. destruct (row_stt _ _ Er) as [(t & j & v & x & frow & row & S & -> & ->)|(_ & ->)]; [|easy]. apply in_map_iff in Ha as (o & <- & Ho). apply in_map_iff in Ho as (y & <- & _). unfold oa. destruct (t =? T - 1); reflexivity.
  - intros a Ha. apply In_rd in Ha as (i & _ & Ha). destruct (arc_is _ _ Ha) as (t & j & v & x & frow & row & m & y & I). destruct (arc_kind _ _ _ _ _ _ _ _ _ _ I) as (_ & K1 & K2). destruct (stt_row _ _ _ _ _ _ (ia_st _ _ _ _ _ _ _ _ _ _ I)) as (_ & B & _). rewrite Zg. unfold final. change (zlen g) with (nstates g). rewrite Zg, K1.
    destruct K2 as [(_ & -> & -> & _ & _ & v' & x' & frow' & row' & L & _ & S')|(_ & -> & -> & _)].
    + destruct (stt_row _ _ _ _ _ _ S') as (_ & B' & _). destruct (larc_lab _ _ _ _ _ _ L) as (Lb & _). unfold ol. destruct (x_lab y =? -1) eqn:E; lia.
    + lia.
Qed.

(** ** Completeness *)
Section Trace.
Context (p : list Z).
Hypothesis U : unp.
Hypothesis Zp : zlen p = T.
Hypothesis G : good f h net (r_beam c) p.
(** one frame: the arc of the hypothesis is in the frame *)
Lemma ONE : forall m, Z.of_nat m <= T - 1 -> forall j v x y frow row, stt (Z.of_nat m) j v x frow row -> hy (firstn m p) (v mod n) (cof (v / n)) y -> y <= x ->
    exists ja a v', rd p (Z.of_nat m) = Some ja /\ firstn (S m) p = firstn m p ++ [ja] /\ In a frow /\ x_arc a = ja /\ lc (Z.of_nat m) v (x_arc a) (x_lab a) (x_sc a) v' /\ hy (firstn (S m) p) (v' mod n) (cof (v' / n)) (y + x_sc a).
Proof.
  intros m Hm j v x y frow row S Hy Lx. destruct (firstn_S_rd p (Z.of_nat m)) as (ja & Hj & Ef); [lia|]. replace (Z.to_nat (Z.of_nat m + 1)) with (Datatypes.S m) in Ef by lia. rewrite Nat2Z.id in Ef. exists ja.
    destruct G as ((s & ctx & z & Hp) & GG). destruct (hyp_pre _ _ _ _ _ _ _ (Datatypes.S m) Hp) as (s1 & c1 & y1 & H1). pose proof H1 as H1'. rewrite Ef in H1'. destruct (hyp_snoc f c net Hf HV Hh Hlab _ _ _ _ _ H1') as (s2 & c2 & y2 & H2 & HX). destruct (hyp_fun _ _ _ _ _ _ _ Hy _ _ _ H2) as (E1 & E2 & E3). subst y2.
    destruct (stt_t _ _ _ _ _ _ S) as (Bt & _ & Iv & _). assert (Zf : zlen (firstn m p) = Z.of_nat m) by (unfold zlen in *; rewrite firstn_length; lia). destruct (HX v Iv (eq_sym E1) (eq_sym E2)) as (l & w & v' & L & V1 & V2 & V3). rewrite Zf in L.
    pose proof S as [(col & fr & A1 & A2 & A3 & A4) (st & B1 & B2) _]. destruct (H_at (Z.of_nat m + 1) ltac:(lia)) as (st' & Hs' & _). destruct (st_all _ _ _ _ _ _ _ (HS _ _ _ _ A3 B1 Hs') U _ _ _ _ _ _ _ _ B2 A4 L) as (a & D1 & D2).
    { intros p' s' ctx' x' Hp' Zp'. assert (x' - r_beam c <= y1); [|lia]. eapply (GG (Z.of_nat m + 1) s1 c1 y1 p'); [lia| |exact Hp'|lia]. replace (Z.to_nat (Z.of_nat m + 1)) with (Datatypes.S m) by lia. exact H1. }
    destruct (stt_arc _ _ _ _ _ _ _ S D1) as (st2 & v2 & x2 & _ & L2 & _). rewrite D2 in L2. destruct (larc_fun f c net Hlab _ _ _ _ _ _ _ _ _ L L2) as (X1 & X2 & X3). exists a, v2. rewrite D2. repeat (split; [first [assumption|reflexivity]|]). rewrite X3, X2, V1, V2, <- V3. exact H1.
Qed.
Lemma trace m : Z.of_nat m <= T - 1 -> exists j v x y frow row q, stt (Z.of_nat m) j v x frow row /\ hy (firstn m p) (v mod n) (cof (v / n)) y /\ y <= x /\ apath g 0 q (nd (Z.of_nat m) j) /\ map lam q = firstn m p /\
  exists ja a, rd p (Z.of_nat m) = Some ja /\ firstn (S m) p = firstn m p ++ [ja] /\ In a frow /\ x_arc a = ja.
Proof.
  induction m as [|m IH]; intros Hm.
  - destruct start_stt as (frow & row & S). assert (HY : hy (firstn 0 p) (0 mod n) (cof (0 / n)) 0). { pose proof (n2 f Hf). rewrite Z.mod_0_l, Z.div_0_l, (ctxof_0 V h HV Hh) by lia. constructor. } exists 0, 0, 0, 0, frow, row, []. split; [exact S|]. split; [exact HY|]. split; [lia|]. split; [constructor|]. split; [reflexivity|]. destruct (ONE 0%nat Hm _ _ _ _ _ _ S HY ltac:(lia)) as (ja & a & v' & X1 & X2 & X3 & X4 & _). eauto 10.
  - destruct IH as (j & v & x & y & frow & row & q & S & Hy & Lx & Hq & Mq & _); [lia|]. destruct (ONE m ltac:(lia) _ _ _ _ _ _ S Hy Lx) as (ja & a & v' & X1 & X2 & X3 & X4 & X5 & X6).
    assert (row = frow) as Er by (rewrite (s_row _ _ _ _ _ _ S); replace (Z.of_nat m =? T - 1) with false by lia; reflexivity). subst row. apply In_rd in X3 as (k & _ & X3). pose proof (mk_arc _ _ _ _ _ _ _ _ S X3) as I. destruct (arc_kind _ _ _ _ _ _ _ _ _ _ I) as (K0 & K1 & K2).
    destruct K2 as [(_ & K2 & K3 & K4 & K5 & v2 & x2 & frow' & row' & L2 & Lx2 & S')|(K2 & _)]; [|lia]. destruct (larc_fun f c net Hlab _ _ _ _ _ _ _ _ _ X5 L2) as (_ & _ & ->).
    replace (Z.of_nat (Datatypes.S m)) with (Z.of_nat m + 1) in * by lia. exists (x_dst a), v', x2, (y + x_sc a), frow', row', (q ++ [off1 lat (nd (Z.of_nat m) j) + k]). split; [exact S'|]. split; [exact X6|]. split; [lia|]. split; [rewrite <- K2; apply IPrunedPath.ap_snoc'; [rewrite K1; exact Hq|exact K0]|]. split; [rewrite map_app, Mq; cbn [map]; now rewrite K5, X4, X2|].
    assert (Hm' : Z.of_nat (Datatypes.S m) <= T - 1) by lia. assert (S'' : stt (Z.of_nat (Datatypes.S m)) (x_dst a) v' x2 frow' row') by (replace (Z.of_nat (Datatypes.S m)) with (Z.of_nat m + 1) by lia; exact S'). destruct (ONE (Datatypes.S m) Hm' _ _ _ _ _ _ S'' X6 ltac:(lia)) as (ja' & a' & v2 & Y1 & Y2 & Y3 & Y4 & _). replace (Z.of_nat m + 1) with (Z.of_nat (Datatypes.S m)) by lia. eauto 10.
Qed.
Lemma trace_end : exists j v x frow row q ja a, stt (T - 1) j v x frow row /\ apath g 0 q (nd (T - 1) j) /\ map lam q = removelast p /\ p = removelast p ++ [ja] /\ In a frow /\ x_arc a = ja.
Proof.
  destruct (trace (Z.to_nat (T - 1))) as (j & v & x & y & frow & row & q & S & _ & _ & Hq & Mq & ja & a & J1 & J2 & J3 & J4); [lia|]. rewrite Z2Nat.id in * by lia. rewrite firstn_all2 in J2 by (unfold zlen in *; lia). assert (R : removelast p = firstn (Z.to_nat (T - 1)) p) by (rewrite J2 at 1; rewrite removelast_last; reflexivity). exists j, v, x, frow, row, q, ja, a. rewrite R. auto 10.
Qed.
End Trace.
Lemma hasf_in : hasf = true <-> exists j v x frow row a, stt (T - 1) j v x frow row /\ In a frow /\ x_lab a = -1.
Proof.
  unfold hasf. destruct (rd_in_bound fs (T - 1)) as (fr & Ef); [lia|]. rewrite Ef. rewrite existsb_exists. split.
  - intros (a & Ha & E). apply in_concat in Ha as (frow & F1 & F2). apply In_rd in F1 as (j & _ & F1). destruct (H_at (T - 1) ltac:(lia)) as (st & Hs & _). destruct (H_at (T - 1 + 1) ltac:(lia)) as (st' & Hs' & _). pose proof (st_len _ _ _ _ _ _ _ (HS _ _ _ _ Ef Hs Hs')) as ZF. destruct (rd_in_bound (concat st) j) as ((v & x) & Hv); [rewrite <- ZF; eapply rd_Some_bound; eauto|].
    destruct (stt_of_state (T - 1) j v x st) as (frow' & row & S); [lia|exact Hs|exact Hv|]. assert (frow' = frow) as ->. { destruct S as [(col & fr' & _ & _ & A3 & A4) _ _]. rewrite Ef in A3. injection A3 as <-. congruence. } exists j, v, x, frow, row, a. split; [exact S|]. split; [exact F2|lia].
  - intros (j & v & x & frow & row & a & [(col & fr' & _ & _ & A3 & A4) _ _] & Ha & E). rewrite Ef in A3. injection A3 as <-. exists a. split; [apply in_concat; exists frow; split; [eapply rd_In; eauto|exact Ha]|lia].
Qed.
Lemma ends_lab p ja : p = removelast p ++ [ja] -> (ends_final f p <-> hlab f ja = -1).
Proof.
  intros E. unfold ends_final, hlab. assert (L : last p 0 = ja) by (rewrite E; apply last_last). split.
  - intros (j & b & E1 & E2 & E3). rewrite L in E1. subst j. now rewrite E2.
  - intros E1. destruct (rd (all_arcs f) ja) as [b|] eqn:Eb; [|discriminate]. exists ja, b. auto.
Qed.
Lemma hasf_good p : unp -> zlen p = T -> good f h net (r_beam c) p -> ends_final f p -> hasf = true.
Proof.
  intros U Zp G EF. destruct (trace_end p U Zp G) as (j & v & x & frow & row & q & ja & a & S & _ & _ & Ep & Ha & Ea). apply hasf_in. exists j, v, x, frow, row, a. split; [exact S|]. split; [exact Ha|]. destruct (stt_arc _ _ _ _ _ _ _ S Ha) as (_ & v' & _ & _ & L & _). destruct (larc_lab _ _ _ _ _ _ L) as (_ & -> & _). rewrite Ea. now apply (ends_lab p ja).
Qed.
Lemma hasf_hyp : hasf = true -> exists p s ctx x, hy p s ctx x /\ zlen p = T /\ ends_final f p.
Proof.
  intros E. apply hasf_in in E as (j & v & x & frow & row & a & S & Ha & E). destruct (stt_arc _ _ _ _ _ _ _ S Ha) as (_ & v' & _ & _ & L & _). destruct (stt_t _ _ _ _ _ _ S) as (_ & _ & Iv & p & P1 & P2). destruct (larc_hyp f c net Hf HV Hh Hlab _ _ _ _ _ _ _ _ Iv L P1 P2) as (_ & Q1 & Q2). eexists _, _, _, _. split; [exact Q1|]. split; [lia|]. apply (ends_lab _ (x_arc a)); [now rewrite removelast_last|]. destruct (larc_lab _ _ _ _ _ _ L) as (_ & <- & _). exact E.
Qed.

Lemma unique q : forall q' t j v x frow row d d', stt t j v x frow row -> zlen q <= T - 1 - t -> apath g (nd t j) q d -> apath g (nd t j) q' d' -> map lam q = map lam q' -> q = q'.
Proof.
  induction q as [|jj q IH]; intros [|jj' q'] t j v x frow row d d' S Zq Hq Hq' E; try discriminate; [reflexivity|]. cbn [map] in E. injection E as E1 E2. rewrite zlen_cons in Zq. pose proof (zlen_nonneg q).
  apply ap_cons_inv in Hq as (a & Ha & Es & Hr). apply ap_cons_inv in Hq' as (a' & Ha' & Es' & Hr'). destruct (arc_is _ _ Ha) as (t1 & j1 & v1 & x1 & fr1 & r1 & m & y & I). destruct (arc_is _ _ Ha') as (t2 & j2 & v2 & x2 & fr2 & r2 & m' & y' & I').
  destruct (arc_kind _ _ _ _ _ _ _ _ _ _ I) as (_ & K1 & K2). destruct (arc_kind _ _ _ _ _ _ _ _ _ _ I') as (_ & K1' & K2').
  destruct (stt_inj _ _ _ _ _ _ _ _ _ _ _ _ S (ia_st _ _ _ _ _ _ _ _ _ _ I)) as (X1 & X2 & X3 & X4 & X5 & X6); [lia|]. destruct (stt_inj _ _ _ _ _ _ _ _ _ _ _ _ S (ia_st _ _ _ _ _ _ _ _ _ _ I')) as (Y1 & Y2 & Y3 & Y4 & Y5 & Y6); [lia|]. subst t1 j1 v1 x1 fr1 r1 t2 j2 v2 x2 fr2 r2.
  destruct K2 as [(_ & K2 & _ & _ & K5 & w & z & fr' & r' & _ & _ & S')|(K2 & _)]; [|lia]. destruct K2' as [(_ & _ & _ & _ & K5' & _)|(K2' & _)]; [|lia].
  assert (m' = m) as ->. { pose proof (ia_m _ _ _ _ _ _ _ _ _ _ I) as M. pose proof (ia_m _ _ _ _ _ _ _ _ _ _ I') as M'. assert (N : NoDup (map x_arc row)). { destruct (stt_t _ _ _ _ _ _ S) as (Bt & _). pose proof S as [(col & fr & A1 & A2 & A3 & A4) (st & B1 & B2) ER]. replace (t =? T - 1) with false in ER by lia. subst row. destruct (H_at (t + 1) ltac:(lia)) as (st' & Hs' & _). eapply (st_nd _ _ _ _ _ _ _ (HS _ _ _ _ A3 B1 Hs')); eauto. }
    eapply DetInv.NoDup_rd; [exact N|rewrite rd_map, M'; reflexivity|rewrite rd_map, M; cbn; congruence]. }
  assert (jj' = jj) as -> by (rewrite (ia_i _ _ _ _ _ _ _ _ _ _ I), (ia_i _ _ _ _ _ _ _ _ _ _ I'); reflexivity). f_equal. rewrite Ha in Ha'. injection Ha' as <-. rewrite K2 in Hr, Hr'. eapply IH; [exact S'|lia|exact Hr|exact Hr'|exact E2].
Qed.
Lemma complete p : unp -> zlen p = T -> good f h net (r_beam c) p ->
  ends_final f p \/ (partial = true /\ forall p' s ctx x, hy p' s ctx x -> zlen p' = T -> ~ ends_final f p') ->
  exists! q, (exists j, successful g (q ++ [j])) /\ map lam q = removelast p.
Proof.
  intros U Zp G HE. destruct (trace_end p U Zp G) as (j & v & x & frow & row & q & ja & a & S & Hq & Mq & Ep & Ha & Ea).
  assert (KA : keepf a = true). { unfold keepf. destruct HE as [HE|(HP & HN)].
    - destruct (stt_arc _ _ _ _ _ _ _ S Ha) as (_ & v' & _ & _ & L & _). destruct (larc_lab _ _ _ _ _ _ L) as (_ & E & _). rewrite Ea in E. apply (ends_lab p ja Ep) in HE. rewrite E, HE. reflexivity.
    - rewrite HP. destruct hasf eqn:EH; [|cbn; apply orb_true_r]. exfalso. destruct (hasf_hyp EH) as (p' & s & ctx & z & P1 & P2 & P3). eapply HN; eauto. }
  assert (Hr : In a row) by (rewrite (s_row _ _ _ _ _ _ S), Z.eqb_refl; apply filter_In; auto). apply In_rd in Hr as (m & _ & Hr). pose proof (mk_arc _ _ _ _ _ _ _ _ S Hr) as I. destruct (arc_kind _ _ _ _ _ _ _ _ _ _ I) as (K0 & K1 & [(X & _)|(_ & K2 & _)]); [lia|].
  pose proof lg_valid as (_ & V2 & _). exists q. split.
  - split; [|exact Mq]. exists (off1 lat (nd (T - 1) j) + m). split; [lia|]. replace (nstates g - 1) with (dst (fst (oa (T - 1) j a))) by (rewrite Zg, K2; lia). apply IPrunedPath.ap_snoc'; [rewrite K1; exact Hq|exact K0].
  - intros q' ((j' & (_ & Hs)) & Mq'). destruct start_stt as (fr0 & r0 & S0). assert (exists d, apath g 0 q' d) as (d & Hd).
    { clear -Hs. revert Hs. generalize 0. generalize (nstates g - 1). induction q' as [|k q' IH]; intros e s Hs; [exists s; constructor|]. cbn [app] in Hs. apply ap_cons_inv in Hs as (b & B1 & B2 & B3). destruct (IH _ _ B3) as (d & Hd). exists d. rewrite <- B2. econstructor; eauto. }
    eapply (unique q q' 0 0); [exact S0| |exact Hq|exact Hd|congruence]. rewrite <- (zlen_map lam), Mq. assert (zlen p = zlen (removelast p) + 1) by (rewrite Ep at 1; rewrite zlen_app, zlen_cons, zlen_nil; lia). lia.
Qed.

(** ** Soundness *)
Lemma at_fin q : apath g fin q fin -> q = [].
Proof.
  destruct q as [|jj q]; [reflexivity|]. intros Hq. apply ap_cons_inv in Hq as (a & Ha & Es & _). destruct (arc_is _ _ Ha) as (t & j & v & x & frow & row & m & y & I). destruct (arc_kind _ _ _ _ _ _ _ _ _ _ I) as (_ & K1 & _). destruct (stt_row _ _ _ _ _ _ (ia_st _ _ _ _ _ _ _ _ _ _ I)) as (_ & B & _). lia.
Qed.
Lemma sound q : forall t j v x frow row, stt t j v x frow row -> apath g (nd t j) q fin -> forall p y, hy p (v mod n) (cof (v / n)) y -> zlen p = t ->
  v mod n <> final f /\ exists p' s ctx y', hy (p ++ p') s ctx y' /\ zlen (p ++ p') = T - 1 /\ s <> final f /\ map lam q = p' ++ [-1] /\ labels (arcs_at g q) = map (hlab f) p' ++ [-1] /\ y' = y + score (arcs_at g q) /\
    ((exists j a, rd (all_arcs f) j = Some a /\ src a = s /\ lab a = -1) \/ (partial = true /\ hasf = false)).
Proof.
  induction q as [|jj q IH]; intros t j v x frow row S Hq p y Hy Zp.
  - apply ap_nil_inv in Hq. destruct (stt_row _ _ _ _ _ _ S) as (_ & B & _). lia.
  - apply ap_cons_inv in Hq as (a & Ha & Es & Hr). destruct (arc_is _ _ Ha) as (t1 & j1 & v1 & x1 & fr1 & r1 & m & z & I). destruct (arc_kind _ _ _ _ _ _ _ _ _ _ I) as (_ & K1 & K2). destruct (stt_inj _ _ _ _ _ _ _ _ _ _ _ _ S (ia_st _ _ _ _ _ _ _ _ _ _ I)) as (X1 & X2 & X3 & X4 & X5 & X6); [lia|]. subst t1 j1 v1 x1 fr1 r1.
    destruct K2 as [(Bt & K2 & K3 & K4 & K5 & v' & x' & frow' & row' & L & _ & S')|(Et & K2 & K3 & K4 & K5 & K6 & v' & L)].
    + split; [eapply larc_nf; eauto|]. destruct (stt_t _ _ _ _ _ _ S) as (_ & _ & Iv & _). destruct (larc_hyp f c net Hf HV Hh Hlab _ _ _ _ _ _ _ _ Iv L Hy Zp) as (_ & Q1 & Q2). rewrite K2 in Hr. destruct (IH _ _ _ _ _ _ S' Hr _ _ Q1 Q2) as (NF & p' & s & ctx & y' & P1 & P2 & P3 & P4 & P5 & P6 & P7).
      rewrite <- app_assoc in P1, P2. cbn [app] in P1, P2. destruct (larc_lab _ _ _ _ _ _ L) as (L1 & L2 & L3). exists (x_arc z :: p'), s, ctx, y'. split; [exact P1|]. split; [exact P2|]. split; [exact P3|]. split; [cbn [map app]; now rewrite K5, P4|]. rewrite (arcs_at_c _ _ _ _ Ha). split; [|split; [|exact P7]].
      * unfold labels in *. cbn [map app]. rewrite P5, K3, <- L2. unfold ol. destruct (Z.eqb_spec (x_lab z) (-1)) as [E|E]; [destruct (L3 E) as (X & _); contradiction|reflexivity].
      * rewrite P6. unfold score. cbn [map]. change (zsum (?a :: ?l)) with (a + zsum l). rewrite K4. lia.
    + pose proof (larc_nf _ _ _ _ _ _ L) as NF. split; [exact NF|]. rewrite K2 in Hr. apply at_fin in Hr. subst q. exists [], (v mod n), (cof (v / n)), y. rewrite app_nil_r. split; [exact Hy|]. split; [lia|]. split; [exact NF|]. split; [cbn; now rewrite K5|]. rewrite (arcs_at_c _ _ _ _ Ha). split; [cbn; now rewrite K3|]. split; [unfold score; cbn; lia|].
      unfold keepf in K6. apply orb_true_iff in K6 as [K6|K6].
      * left. destruct (larc_lab _ _ _ _ _ _ L) as (_ & _ & L3). destruct (L3 ltac:(lia)) as (_ & b & B1 & B2 & B3). eauto.
      * right. apply andb_true_iff in K6 as (K6 & K7). split; [exact K6|]. now apply negb_true_iff in K7.
Qed.
Lemma lattice_ok : is_lattice f V h (r_beam c) (r_maxs c) (r_maxc c) net partial T g lam.
Proof.
  split; [exact lg_valid|]. split.
  - intros q (_ & Hq). replace (nstates g - 1) with fin in Hq by (rewrite Zg; lia). destruct start_stt as (fr0 & r0 & S0). pose proof (n2 f Hf). destruct (sound q _ _ _ _ _ _ S0 Hq [] 0) as (_ & p' & s & ctx & y' & P1 & P2 & P3 & P4 & P5 & P6 & P7); [rewrite Z.mod_0_l, Z.div_0_l, (ctxof_0 V h HV Hh) by lia; constructor|reflexivity|].
    exists p', s, ctx, y'. cbn [app] in P1, P2. repeat (split; [first [assumption|lia]|]). destruct P7 as [P7|(P7 & P8)]; [now left|]. right. split; [exact P7|]. intros U p0 Z0 G0 E0. rewrite (hasf_good p0 U Z0 G0 E0) in P8. discriminate.
  - intros U p Zp G HE. apply complete; assumption.
Qed.
End Lat.
