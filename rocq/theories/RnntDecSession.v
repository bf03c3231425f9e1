(** * Batches and sessions *)
From Coq Require Import ZArith List Lia Bool Permutation Sorted.
From Coq Require Import ZifyBool ZifyNat.
From Verif Require Import Base RaggedModel RaggedSpec RaggedProofs FsaSpec FsaLemmas RaggedOpsModel OpsModel RaggedOpsProofs RaggedListProofs IDenseModel IDenseSpec IDensePaths RnntDecModel RnntDecSpec RnntDecList RnntDecGroup RnntDecArith RnntDecStep.
Import ListNotations.
Open Scope Z_scope.

Lemma mapM_ex {A B} (F : A -> option B) (R : A -> B -> Prop) l : (forall i x, rd l i = Some x -> exists y, F x = Some y /\ R x y) ->
  exists ys, mapM F l = Some ys /\ zlen ys = zlen l /\ forall i x y, rd l i = Some x -> rd ys i = Some y -> R x y.
Proof.
  intros H. assert (X : exists ys, Forall2 (fun x y => F x = Some y /\ R x y) l ys).
  { assert (H' : forall x, In x l -> exists y, F x = Some y /\ R x y) by (intros x Hx; apply In_rd in Hx as (i & _ & Hi); eauto). clear H. induction l as [|x l IH]; [exists []; constructor|]. destruct IH as (ys & IH); [intros; apply H'; now right|]. destruct (H' x (or_introl eq_refl)) as (y & Hy). exists (y :: ys). now constructor. }
  destruct X as (ys & HF). exists ys. split; [apply mapM_Some_iff; clear -HF; induction HF as [|x y l m H1 H2 IH]; constructor; tauto|]. split; [clear -HF; induction HF; [reflexivity|rewrite !zlen_cons; lia]|].
  clear H. induction HF as [|a b l m H1 H2 IH]; intros i x y Hx Hy; [rewrite rd_nil in Hx; discriminate|]. pose proof (rd_Some_bound _ _ _ Hx). destruct (Z.eq_dec i 0) as [->|Hn].
  - rewrite rd_cons_0 in Hx. rewrite rd_cons_0 in Hy. injection Hx as <-. injection Hy as <-. tauto.
  - replace i with (i - 1 + 1) in Hx by lia. replace i with (i - 1 + 1) in Hy by lia. rewrite rd_cons_S in Hx by lia. rewrite rd_cons_S in Hy by lia. eauto.
Qed.
Lemma mapM_exz {B} (F : Z -> option B) (R : Z -> B -> Prop) n : 0 <= n -> (forall i, 0 <= i < n -> exists y, F i = Some y /\ R i y) ->
  exists ys, mapM F (zrange n) = Some ys /\ zlen ys = n /\ forall i, 0 <= i < n -> exists y, rd ys i = Some y /\ R i y.
Proof.
  intros Hn H. destruct (mapM_ex F R (zrange n)) as (ys & Y1 & Y2 & Y3).
  - intros i x Hx. apply rd_In in Hx. apply in_zrange in Hx. auto.
  - rewrite zlen_zrange in Y2 by exact Hn. exists ys. split; [exact Y1|]. split; [exact Y2|]. intros i Hi. destruct (rd_in_bound ys i) as (y & Hy); [lia|]. exists y. split; [exact Hy|]. apply (Y3 i); [apply rd_zrange; lia|exact Hy].
Qed.
Lemma zsum_ge l x : (forall y, In y l -> 0 <= y) -> In x l -> x <= zsum l.
Proof.
  intros HN. induction l as [|y l IH]; intros Hx; [easy|]. change (zsum (y :: l)) with (y + zsum l). assert (0 <= zsum l) by (apply zsum_nonneg, Forall_forall; intros; apply HN; now right). pose proof (HN y (or_introl eq_refl)). destruct Hx as [->|Hx]; [lia|]. specialize (IH (fun z Hz => HN z (or_intror Hz)) Hx). lia.
Qed.
Lemma rd_combine {A B} (l : list A) (m : list B) i : zlen l = zlen m -> rd (combine l m) i = match rd l i, rd m i with Some x, Some y => Some (x, y) | _, _ => None end.
Proof.
  revert m i. induction l as [|x l IH]; intros [|y m] i H; rewrite ?zlen_cons, ?zlen_nil in H; try (pose proof (zlen_nonneg l); lia); try (pose proof (zlen_nonneg m); lia); cbn [combine]; [now rewrite !rd_nil|].
  destruct (Z.eq_dec i 0) as [->|Hn]; [now rewrite !rd_cons_0|]. destruct (Z_lt_ge_dec i 0) as [Hl|Hl]; [unfold rd; replace (i <? 0) with true by lia; reflexivity|]. replace i with (i - 1 + 1) by lia. rewrite !rd_cons_S by lia. apply IH. lia.
Qed.
Lemma zlen_combine {A B} (l : list A) (m : list B) : zlen l = zlen m -> zlen (combine l m) = zlen l.
Proof. unfold zlen. rewrite combine_length. lia. Qed.

Section Sess.
Context (F : Z -> nfsa) (c : rcfg) (net : Z -> Z -> list Z -> list Z).
Hypothesis HV : 1 <= r_vocab c.
Hypothesis Hh : 1 <= r_hist c.
Hypothesis Hb : 0 <= r_beam c.
Hypothesis Hnet : forall k t ctx, zlen (net k t ctx) = r_vocab c.
Definition gok (k : Z) : Prop := valid (F k) /\ forall a, In a (all_arcs (F k)) -> lab a < r_vocab c.

(** [H] are the states before each frame, and at the end *)
Record hist (k : Z) (fs : list frame) (H : list (list (list (Z * Z)))) : Prop := {
  hi_len : zlen H = zlen fs + 1;
  hi_0 : rd H 0 = Some [[(0, 0)]];
  hi_ok : forall t st, rd H t = Some st -> okS (F k) c (net k) t st;
  hi_step : forall t fr st st', rd fs t = Some fr -> rd H t = Some st -> rd H (t + 1) = Some st' -> stepR (F k) c (net k) t (concat st) (concat fr) (concat st') }.
Definition sinv (k : Z) (s : stream) : Prop := s_graph s = flat (F k) /\ exists H, hist k (s_frames s) H /\ rd H (zlen (s_frames s)) = Some (s_states s).
Lemma sinv_start k : gok k -> sinv k (create_stream (flat (F k))).
Proof.
  intros (G & _). split; [reflexivity|]. exists [[[(0, 0)]]]. cbn [create_stream s_frames s_states]. split; [|apply rd_cons_0]. split; [reflexivity|apply rd_cons_0| |intros t fr st st' X; rewrite rd_nil in X; discriminate].
  intros t st Ht. pose proof (rd_Some_bound _ _ _ Ht) as B. rewrite zlen_cons, zlen_nil in B. assert (t = 0) as -> by lia. rewrite rd_cons_0 in Ht. injection Ht as <-. apply ok_start; assumption.
Qed.
Lemma sinv_snoc k s st' fr : sinv k s -> okS (F k) c (net k) (zlen (s_frames s) + 1) st' -> stepR (F k) c (net k) (zlen (s_frames s)) (concat (s_states s)) (concat fr) (concat st') ->
  sinv k (mkStr (s_graph s) st' (s_frames s ++ [fr])).
Proof.
  intros (G & H & [H1 H2 H3 H4] & HT) K R. split; [exact G|]. exists (H ++ [st']). cbn [s_frames s_states]. set (T := zlen (s_frames s)) in *. assert (T0 : 0 <= T) by apply zlen_nonneg. assert (Z1 : zlen (s_frames s ++ [fr]) = T + 1) by (rewrite zlen_app, zlen_cons, zlen_nil; fold T; lia). rewrite Z1.
  assert (RT : rd (H ++ [st']) (T + 1) = Some st') by (rewrite rd_app_r by lia; replace (T + 1 - zlen H) with 0 by lia; apply rd_cons_0). assert (RL : forall t, t <= T -> rd (H ++ [st']) t = rd H t) by (intros; apply rd_app_l; lia). split; [|exact RT]. split.
  - rewrite Z1, zlen_app, zlen_cons, zlen_nil. lia.
  - rewrite RL by lia. exact H2.
  - intros t st Ht. pose proof (rd_Some_bound _ _ _ Ht) as B. rewrite zlen_app, zlen_cons, zlen_nil in B. destruct (Z.eq_dec t (T + 1)) as [->|Hn]; [rewrite RT in Ht; injection Ht as <-; exact K|]. rewrite RL in Ht by lia. auto.
  - intros t f0 st st2 Hf Ht Ht2. pose proof (rd_Some_bound _ _ _ Hf) as B. rewrite Z1 in B. rewrite RL in Ht by lia. destruct (Z.eq_dec t T) as [->|Hn].
    + rewrite RT in Ht2. injection Ht2 as <-. rewrite HT in Ht. injection Ht as <-. rewrite rd_app_r in Hf by (fold T; lia). fold T in Hf. rewrite Z.sub_diag, rd_cons_0 in Hf. injection Hf as <-. exact R.
    + rewrite RL in Ht2 by lia. rewrite rd_app_l in Hf by (fold T; lia). eapply H4; eauto.
Qed.
Lemma sinv_ok k s : sinv k s -> okS (F k) c (net k) (zlen (s_frames s)) (s_states s).
Proof. intros (_ & H & K & E). eapply hi_ok; eauto. Qed.

Definition all_ok (ids : list Z) (ss : list stream) : Prop :=
  zlen ids = zlen ss /\ forall i id s, rd ids i = Some id -> rd ss i = Some s -> gok id /\ sinv id s.
Lemma advance_ok ids ss : all_ok ids ss -> exists lps st' frs,
  mapM (fun p => ask c net (fst p) (snd p)) (combine ids ss) = Some lps /\
  advance c (map s_graph ss) (map s_states ss) (concat lps) = Some (st', frs) /\ zlen st' = zlen ss /\ zlen frs = zlen ss /\
  forall i id s st fr, rd ids i = Some id -> rd ss i = Some s -> rd st' i = Some st -> rd frs i = Some fr ->
    okS (F id) c (net id) (zlen (s_frames s) + 1) st /\ stepR (F id) c (net id) (zlen (s_frames s)) (concat (s_states s)) (concat fr) (concat st).
Proof.
  intros (ZL & AO). set (m := zlen ss). assert (Hm : 0 <= m) by apply zlen_nonneg.
  assert (AT : forall i, 0 <= i < m -> exists id s, rd ids i = Some id /\ rd ss i = Some s /\ gok id /\ sinv id s).
  { intros i Hi. destruct (rd_in_bound ids i) as (id & H1); [lia|]. destruct (rd_in_bound ss i) as (s & H2); [exact Hi|]. exists id, s. split; [exact H1|]. split; [exact H2|]. eapply AO; eauto. }
  set (rowf := fun p : Z * stream => rows_of (F (fst p)) c (net (fst p)) (zlen (s_frames (snd p))) (s_states (snd p))).
  set (lps := map rowf (combine ids ss)).
  assert (EL : mapM (fun p => ask c net (fst p) (snd p)) (combine ids ss) = Some lps).
  { apply mapM_Some_map. intros (id & s) Hin. apply In_rd in Hin as (i & _ & Hi). rewrite (rd_combine _ _ _ ZL) in Hi. destruct (rd ids i) as [id'|] eqn:E1; [|discriminate]. destruct (rd ss i) as [s'|] eqn:E2; [|discriminate]. injection Hi as -> ->. destruct (AO _ _ _ E1 E2) as (_ & SI). pose proof (sinv_ok _ _ SI) as K. destruct SI as (G & _). cbn [fst snd]. unfold ask. rewrite G, (contexts_ok _ _ _ _ _ K). unfold rowf, rows_of. cbn [fst snd]. now rewrite map_map. }
  assert (Zl : map zlen lps = map zlen (map s_states ss)).
  { apply list_ext_rd; [unfold lps; rewrite !zlen_map, zlen_combine by exact ZL; exact ZL|]. intros i Hi. unfold lps. rewrite !rd_map, (rd_combine _ _ _ ZL). destruct (Z_lt_ge_dec i 0); [unfold lps in Hi; lia|]. assert (Bi : 0 <= i < m) by (unfold lps in Hi; rewrite !zlen_map, zlen_combine in Hi by exact ZL; lia). destruct (AT i Bi) as (id & s & -> & -> & _). cbn [option_map]. unfold rowf, rows_of. cbn [fst snd]. now rewrite zlen_map. }
  exists lps. unfold advance. rewrite <- Zl, zsum_zlen_concat, Z.eqb_refl. 
  assert (C2 : forallb (fun r => zlen r =? r_vocab c) (concat lps) = true).
  { apply forallb_forall. intros r Hr. apply in_concat in Hr as (l & Hl & Hr). apply in_map_iff in Hl as (p & <- & _). unfold rowf, rows_of in Hr. apply in_map_iff in Hr as (x & <- & _). apply Z.eqb_eq, Hnet. }
  rewrite C2, (chop_concat _ _ (eq_sym Zl)), !zlen_map. fold m.
  assert (RG : forall i id s, rd ss i = Some s -> sinv id s -> rd (map s_graph ss) i = Some (flat (F id)) /\ rd (map s_states ss) i = Some (s_states s)). { intros i id s Hs (G & _). rewrite !rd_map, Hs. cbn. now rewrite G. }
  assert (RR : forall i id s, rd ids i = Some id -> rd ss i = Some s -> rd lps i = Some (rowf (id, s))). { intros i id s H1 H2. unfold lps. rewrite rd_map, (rd_combine _ _ _ ZL), H1, H2. reflexivity. }
  destruct (mapM_exz (fun k => g <- rd (map s_graph ss) k;; s <- rd (map s_states ss) k;; r <- rd lps k;; stream_arcs c g r s)
    (fun i cs => forall id s, rd ids i = Some id -> rd ss i = Some s -> arcs_ok (F id) c (net id) (zlen (s_frames s)) (s_states s) cs) m Hm) as (cs & E1 & Z1 & P1).
  { intros i Hi. destruct (AT i Hi) as (id & s & I1 & I2 & (G1 & G2) & SI). destruct (RG _ _ _ I2 SI) as (-> & ->). rewrite (RR _ _ _ I1 I2). destruct (stream_arcs_ok (F id) c (net id) G1 HV G2 (Hnet id) _ _ (sinv_ok _ _ SI)) as (x & X1 & X2). exists x. split; [exact X1|]. intros id' s' J1 J2. rewrite I1 in J1. rewrite I2 in J2. injection J1 as <-. injection J2 as <-. exact X2. }
  rewrite E1.
  destruct (mapM_exz (fun k => g <- rd (map s_graph ss) k;; x <- rd cs k;; Some (group g (flat_cands x)))
    (fun i y => forall id x, rd ids i = Some id -> rd cs i = Some x -> y = group (flat (F id)) (flat_cands x)) m Hm) as (grs & E2 & Z2 & P2).
  { intros i Hi. destruct (AT i Hi) as (id & s & I1 & I2 & _ & SI). destruct (RG _ _ _ I2 SI) as (-> & _). destruct (P1 i Hi) as (x & Hx & _). rewrite Hx. eexists. split; [reflexivity|]. intros id' x' J1 J2. rewrite I1 in J1. injection J1 as <-. injection J2 as <-. reflexivity. }
  rewrite E2. set (t1 := zsum (map (fun gr => zlen (concat gr)) grs)).
  assert (T1 : forall i y, rd grs i = Some y -> zlen (concat y) <= t1). { intros i y Hy. apply zsum_ge; [intros z Hz; apply in_map_iff in Hz as (w & <- & _); apply zlen_nonneg|]. apply (in_map (fun gr => zlen (concat gr))). eapply rd_In; eauto. }
  destruct (mapM_exz (fun k => x <- rd cs k;; gr <- rd grs k;; prune_states c (flat_cands x) t1 gr)
    (fun i y => forall id x, rd ids i = Some id -> rd cs i = Some x -> forall total2, zlen y <= total2 -> exists fin, prune_contexts c (flat_cands x) total2 y = Some fin /\ fin_ok (flat (F id)) (flat_cands x) c fin) m Hm) as (tmp & E3 & Z3 & P3).
  { intros i Hi. destruct (AT i Hi) as (id & s & I1 & I2 & (G1 & _) & SI). destruct (P1 i Hi) as (x & Hx & _). destruct (P2 i Hi) as (y & Hy & Ey). rewrite Hx, Hy. pose proof (T1 _ _ Hy) as T. specialize (Ey _ _ I1 Hx). subst y.
    destruct (prune_ok (flat (F id)) (flat_cands x) (gpos (F id) c (net id) G1 (Hnet id) 0) c Hb t1 T) as (y & Y1 & Y2 & Y3). exists y. split; [exact Y1|]. intros id' x' J1 J2. rewrite I1 in J1. injection J1 as <-. injection J2 as <-. exact Y3. }
  rewrite E3. set (t2 := zsum (map zlen tmp)).
  assert (T2 : forall i y, rd tmp i = Some y -> zlen y <= t2). { intros i y Hy. apply zsum_ge; [intros z Hz; apply in_map_iff in Hz as (w & <- & _); apply zlen_nonneg|]. apply in_map. eapply rd_In; eauto. }
  destruct (mapM_exz (fun k => x <- rd cs k;; gr <- rd tmp k;; prune_contexts c (flat_cands x) t2 gr)
    (fun i y => forall id x, rd ids i = Some id -> rd cs i = Some x -> fin_ok (flat (F id)) (flat_cands x) c y) m Hm) as (fin & E4 & Z4 & P4).
  { intros i Hi. destruct (AT i Hi) as (id & s & I1 & I2 & _ & SI). destruct (P1 i Hi) as (x & Hx & _). destruct (P3 i Hi) as (y & Hy & Ey). rewrite Hx, Hy. destruct (Ey _ _ I1 Hx t2 (T2 _ _ Hy)) as (fn & F1 & F2). exists fn. split; [exact F1|]. intros id' x' J1 J2. rewrite I1 in J1. injection J1 as <-. injection J2 as <-. exact F2. }
  rewrite E4.
  destruct (mapM_exz (fun k => x <- rd cs k;; f <- rd fin k;; new_states (flat_cands x) f)
    (fun i y => forall x f, rd cs i = Some x -> rd fin i = Some f -> y = map (map (ns x)) f) m Hm) as (st' & E5 & Z5 & P5).
  { intros i Hi. destruct (AT i Hi) as (id & s & I1 & I2 & (G1 & _) & SI). destruct (P1 i Hi) as (x & Hx & _). destruct (P4 i Hi) as (y & Hy & Ey). rewrite Hx, Hy. rewrite (new_states_ok (F id) c (net id) G1 (Hnet id) 0 x y (Ey _ _ I1 Hx)). eexists. split; [reflexivity|]. intros x' f' J1 J2. injection J1 as <-. injection J2 as <-. reflexivity. }
  rewrite E5.
  destruct (mapM_exz (fun k => x <- rd cs k;; f <- rd fin k;; Some (new_frame x f))
    (fun i y => forall x f, rd cs i = Some x -> rd fin i = Some f -> y = new_frame x f) m Hm) as (frs & E6 & Z6 & P6).
  { intros i Hi. destruct (P1 i Hi) as (x & Hx & _). destruct (P4 i Hi) as (y & Hy & Ey). rewrite Hx, Hy. eexists. split; [reflexivity|]. intros x' f' J1 J2. injection J1 as <-. injection J2 as <-. reflexivity. }
  rewrite E6. exists st', frs. split; [exact EL|]. split; [reflexivity|]. split; [exact Z5|]. split; [exact Z6|]. intros i id s st fr I1 I2 I3 I4. assert (Bi : 0 <= i < m) by (unfold m; eapply rd_Some_bound; eauto).
  destruct (AO _ _ _ I1 I2) as ((G1 & G2) & SI). pose proof (sinv_ok _ _ SI) as K. destruct (P1 i Bi) as (x & Hx & Ax). specialize (Ax _ _ I1 I2). destruct (P4 i Bi) as (y & Hy & Fy). specialize (Fy _ _ I1 Hx). destruct (P5 i Bi) as (st2 & S1 & S2). destruct (P6 i Bi) as (fr2 & S3 & S4). rewrite I3 in S1. rewrite I4 in S3. injection S1 as <-. injection S3 as <-. rewrite (S2 _ _ Hx Hy), (S4 _ _ Hx Hy). split; [eapply ok_next; eauto|eapply step_ok; eauto].
Qed.

Lemma run_ok ids n : forall ss, all_ok ids ss -> exists ss', run_batch c net ids n ss = Some ss' /\ all_ok ids ss' /\
  forall i s s', rd ss i = Some s -> rd ss' i = Some s' -> zlen (s_frames s') = zlen (s_frames s) + Z.of_nat n.
Proof.
  induction n as [|n IH]; intros ss AO.
  - exists ss. split; [reflexivity|]. split; [exact AO|]. intros i s s' H1 H2. rewrite H1 in H2. injection H2 as <-. lia.
  - destruct (advance_ok ids ss AO) as (lps & st' & frs & E1 & E2 & Z1 & Z2 & ST). cbn [run_batch]. rewrite E1, E2. cbn [fst snd]. set (ss1 := map _ (combine ss (combine st' frs))).
    assert (Zc : zlen (combine st' frs) = zlen ss) by (rewrite zlen_combine; lia).
    assert (R1 : forall i s1, rd ss1 i = Some s1 -> exists s st fr, rd ss i = Some s /\ rd st' i = Some st /\ rd frs i = Some fr /\ s1 = mkStr (s_graph s) st (s_frames s ++ [fr])).
    { intros i s1 Hi. unfold ss1 in Hi. rewrite rd_map, rd_combine, rd_combine in Hi by lia. destruct (rd ss i) as [s|]; [|discriminate]. destruct (rd st' i) as [st|]; [|discriminate]. destruct (rd frs i) as [fr|]; [|discriminate]. injection Hi as <-. exists s, st, fr. auto. }
    assert (AO1 : all_ok ids ss1). { destruct AO as (ZL & AO). split; [unfold ss1; rewrite zlen_map, zlen_combine by lia; exact ZL|]. intros i id s1 Hi Hs. destruct (R1 _ _ Hs) as (s & st & fr & H1 & H2 & H3 & ->). destruct (AO _ _ _ Hi H1) as (G & SI). split; [exact G|]. destruct (ST _ _ _ _ _ Hi H1 H2 H3) as (K & SR). apply sinv_snoc; assumption. }
    destruct (IH ss1 AO1) as (ss' & E & AO' & FR). exists ss'. split; [exact E|]. split; [exact AO'|]. intros i s s' Hs Hs'. destruct (rd_in_bound ss1 i) as (s1 & Hs1); [unfold ss1; rewrite zlen_map, zlen_combine by lia; eapply rd_Some_bound; eauto|]. rewrite (FR _ _ _ Hs1 Hs'). destruct (R1 _ _ Hs1) as (s0 & st & fr & H1 & _ & _ & ->). rewrite Hs in H1. injection H1 as <-. cbn [s_frames]. rewrite zlen_app, zlen_cons, zlen_nil. lia.
Qed.

Lemma foldM_wr {A} (ids : list Z) : forall (vs w : list A), zlen ids = zlen vs -> NoDup ids -> (forall k, In k ids -> 0 <= k < zlen w) ->
  exists w', foldM (fun w p => wr w (fst p) (snd p)) (combine ids vs) w = Some w' /\ zlen w' = zlen w /\
    (forall i k, rd ids i = Some k -> rd w' k = rd vs i) /\ (forall k, ~ In k ids -> rd w' k = rd w k).
Proof.
  induction ids as [|k ids IH]; intros [|v vs] w Hz HN HB; rewrite ?zlen_cons, ?zlen_nil in Hz; try (pose proof (zlen_nonneg ids); lia); try (pose proof (zlen_nonneg vs); lia); cbn [combine foldM].
  - exists w. split; [reflexivity|]. split; [reflexivity|]. split; [intros i k H; rewrite rd_nil in H; discriminate|reflexivity].
  - cbn [fst snd]. destruct (wr_Some w k v (HB k (or_introl eq_refl))) as (w1 & W1 & W2 & W3). rewrite W1. inversion HN as [|? ? N1 N2]; subst. destruct (IH vs w1) as (w' & E & Z' & P1 & P2); [lia|exact N2|intros k' Hk'; rewrite W2; apply HB; now right|]. exists w'. split; [exact E|]. split; [lia|]. split.
    + intros i k' Hi. pose proof (rd_Some_bound _ _ _ Hi). destruct (Z.eq_dec i 0) as [->|Hn]; [rewrite rd_cons_0 in Hi; injection Hi as <-; rewrite P2 by exact N1; rewrite W3, Z.eqb_refl; now rewrite rd_cons_0|]. replace i with (i - 1 + 1) in Hi |- * by lia. rewrite rd_cons_S in Hi by lia. rewrite rd_cons_S by lia. auto.
    + intros k' Hk'. rewrite P2 by (intros X; apply Hk'; now right). rewrite W3. destruct (Z.eqb_spec k' k) as [->|]; [exfalso; apply Hk'; now left|reflexivity].
Qed.

Definition world_ok (N : Z) (cnt : Z -> Z) (w : list stream) : Prop :=
  zlen w = N /\ forall k s, rd w k = Some s -> sinv k s /\ zlen (s_frames s) = cnt k.
Definition upd (cnt : Z -> Z) (b : list Z * nat) (k : Z) : Z := cnt k + (if existsb (Z.eqb k) (fst b) then Z.of_nat (snd b) else 0).
Lemma decode_ok N cnt w b : (forall k, 0 <= k < N -> gok k) -> world_ok N cnt w -> fst b <> [] -> NoDup (fst b) -> (forall k, In k (fst b) -> 0 <= k < N) ->
  exists w', decode c net w b = Some w' /\ world_ok N (upd cnt b) w'.
Proof.
  intros HG (ZW & WO) NE ND HB. destruct b as (ids & n). cbn [fst snd] in *. unfold decode. cbn [fst snd]. replace (1 <=? zlen ids) with true by (destruct ids; [easy|]; rewrite zlen_cons; pose proof (zlen_nonneg ids); lia).
  destruct (mapM_ex (rd w) (fun k s => rd w k = Some s) ids) as (ss & E1 & Z1 & P1); [intros i k Hi; destruct (rd_in_bound w k) as (s & Hs); [rewrite ZW; apply HB; eapply rd_In; eauto|]; exists s; auto|].
  rewrite E1. assert (AO : all_ok ids ss). { split; [lia|]. intros i id s Hi Hs. split; [apply HG, HB; eapply rd_In; eauto|]. apply WO. eapply P1; eauto. }
  destruct (run_ok ids n ss AO) as (ss' & E2 & (Z2 & AO2) & FR). rewrite E2. destruct (foldM_wr ids ss' w) as (w' & E3 & Z3 & W1 & W2); [exact Z2|exact ND|intros k Hk; rewrite ZW; auto|]. exists w'. split; [exact E3|]. split; [lia|]. intros k s Hk. unfold upd. cbn [fst snd].
  destruct (existsb (Z.eqb k) ids) eqn:Ex.
  - apply existsb_exists in Ex as (k' & Hin & Ek). apply Z.eqb_eq in Ek. subst k'. apply In_rd in Hin as (i & Bi & Hi). rewrite (W1 _ _ Hi) in Hk. split; [eapply AO2; eauto|]. destruct (rd_in_bound ss i) as (s0 & Hs0); [lia|]. rewrite (FR _ _ _ Hs0 Hk). f_equal. apply WO. eapply P1; eauto.
  - rewrite Z.add_0_r. apply WO. rewrite <- Hk. symmetry. apply W2. intros X. assert (existsb (Z.eqb k) ids = true) by (apply existsb_exists; exists k; split; [exact X|apply Z.eqb_refl]). congruence.
Qed.
Lemma batches_run N bs : (forall k, 0 <= k < N -> gok k) -> (forall b, In b bs -> fst b <> [] /\ NoDup (fst b) /\ forall k, In k (fst b) -> 0 <= k < N) ->
  forall cnt w, world_ok N cnt w -> exists w', foldM (decode c net) bs w = Some w' /\ world_ok N (fun k => cnt k + frames_of bs k) w'.
Proof.
  intros HG. induction bs as [|b bs IH]; intros HB cnt w W; cbn [foldM].
  - exists w. split; [reflexivity|]. destruct W as (Z1 & W). split; [exact Z1|]. intros k s Hk. unfold frames_of. cbn. rewrite Z.add_0_r. auto.
  - destruct (HB b (or_introl eq_refl)) as (B1 & B2 & B3). destruct (decode_ok N cnt w b HG W B1 B2 B3) as (w1 & E1 & W1). rewrite E1. destruct (IH (fun b' H => HB b' (or_intror H)) _ _ W1) as (w' & E' & Z' & W'). exists w'. split; [exact E'|]. split; [exact Z'|]. intros k s Hk. destruct (W' k s Hk) as (S1 & S2). split; [exact S1|]. rewrite S2. unfold upd, frames_of. cbn [map]. change (zsum (?a :: ?l)) with (a + zsum l). lia.
Qed.
End Sess.
