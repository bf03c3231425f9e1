(** * Proofs for C69 *)
From Coq Require Import ZArith List Lia Bool Reals Lra.
From Coq Require Import ZifyBool ZifyNat.
From Verif Require Import Base RaggedListProofs RaggedOpsProofs OpsModel RnntModel RnntSpec RnntProofs RnntPrunedProps LogReal ScoreModel OpsProofs
  MutualInfoModel MutualInfoSpec MutualInfoProofs MutualInfoProps RnntLossModel RnntLossSpec RnntLossProofs RnntHatModel RnntHatSpec.
Import ListNotations.
Open Scope Z_scope.

(** ** Tables whose entries are given by functions *)
Lemma pw_gen k pen S T g h emit blank te oe lo hi : 0 <= T -> hi <= S -> te <= T -> (oe = Some te \/ (oe = None /\ te = T)) ->
  (forall s t, lo <= s < hi -> 0 <= t < te -> expo (g s t) = emit s t) ->
  (forall s t, lo <= s <= hi -> 0 <= t < te -> expo (h s t) = blank s t) ->
  forall l c, 0 <= lo <= fst c -> 0 <= snd c -> fst (walk (negb (is_reg k)) c l) <= hi -> snd (walk (negb (is_reg k)) c l) = te ->
  pw k pen te (tab2 S (cols k T) (fin_px k oe T g h)) (tab2 (S + 1) T h) c l =
  if alignb k te c l then align_prod k pen emit blank te c l else 0%R.
Proof.
  intros HT HH TT OE HG HB.
  induction l as [|x l IH]; intros (s, t) H1 H2 H3 H4; [reflexivity|].
  rewrite walk_cons in H3, H4. cbn [pw alignb align_prod]. cbn [fst snd] in *.
  pose proof (walk_eq (negb (is_reg k)) l (move (negb (is_reg k)) (s, t) x)) as WE. pose proof (nT_nonneg l) as N1. pose proof (nF_nonneg l) as N2.
  assert (M0 : lo <= fst (move (negb (is_reg k)) (s, t) x) /\ 0 <= snd (move (negb (is_reg k)) (s, t) x)) by (destruct x, k; cbn [is_reg negb move fst snd]; lia).
  rewrite (IH (move (negb (is_reg k)) (s, t) x)) by (auto; lia). rewrite WE in H3, H4.
  destruct x; cbn [edge].
  - assert (MV : s < hi /\ t < cols k T /\ (t < te \/ (k = Regular /\ t = te))). { clear - H1 H2 H3 H4 N1 N2 TT. destruct k; cbn [is_reg negb move fst snd cols] in *; try lia. split; [lia|]. split; [lia|]. destruct (Z_lt_ge_dec t te); [left; lia|right; split; [reflexivity|lia]]. }
    destruct MV as (M1 & M2 & M3). rewrite (rd2_entry _ s t (fin_px k oe T g h s t)) by (apply rd2_tab; lia).
    destruct (t <? te) eqn:Et; cbn [andb].
    + assert (EX : expo (fin_px k oe T g h s t) = (emit s t * match k with Constrained => blank (s + 1)%Z t | _ => 1 end)%R).
      { unfold fin_px. destruct k.
        - replace (match oe with Some e => if t =? e then lninf else if t =? T then lninf else g s t | None => if t =? T then lninf else g s t end) with (g s t).
          + rewrite Rmult_1_r. apply HG; lia.
          + destruct OE as [->|(-> & ->)]; [replace (t =? te) with false by lia|]; replace (t =? T) with false by lia; reflexivity.
        - rewrite Rmult_1_r. apply HG; lia.
        - rewrite expo_ladd. f_equal; [apply HG|apply HB]; lia. }
      rewrite EX. destruct (alignb k te _ l); lra.
    + destruct M3 as [M3|(-> & ->)]; [lia|]. unfold fin_px. replace (match oe with Some e => if te =? e then lninf else if te =? T then lninf else g s te | None => if te =? T then lninf else g s te end) with (@lninf).
      * cbn [expo lninf]. lra.
      * destruct OE as [->|(-> & ->)]; now rewrite Z.eqb_refl.
  - assert (MV : s <= hi /\ t < te). { clear - H1 H2 H3 H4 N1 N2. destruct k; cbn [is_reg negb move fst snd] in *; lia. }
    rewrite (rd2_entry _ s t (h s t)) by (apply rd2_tab; lia). rewrite HB by lia. cbn [andb]. destruct (alignb k te _ l); lra.
Qed.

(** Windows *)
Definition win (r : Z) (w : Z -> Z) (g : Z -> Z -> option R) (s t : Z) : option R := if inwin r w s t then g s t else lninf.
Lemma win_masked k S T r w rg oe g h : 0 <= S -> 0 <= T -> zlen rg = T -> (forall t, 0 <= t < T -> rd rg t = Some (map (fun j => w t + j) (zrange r))) ->
  masked lninf k S T rg (tab2 S (cols k T) (fin_px k oe T (win r w g) (win r w h)), tab2 (S + 1) T (win r w h))
                        (tab2 S (cols k T) (fin_px k oe T g h), tab2 (S + 1) T h).
Proof.
  intros HS HT ZR RG. unfold masked. cbv zeta. cbn [fst snd].
  assert (KW : forall s t, 0 <= t < T -> (kept rg s t <-> inwin r w s t = true)).
  { intros s t Ht. split.
    - intros (rw & E & H). rewrite RG in E by lia. injection E as <-. apply in_map_iff in H as (j & <- & Hj). apply in_zrange in Hj. unfold inwin. lia.
    - intros H. unfold inwin in H. exists (map (fun j => w t + j) (zrange r)). split; [apply RG; lia|]. apply in_map_iff. exists (s - w t). split; [lia|]. apply in_zrange. lia. }
  split; [apply shape2_tab; auto; destruct k; cbn; lia|]. split; [apply shape2_tab; lia|]. split.
  - intros s t Hs Ht. change (0 <= t < cols k T) in Ht. rewrite !rd2_tab by lia. eexists. split; [reflexivity|]. split.
    + intros (K1 & K2). f_equal. destruct (Z_lt_ge_dec t T) as [B|B]; [|exfalso; destruct K1 as (rw & E1 & _); apply rd_Some_bound in E1; lia].
      apply KW in K1; [|lia]. destruct k; unfold fin_px, win; rewrite K1; auto.
      specialize (K2 eq_refl). apply KW in K2; [|lia]. now rewrite K2.
    + intros K. destruct k; unfold fin_px, win, cols in *.
      * replace (t =? T) with (negb (t <? T)) by lia. destruct (t <? T) eqn:E; cbn [negb]; [|now destruct oe as [e|]; [destruct (t =? e)|]].
        assert (inwin r w s t = false) as ->. { destruct (inwin r w s t) eqn:E1; auto. exfalso. apply K. split; [apply KW; [lia|auto]|congruence]. }
        destruct oe as [e|]; [destruct (t =? e)|]; reflexivity.
      * assert (inwin r w s t = false) as ->; [|reflexivity]. destruct (inwin r w s t) eqn:E1; auto. exfalso. apply K. split; [apply KW; [lia|auto]|congruence].
      * destruct (inwin r w s t) eqn:E1; [|reflexivity]. destruct (inwin r w (s + 1) t) eqn:E2; [|now destruct (g s t)].
        exfalso. apply K. split; [apply KW; auto|intros _; apply KW; auto].
  - intros s t Hs Ht. rewrite !rd2_tab by lia. eexists. split; [reflexivity|]. unfold win. split.
    + intros K. apply KW in K; auto. now rewrite K.
    + intros K. destruct (inwin r w s t) eqn:E; [|reflexivity]. exfalso. apply K, KW; auto.
Qed.

(** ** One utterance *)
Definition hshift (l : list (option R)) : option R := match rd l 0 with Some x => lsub (logsigmoid x) x | None => None end.
Definition hY (L : joiner) s t : option R := logsigmoid (jval L t s 0).
Definition hX (L : joiner) (y : list Z) s t : option R := ladd (lsub (jval L t s (jsym y s)) (lse (tl (jrow L t s)))) (hshift (jrow L t s)).

Lemma hat_row k S T r C L P y rg w term te : 0 <= S -> 0 <= T -> 1 <= r <= S + 1 -> 0 < C ->
  (forall t s, 0 <= t < T -> 0 <= s <= S -> exists l, rd2 L t s = Some l /\ zlen l = C) ->
  (forall t j i, rd2 rg t j = Some i -> rd2 P t j = rd2 L t i) ->
  (forall t, 0 <= t < T -> rd rg t = Some (map (fun j => w t + j) (zrange r))) ->
  (forall t, 0 <= t < T -> 0 <= w t /\ w t + r - 1 <= S) ->
  zlen y = S -> Forall (fun c => 0 <= c < C) y -> 0 <= term < C ->
  match te with None => True | Some t => 0 <= t <= T end ->
  logprobs_hat_row k S T r P y rg term te =
  Some (tab2 S (cols k T) (fin_px k te T (win r w (hX L y)) (win r w (hY L))), tab2 (S + 1) T (win r w (hY L))).
Proof.
  intros HS HT Hr HC LS PR RG WR Zy SC TC TE.
  assert (RA : forall t s, 0 <= t < T -> 0 <= s <= S -> rd2 L t s = Some (jrow L t s) /\ zlen (jrow L t s) = C).
  { intros t s Ht Hs. destruct (LS t s Ht Hs) as (l & E & Zl). unfold jrow. rewrite E. auto. }
  assert (RT : forall t j, 0 <= t < T -> 0 <= j < r -> rd2 rg t j = Some (w t + j)).
  { intros t j Ht Hj. unfold rd2. rewrite (RG t Ht), rd_map, rd_zrange by lia. reflexivity. }
  assert (PA : forall t j, 0 <= t < T -> 0 <= j < r -> rd2 P t j = Some (jrow L t (w t + j)) /\ zlen (jrow L t (w t + j)) = C).
  { intros t j Ht Hj. pose proof (WR t Ht). rewrite (PR t j (w t + j)) by auto. apply RA; lia. }
  set (sym := jsym (y ++ [term])).
  assert (SA : forall s, 0 <= s <= S -> rd (y ++ [term]) s = Some (sym s) /\ 0 <= sym s < C).
  { intros s Hs. apply (jsym_at (y ++ [term]) (S + 1)); [rewrite zlen_app, Zy; reflexivity| |lia]. apply Forall_app. split; auto. }
  assert (SE : forall s, 0 <= s < S -> sym s = jsym y s) by (intros s Hs; unfold sym, jsym; rewrite rd_app_l by lia; reflexivity).
  unfold logprobs_hat_row.
  rewrite (tabM2_fun T r _ (fun t j => hY L (w t + j) t)).
  2:{ intros t j Ht Hj. destruct (PA t j Ht Hj) as (-> & Zr). rewrite (jval_at L t (w t + j) 0 C Zr) by lia. reflexivity. }
  rewrite (tabM2_fun T r _ (fun t j => lse (tl (jrow L t (w t + j))))) by (intros t j Ht Hj; destruct (PA t j Ht Hj) as (-> & Zr); reflexivity).
  rewrite (tabM2_fun T r _ (fun t j => hshift (jrow L t (w t + j)))).
  2:{ intros t j Ht Hj. rewrite rd2_tab by auto. destruct (PA t j Ht Hj) as (-> & Zr). unfold hshift, hY. rewrite (jval_at L t (w t + j) 0 C Zr) by lia. reflexivity. }
  rewrite (tabM2_fun T r (fun t j => i <- rd2 rg t j;; rd (y ++ [term]) i) (fun t j => sym (w t + j))).
  2:{ intros t j Ht Hj. rewrite RT by auto. apply SA. pose proof (WR t Ht). lia. }
  set (X := fun s t => ladd (lsub (jval L t s (sym s)) (lse (tl (jrow L t s)))) (hshift (jrow L t s))).
  rewrite (tabM2_fun T r _ (fun t j => X (w t + j) t)).
  2:{ intros t j Ht Hj. pose proof (WR t Ht). rewrite !rd2_tab by auto. destruct (PA t j Ht Hj) as (-> & Zr).
      rewrite (jval_at L t (w t + j) _ C Zr) by (apply SA; lia). reflexivity. }
  rewrite (tabM_fun T _ w) by (intros t Ht; rewrite RT by lia; f_equal; lia).
  replace (0 <=? S + 1 - r) with true by lia.
  rewrite (rolled lninf ladd lsub lse S T r C term y L P rg w HS HT Hr LS PR RG WR (fun t s => X s t)).
  rewrite (tabM2_fun S T _ (win r w (hX L y))).
  2:{ intros s t Hs Ht. rewrite rd2_tab by lia. unfold win, X, hX. rewrite SE by lia. reflexivity. }
  rewrite (rolled lninf ladd lsub lse S T r C term y L P rg w HS HT Hr LS PR RG WR (fun t s => hY L s t)).
  rewrite (tabM2_fun (S + 1) T _ (win r w (hY L))).
  2:{ intros s t Hs Ht. rewrite rd2_tab by lia. reflexivity. }
  destruct k.
  - rewrite lapp_tab2 by auto. apply (lfinish_eq Regular te S T (win r w (hX L y)) (win r w (hY L))); auto.
  - apply (lfinish_eq Modified te S T (win r w (hX L y)) (win r w (hY L))); auto.
  - apply (lfinish_eq Constrained te S T (win r w (hX L y)) (win r w (hY L))); auto.
Qed.

Lemma sigmoid_bound x : (0 < sigmoid x < 1)%R.
Proof.
  unfold sigmoid. pose proof (exp_pos (- x)) as P. split; [apply Rinv_0_lt_compat; lra|]. rewrite <- Rinv_1. apply Rinv_lt_contravar; lra.
Qed.
Lemma hat_blank L s t c x l : rd2 L t s = Some (Some x :: l) -> c = 0 -> expo (hY L s t) = hat_class_prob L s t c.
Proof.
  intros E ->. unfold hY, jval, jrow, hat_class_prob. rewrite E. cbn [hat_prob Z.eqb]. change (rd (Some x :: l) 0) with (Some (Some x)). cbn [logsigmoid expo]. rewrite exp_ln; [reflexivity|]. apply (sigmoid_bound x).
Qed.
Lemma hat_symbol L y s t x l c z : rd2 L t s = Some (Some x :: l) -> In (Some z) l -> rd y s = Some c -> 0 < c <= zlen l -> expo (hX L y s t) = hat_class_prob L s t c.
Proof.
  intros E IZ Ey Hc. unfold hX, jval, jrow, hat_class_prob, jsym, hshift. rewrite E, Ey. cbn [hat_prob tl]. replace (c =? 0) with false by lia. change (rd (Some x :: l) 0) with (Some (Some x)).
  rewrite expo_ladd, expo_lsub_lse by eauto. unfold softmax. rewrite (rd_cons (Some x) l c), (proj2 (Z.eqb_neq c 0)) by lia.
  destruct (rd_in_bound l (c - 1) ltac:(lia)) as (v & Ev). rewrite Ev. rewrite Rmult_comm. f_equal. cbn [logsigmoid lsub expo]. unfold Rminus. rewrite exp_plus, exp_ln by apply (sigmoid_bound x). unfold sigmoid. pose proof (exp_pos (- x)). field. lra.
Qed.
