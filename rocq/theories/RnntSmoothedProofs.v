(** * Proofs for C70 *)
From Coq Require Import ZArith List Lia Bool Reals Lra.
From Coq Require Import ZifyBool ZifyNat.
From Verif Require Import Base RaggedListProofs RaggedOpsProofs OpsModel RnntModel RnntSpec RnntProofs RnntPrunedProps LogReal ScoreModel OpsProofs
  MutualInfoModel MutualInfoSpec MutualInfoProofs MutualInfoProps RnntLossModel RnntLossSpec RnntLossProofs RnntHatSpec RnntHatProofs RnntSmoothedModel RnntSmoothedSpec.
Import ListNotations.
Open Scope Z_scope.

Definition fin (l : list (option R)) : Prop := Forall (fun v : option R => v <> None) l.
Lemma fin_rd l c v : fin l -> rd l c = Some v -> exists a, v = Some a.
Proof. unfold fin. intros F H. rewrite Forall_forall in F. apply rd_In in H. specialize (F _ H). destruct v; [eauto|congruence]. Qed.
Lemma fin_pos l : fin l -> l <> [] -> (0 < sumf expo l)%R.
Proof.
  intros F NE. destruct l as [|[x|] l]; [congruence| |inversion F; congruence]. rewrite sumf_cons. pose proof (exp_pos x). pose proof (sumf_nonneg expo l expo_nonneg). cbn [expo]. lra.
Qed.
Lemma fin_ex l : fin l -> l <> [] -> exists x, In (Some x) l.
Proof. intros F NE. destruct l as [|[x|] l]; [congruence| |inversion F; congruence]. exists x. now left. Qed.
Lemma fin_add a l : fin a -> fin l -> fin (add_logits a l).
Proof.
  intros Fa Fl. unfold fin, add_logits in *. rewrite Forall_forall in *. intros v Hv. apply in_map_iff in Hv as ((x & y) & <- & H). pose proof (Fa _ (in_combine_l _ _ _ _ H)). pose proof (Fl _ (in_combine_r _ _ _ _ H)). destruct x, y; cbn [ladd fst snd]; congruence.
Qed.
Lemma rd_add a l c x y : rd a c = Some x -> rd l c = Some y -> rd (add_logits a l) c = Some (ladd x y).
Proof. intros Ha Hl. unfold add_logits. rewrite rd_map, OpsProofs.rd_combine, Ha, Hl. reflexivity. Qed.
Lemma softmax_pos l c v : fin l -> rd l c = Some v -> (0 < softmax l c)%R.
Proof.
  intros F H. destruct (fin_rd _ _ _ F H) as (a & ->). unfold softmax. rewrite H. apply Rdiv_lt_0_compat; [apply exp_pos|]. apply fin_pos; auto. intros ->. apply rd_Some_bound in H. rewrite zlen_nil in H. lia.
Qed.
(** The log-probability of a class *)
Lemma log_softmax l c v : fin l -> rd l c = Some v -> lsub v (lse l) = Some (ln (softmax l c)).
Proof.
  intros F H. pose proof (softmax_pos l c v F H) as P. destruct (fin_rd _ _ _ F H) as (a & ->). assert (PS : (0 < sumf expo l)%R) by (apply fin_pos; auto; intros ->; apply rd_Some_bound in H; rewrite zlen_nil in H; lia).
  unfold lse, llog. destruct (Rlt_dec 0 (sumf expo l)) as [_|N]; [|contradiction]. cbn [lsub]. f_equal. unfold softmax. rewrite H. cbn [expo]. unfold Rdiv. rewrite ln_mult, ln_exp, ln_Rinv by (auto using exp_pos, Rinv_0_lt_compat). lra.
Qed.
(** Subtracting the maximum and adding it again *)
Lemma vmax_fin l : fin l -> l <> [] -> exists m, vmax l = Some m.
Proof. intros F NE. destruct (fin_ex l F NE) as (x & Hx). exact (vmax_some l x Hx). Qed.
Lemma probs_sum l m : vmax l = Some m -> rsum (probs l) = (sumf expo l * exp (- m))%R.
Proof.
  intros E. unfold rsum, probs. rewrite E. clear E. induction l as [|[x|] l IH]; cbn [map]; [rewrite !sumf_nil; lra| |]; rewrite !sumf_cons, IH; cbn [lsub expo]; [unfold Rminus; rewrite exp_plus|]; ring.
Qed.
Lemma probs_softmax l c v : fin l -> rd l c = Some v -> exists x, rd (probs l) c = Some x /\ (x / rsum (probs l))%R = softmax l c.
Proof.
  intros F H. assert (NE : l <> []) by (intros ->; apply rd_Some_bound in H; rewrite zlen_nil in H; lia). destruct (vmax_fin l F NE) as (m & E). pose proof (fin_pos l F NE) as P. pose proof (exp_pos (- m)) as Pm. destruct (fin_rd _ _ _ F H) as (a & ->).
  exists (expo (lsub (Some a) (Some m))). split; [unfold probs; rewrite rd_map, H, E; reflexivity|]. rewrite (probs_sum l m E). unfold softmax. rewrite H. cbn [lsub expo]. unfold Rminus. rewrite exp_plus. field. lra.
Qed.
Lemma lm_norm l : fin l -> l <> [] -> ladd (llog (rsum (probs l))) (vmax l) = lse l.
Proof.
  intros F NE. destruct (vmax_fin l F NE) as (m & E). pose proof (fin_pos l F NE) as P. rewrite (probs_sum l m E), E. unfold lse, llog. destruct (Rlt_dec 0 (sumf expo l)) as [_|N]; [|contradiction].
  destruct (Rlt_dec 0 (sumf expo l * exp (- m))) as [_|N]; [|exfalso; apply N, Rmult_lt_0_compat; auto; apply exp_pos]. cbn [ladd]. f_equal. rewrite ln_mult, ln_exp by (auto using exp_pos). lra.
Qed.
Lemma joint_norm l a : fin l -> fin a -> zlen l = zlen a -> l <> [] -> ladd (ladd (llog (dot (probs l) (probs a))) (vmax l)) (vmax a) = lse (add_logits a l).
Proof.
  intros Fl Fa ZZ NE. apply simple_norm; auto. apply fin_ex; [now apply fin_add|]. destruct l as [|x l]; [congruence|]. destruct a as [|y a]; [rewrite zlen_cons, zlen_nil in ZZ; pose proof (zlen_nonneg l); lia|]. discriminate.
Qed.
Lemma am_norm a u : fin a -> a <> [] -> zlen u = zlen a -> Forall (fun x => 0 < x)%R u -> ladd (llog (dot (probs a) u)) (vmax a) = lse (add_logits a (map llog u)).
Proof.
  intros Fa NE ZZ PU. destruct (vmax_fin a Fa NE) as (m & E). set (J := add_logits a (map llog u)).
  assert (ES : dot (probs a) u = (sumf expo J * exp (- m))%R).
  { unfold dot, J, probs, add_logits. rewrite E. clear NE E J. revert u ZZ PU. induction a as [|x a IH]; intros [|v u] ZZ PU; [cbn [map combine]; rewrite !sumf_nil; lra|exfalso; rewrite zlen_cons, zlen_nil in ZZ; pose proof (zlen_nonneg u); lia|exfalso; rewrite zlen_cons, zlen_nil in ZZ; pose proof (zlen_nonneg a); lia|].
    rewrite !zlen_cons in ZZ. inversion PU as [|? ? Pv PU']; subst. inversion Fa as [|? ? Hx Fa']; subst. cbn [map combine]. rewrite !sumf_cons, (IH Fa' u ltac:(lia) PU'). cbn [fst snd]. rewrite expo_ladd. unfold llog at 2. destruct (Rlt_dec 0 v) as [_|N]; [|contradiction]. cbn [expo]. rewrite exp_ln by exact Pv.
    destruct x as [x|]; cbn [lsub expo]; unfold Rminus; rewrite ?exp_plus; ring. }
  assert (FJ : fin J). { apply fin_add; auto. unfold fin. apply Forall_forall. intros v Hv. apply in_map_iff in Hv as (x & <- & H). rewrite Forall_forall in PU. specialize (PU x H). unfold llog. destruct (Rlt_dec 0 x); congruence. }
  assert (NJ : J <> []). { destruct a as [|y a]; [congruence|]. destruct u as [|v u]; [rewrite zlen_cons, zlen_nil in ZZ; pose proof (zlen_nonneg a); lia|]. discriminate. }
  pose proof (fin_pos J FJ NJ) as P. rewrite ES, E. unfold lse, llog. destruct (Rlt_dec 0 (sumf expo J)) as [_|N]; [|contradiction]. destruct (Rlt_dec 0 (sumf expo J * exp (- m))) as [_|N]; [|exfalso; apply N, Rmult_lt_0_compat; auto; apply exp_pos]. cbn [ladd]. f_equal. rewrite ln_mult, ln_exp by (auto using exp_pos). lra.
Qed.

Lemma nonzero_effective x : nonzero_scale x = effective x.
Proof. unfold nonzero_scale, effective. destruct (Req_EM_T x 0); [|reflexivity]. f_equal. cbn [pow]. lra. Qed.
Lemma expo_interp a b c p q r x : interp a b c (Some (ln p)) (Some (ln q)) (Some (ln r)) = Some x -> expo x = (Rpower p a * Rpower q b * Rpower r c)%R.
Proof. unfold interp. cbn [lscale ladd]. intros H. injection H as <-. cbn [expo]. unfold Rpower. rewrite <- !exp_plus. f_equal. ring. Qed.

(** ** The unigram model *)
Definition uni (C : Z) (rows : list (list (option R))) : list R := map (fun c => sumf (fun l => softmax l c) rows / IZR (zlen rows))%R (zrange C).
Lemma unigram_ok C rows : 0 <= C -> (forall l, In l rows -> fin l /\ zlen l = C) -> unigram C rows = Some (uni C rows).
Proof.
  intros HC H. unfold unigram, uni. rewrite (tabM_fun C _ (fun c => sumf (fun l => softmax l c) rows / IZR (zlen rows))%R); [reflexivity|].
  intros c Hc. assert (E : forall rows, (forall l, In l rows -> fin l /\ zlen l = C) -> mapM (fun l => let p := probs l in x <- rd p c;; Some (x / rsum p)%R) rows = Some (map (fun l => softmax l c) rows)).
  { intros rs Hr. apply mapM_Some_map. intros l Hl. destruct (Hr l Hl) as (F & Zl). destruct (rd_in_bound l c ltac:(lia)) as (v & Hv). destruct (probs_softmax l c v F Hv) as (x & Ex & Es). cbv zeta. rewrite Ex. now f_equal. }
  rewrite E by exact H. unfold rsum. rewrite sumf_map. reflexivity.
Qed.
Lemma uni_pos C rows : 0 <= C -> rows <> [] -> (forall l, In l rows -> fin l /\ zlen l = C) -> Forall (fun x => 0 < x)%R (uni C rows).
Proof.
  intros HC NE H. apply Forall_forall. intros x Hx. apply in_map_iff in Hx as (c & <- & Hc). apply in_zrange in Hc.
  apply Rdiv_lt_0_compat.
  - assert (P : forall l, In l rows -> (0 < softmax l c)%R). { intros l Hl. destruct (H l Hl) as (F & Zl). destruct (rd_in_bound l c ltac:(lia)) as (v & Hv). eapply softmax_pos; eauto. }
    clear - NE P. destruct rows as [|l rows]; [congruence|]. clear NE. revert l P. induction rows as [|l2 rows IH]; intros l P; rewrite sumf_cons; [rewrite sumf_nil; specialize (P l (or_introl eq_refl)); lra|]. pose proof (P l (or_introl eq_refl)). specialize (IH l2 (fun x Hx => P x (or_intror Hx))). lra.
  - apply IZR_lt. destruct rows as [|l rows]; [congruence|]. rewrite zlen_cons. pose proof (zlen_nonneg rows). lia.
Qed.
Lemma uni_logits C lm : Forall (fun x => 0 < x)%R (uni C (concat lm)) -> map llog (uni C (concat lm)) = average_lm C lm.
Proof.
  intros P. unfold uni, average_lm in *. rewrite map_map. apply map_ext_in. intros c Hc. rewrite Forall_forall in P. specialize (P _ (in_map _ _ _ Hc)). unfold llog. destruct (Rlt_dec 0 _); [reflexivity|contradiction].
Qed.

(** ** One utterance *)
Definition row1 (x : list (list (option R))) i := match rd x i with Some l => l | None => [] end.
Definition sval (ls ams : R) (lm am : list (list (option R))) (u : list (option R)) (c s t : Z) : option R :=
  Some (ln (softmax (add_logits (row1 am t) (row1 lm s)) c) * (1 - ls - ams) + ln (softmax (row1 lm s) c) * effective ls + ln (softmax (add_logits (row1 am t) u) c) * effective ams)%R.

Lemma smoothed_row k S T C lm am u y term ls ams te : 0 <= S -> 0 <= T -> 0 < C -> shape2 (S + 1) C lm = true -> shape2 T C am = true ->
  Forall fin lm -> Forall fin am -> zlen u = C -> Forall (fun x => 0 < x)%R u -> zlen y = S -> Forall (fun c => 0 <= c < C) y -> 0 <= term < C ->
  match te with None => True | Some t => 0 <= t <= T end -> (k = Regular -> te = None -> (0 < 1 - ls - ams)%R /\ (0 <= ams)%R) ->
  logprobs_smoothed_row k S T lm am u y term ls ams te =
  Some (tab2 S (cols k T) (fin_px k te T (fun s => sval ls ams lm am (map llog u) (jsym y s) s) (sval ls ams lm am (map llog u) term)),
        tab2 (S + 1) T (sval ls ams lm am (map llog u) term)).
Proof.
  intros HS HT HC SLM SAM FL FA ZU PU Zy SC TC TE SCL.
  destruct (shape2_ok _ _ _ SLM) as (ZLM & _). destruct (shape2_ok _ _ _ SAM) as (ZAM & _). rewrite Forall_forall in FL, FA.
  set (la := row1 lm). set (aa := row1 am). set (lu := map llog u).
  assert (LA : forall s, 0 <= s <= S -> rd lm s = Some (la s) /\ zlen (la s) = C /\ fin (la s)).
  { intros s Hs. unfold la, row1. destruct (rd_in_bound lm s ltac:(lia)) as (l & Hl). rewrite Hl. split; auto. split; [exact (shape2_row _ _ _ _ _ SLM Hl)|]. apply FL. eapply rd_In; eauto. }
  assert (AA : forall t, 0 <= t < T -> rd am t = Some (aa t) /\ zlen (aa t) = C /\ fin (aa t)).
  { intros t Ht. unfold aa, row1. destruct (rd_in_bound am t ltac:(lia)) as (l & Hl). rewrite Hl. split; auto. split; [exact (shape2_row _ _ _ _ _ SAM Hl)|]. apply FA. eapply rd_In; eauto. }
  assert (NE : forall l : list (option R), zlen l = C -> l <> []) by (intros l Hl ->; rewrite zlen_nil in Hl; lia).
  assert (FU : fin lu). { unfold fin, lu. apply Forall_forall. intros v Hv. apply in_map_iff in Hv as (x & <- & H). rewrite Forall_forall in PU. specialize (PU x H). unfold llog. destruct (Rlt_dec 0 x); congruence. }
  assert (ZLU : zlen lu = C) by (unfold lu; now rewrite zlen_map).
  set (lv := fun c s => match rd (la s) c with Some v => v | None => None end).
  set (av := fun c t => match rd (aa t) c with Some v => v | None => None end).
  set (uv := fun c => match rd lu c with Some v => v | None => None end).
  assert (LV : forall c s, 0 <= c < C -> 0 <= s <= S -> rd (la s) c = Some (lv c s)). { intros c s Hc Hs. unfold lv. destruct (LA s Hs) as (_ & Z1 & _). destruct (rd_in_bound (la s) c ltac:(lia)) as (v & ->). reflexivity. }
  assert (AV : forall c t, 0 <= c < C -> 0 <= t < T -> rd (aa t) c = Some (av c t)). { intros c t Hc Ht. unfold av. destruct (AA t Ht) as (_ & Z1 & _). destruct (rd_in_bound (aa t) c ltac:(lia)) as (v & ->). reflexivity. }
  assert (UV : forall c, 0 <= c < C -> rd lu c = Some (uv c)). { intros c Hc. unfold uv. destruct (rd_in_bound lu c ltac:(lia)) as (v & ->). reflexivity. }
  set (P1 := fun c s t => Some (ln (softmax (add_logits (aa t) (la s)) c))). set (P2 := fun c s => Some (ln (softmax (la s) c))). set (P3 := fun c t => Some (ln (softmax (add_logits (aa t) lu) c))).
  assert (E1 : forall c s t, 0 <= c < C -> 0 <= s <= S -> 0 <= t < T -> lsub (ladd (av c t) (lv c s)) (lse (add_logits (aa t) (la s))) = P1 c s t).
  { intros c s t Hc Hs Ht. destruct (LA s Hs) as (_ & _ & F1). destruct (AA t Ht) as (_ & _ & F2). apply log_softmax; [now apply fin_add|]. apply rd_add; auto. }
  assert (E2 : forall c s, 0 <= c < C -> 0 <= s <= S -> lsub (lv c s) (lse (la s)) = P2 c s).
  { intros c s Hc Hs. destruct (LA s Hs) as (_ & _ & F1). apply log_softmax; auto. }
  assert (E3 : forall c t, 0 <= c < C -> 0 <= t < T -> lsub (ladd (av c t) (uv c)) (lse (add_logits (aa t) lu)) = P3 c t).
  { intros c t Hc Ht. destruct (AA t Ht) as (_ & _ & F2). apply log_softmax; [now apply fin_add|]. apply rd_add; auto. }
  assert (EI : forall c s t, interp (1 - ls - ams) (effective ls) (effective ams) (P1 c s t) (P2 c s) (P3 c t) = Some (sval ls ams lm am lu c s t)) by reflexivity.
  unfold logprobs_smoothed_row. cbv zeta. fold lu. rewrite !nonzero_effective.
  rewrite (tabM2_fun (S + 1) T _ (fun s t => lse (add_logits (aa t) (la s)))).
  2:{ intros s t Hs Ht. destruct (LA s ltac:(lia)) as (R1 & Z1 & F1). destruct (AA t Ht) as (R2 & Z2 & F2). rewrite !rd_map, R1, R2. cbn [option_map]. f_equal. apply joint_norm; auto; congruence. }
  rewrite (tabM_fun T _ (fun t => lse (add_logits (aa t) lu))).
  2:{ intros t Ht. destruct (AA t Ht) as (R2 & Z2 & F2). rewrite !rd_map, R2. cbn [option_map]. f_equal. apply am_norm; auto. congruence. }
  rewrite (tabM_fun (S + 1) _ (fun s => lse (la s))).
  2:{ intros s Hs. destruct (LA s ltac:(lia)) as (R1 & Z1 & F1). rewrite !rd_map, R1. cbn [option_map]. f_equal. apply lm_norm; auto. }
  assert (JS : forall s, 0 <= s < S -> rd y s = Some (jsym y s) /\ 0 <= jsym y s < C) by (intros s Hs; exact (jsym_at y S C s Zy SC Hs)).
  rewrite (tabM2_fun S T _ (fun s t => av (jsym y s) t)).
  2:{ intros s t Hs Ht. destruct (JS s Hs) as (-> & Bc). destruct (AA t Ht) as (-> & _). auto. }
  rewrite (tabM_fun S _ (fun s => lv (jsym y s) s)).
  2:{ intros s Hs. destruct (JS s Hs) as (-> & Bc). destruct (LA s ltac:(lia)) as (-> & _). apply LV; auto. lia. }
  rewrite (tabM_fun S _ (fun s => uv (jsym y s))).
  2:{ intros s Hs. destruct (JS s Hs) as (-> & Bc). auto. }
  rewrite (tabM2_fun S T _ (fun s t => P1 (jsym y s) s t)).
  2:{ intros s t Hs Ht. rewrite !rd2_tab, rd_tab by lia. f_equal. apply E1; try lia; now apply JS. }
  rewrite (tabM2_fun S T _ (fun s t => P3 (jsym y s) t)).
  2:{ intros s t Hs Ht. rewrite rd2_tab, !rd_tab by lia. f_equal. apply E3; try lia; now apply JS. }
  rewrite (tabM_fun S _ (fun s => P2 (jsym y s) s)).
  2:{ intros s Hs. rewrite !rd_tab by lia. f_equal. apply E2; try lia; now apply JS. }
  rewrite (tabM2_fun (S + 1) T _ (fun s t => P1 term s t)).
  2:{ intros s t Hs Ht. destruct (AA t Ht) as (-> & _). destruct (LA s ltac:(lia)) as (-> & _). rewrite AV, LV, rd2_tab by lia. f_equal. apply E1; lia. }
  rewrite (tabM_fun T _ (fun t => P3 term t)).
  2:{ intros t Ht. destruct (AA t Ht) as (-> & _). rewrite AV, UV, rd_tab by lia. f_equal. apply E3; lia. }
  rewrite (tabM_fun (S + 1) _ (fun s => P2 term s)).
  2:{ intros s Hs. destruct (LA s ltac:(lia)) as (-> & _). rewrite LV, rd_tab by lia. f_equal. apply E2; lia. }
  change (match k with Regular => T + 1 | _ => T end) with (cols k T).
  rewrite (tabM2_fun S (cols k T) _ (fun s t => if t <? T then sval ls ams lm am lu (jsym y s) s t else lninf)).
  2:{ intros s t Hs Ht. rewrite rd_tab by lia. destruct (t <? T) eqn:Et; [rewrite !rd2_tab by lia; apply EI|].
      destruct te as [e|]; [reflexivity|]. assert (k = Regular) as -> by (destruct k; auto; unfold cols in Ht; lia). destruct (SCL eq_refl eq_refl) as (C1 & C2).
      assert (C3 : (0 < effective ams)%R). { unfold effective. destruct (Req_EM_T ams 0) as [_|N]; [apply Rinv_0_lt_compat, pow_lt; lra|lra]. }
      unfold interp, lscale, lninf, P2. destruct (Rlt_dec 0 (1 - ls - ams)) as [_|N]; [|contradiction]. destruct (Rlt_dec 0 (effective ams)) as [_|N]; [|contradiction]. reflexivity. }
  rewrite (tabM2_fun (S + 1) T _ (sval ls ams lm am lu term)).
  2:{ intros s t Hs Ht. rewrite rd2_tab, !rd_tab by lia. apply EI. }
  apply (lfinish_eq k te S T (fun s => sval ls ams lm am lu (jsym y s) s)); auto.
  intros s t Hs Ht. destruct k; unfold cols in Ht; cbn [cols].
  - replace (t =? T) with (negb (t <? T)) by lia. destruct (t <? T); reflexivity.
  - replace (t <? T) with true by lia. reflexivity.
  - replace (t <? T) with true by lia. reflexivity.
Qed.
