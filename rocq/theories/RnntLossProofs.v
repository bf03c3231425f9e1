(** * Proofs for C68 *)
From Coq Require Import ZArith List Lia Bool Reals Lra.
From Coq Require Import ZifyBool ZifyNat.
From Verif Require Import Base RaggedListProofs RaggedOpsProofs OpsModel RnntModel RnntSpec RnntProofs RnntPrunedProps LogReal ScoreModel OpsProofs
  MutualInfoModel MutualInfoSpec MutualInfoProofs MutualInfoProps RnntLossModel RnntLossSpec.
Import ListNotations.
Open Scope Z_scope.

Notation tab2 n m g := (tab n (fun i => tab m (g i))).
Definition cols (k : rnnt_type) (T : Z) : Z := match k with Regular => T + 1 | _ => T end.
Definition fin_px (k : rnnt_type) (te : option Z) (T : Z) (g h : Z -> Z -> option R) (s t : Z) : option R :=
  match k with
  | Regular => match te with
               | Some e => if t =? e then lninf else if t =? T then lninf else g s t
               | None => if t =? T then lninf else g s t
               end
  | Modified => g s t
  | Constrained => ladd (g s t) (h (s + 1) t)
  end.
Lemma lwr_tab {A} n (g : Z -> A) e v : 0 <= e < n -> wr (tab n g) e v = Some (tab n (fun t => if t =? e then v else g t)).
Proof.
  intros He. destruct (wr_Some (tab n g) e v) as (l & E & L1 & L2); [rewrite zlen_tab; lia|]. rewrite E. f_equal.
  rewrite zlen_tab in L1 by lia. apply list_ext_rd; [rewrite zlen_tab; lia|].
  intros i Hi. rewrite L2. rewrite !rd_tab by lia. destruct (i =? e); reflexivity.
Qed.
Lemma lapp_tab T (g : Z -> option R) : 0 <= T -> tab T g ++ [lninf] = tab (T + 1) (fun t => if t =? T then lninf else g t).
Proof.
  intros HT. apply list_ext_rd; [rewrite zlen_app, !zlen_tab by lia; reflexivity|]. rewrite zlen_app, zlen_tab by lia. change (zlen [lninf]) with 1.
  intros i Hi. rewrite rd_tab by lia. destruct (i =? T) eqn:E.
  - rewrite rd_app_r by (rewrite zlen_tab; lia). rewrite zlen_tab by lia. replace (i - T) with 0 by lia. reflexivity.
  - rewrite rd_app_l by (rewrite zlen_tab; lia). now rewrite rd_tab by lia.
Qed.
Lemma lapp_tab2 S T (g : Z -> Z -> option R) : 0 <= T -> map (fun row => row ++ [lninf]) (tab2 S T g) = tab2 S (T + 1) (fun s t => if t =? T then lninf else g s t).
Proof. intros HT. rewrite map_tab. apply tab_ext. intros s Hs. now apply lapp_tab. Qed.
(** [g0]: px without the last column of the regular topology *)
Lemma lfinish_eq k te S T g h g' : 0 <= S -> 0 <= T -> match te with None => True | Some t => 0 <= t <= T end ->
  (forall s t, 0 <= s < S -> 0 <= t < cols k T -> g' s t = match k with Regular => if t =? T then lninf else g s t | _ => g s t end) ->
  finish lninf ladd k te S T (tab2 S (cols k T) g') (tab2 (S + 1) T h) = Some (tab2 S (cols k T) (fin_px k te T g h), tab2 (S + 1) T h).
Proof.
  intros HS HT TE G. assert (E0 : tab2 S (cols k T) g' = tab2 S (cols k T) (fun s t => match k with Regular => if t =? T then lninf else g s t | _ => g s t end)).
  { apply tab_ext. intros s Hs. apply tab_ext. intros t Ht. now apply G. }
  rewrite E0. destruct k; cbn [finish cols].
  - unfold fix_for_boundary. destruct te as [e|]; [|reflexivity].
    assert (E1 : mapM (fun row0 => wr row0 e lninf) (tab2 S (T + 1) (fun s t => if t =? T then lninf else g s t)) =
      Some (tab2 S (T + 1) (fun s t => if t =? e then lninf else if t =? T then lninf else g s t))).
    { unfold tab at 1. rewrite mapM_map. apply mapM_Some_map. intros s Hs. apply lwr_tab. lia. }
    rewrite E1. reflexivity.
  - reflexivity.
  - rewrite (tabM2_fun S T _ (fun s t => ladd (g s t) (h (s + 1) t))); [reflexivity|].
    intros s t Hs Ht. rewrite !rd2_tab by lia. reflexivity.
Qed.

(** ** The joiner's log-probabilities *)
Definition jrow (L : joiner) t s := match rd2 L t s with Some l => l | None => [] end.
Definition jval (L : joiner) t s c : option R := match rd (jrow L t s) c with Some x => x | None => None end.
Definition jsym (y : list Z) s := match rd y s with Some c => c | None => 0 end.
Definition jX L y s t := lsub (jval L t s (jsym y s)) (lse (jrow L t s)).
Definition jY L term s t := lsub (jval L t s term) (lse (jrow L t s)).

Lemma jsym_at y S C s : zlen y = S -> Forall (fun c => 0 <= c < C) y -> 0 <= s < S -> rd y s = Some (jsym y s) /\ 0 <= jsym y s < C.
Proof. intros Zy F Hs. unfold jsym. destruct (rd_in_bound y s ltac:(lia)) as (c & E). rewrite E. split; auto. rewrite Forall_forall in F. apply F. eapply rd_In; eauto. Qed.
Lemma jval_at (L : joiner) t s c C : zlen (jrow L t s) = C -> 0 <= c < C -> rd (jrow L t s) c = Some (jval L t s c).
Proof. intros Zl Hc. unfold jval. destruct (rd_in_bound (jrow L t s) c ltac:(lia)) as (x & ->). reflexivity. Qed.

Lemma joint_row k S T C L y term te : 0 <= S -> 0 <= T -> shape3 T (S + 1) C L = true -> zlen y = S -> Forall (fun c => 0 <= c < C) y -> 0 <= term < C ->
  match te with None => True | Some t => 0 <= t <= T end ->
  logprobs_joint_row lninf ladd lsub lse k S T L y term te = Some (tab2 S (cols k T) (fin_px k te T (jX L y) (jY L term)), tab2 (S + 1) T (jY L term)).
Proof.
  intros HS HT SL Zy SC TC TE.
  assert (RA : forall t s, 0 <= t < T -> 0 <= s <= S -> rd2 L t s = Some (jrow L t s) /\ zlen (jrow L t s) = C).
  { intros t s Ht Hs. destruct (shape3_ok _ _ _ _ SL) as (Z1 & Z2). destruct (rd_in_bound L t ltac:(lia)) as (r & Hr). pose proof (Z2 _ _ Hr) as SR. destruct (shape2_ok _ _ _ SR) as (Z3 & _). destruct (rd_in_bound r s ltac:(lia)) as (l & Hl).
    unfold jrow, rd2. rewrite Hr, Hl. split; auto. exact (shape2_row _ _ _ _ _ SR Hl). }
  unfold logprobs_joint_row.
  rewrite (tabM2_fun T (S + 1) _ (fun t s => lse (jrow L t s))).
  2:{ intros t s Ht Hs. destruct (RA t s Ht ltac:(lia)) as (-> & _). reflexivity. }
  rewrite (tabM2_fun S T _ (jX L y)).
  2:{ intros s t Hs Ht. destruct (jsym_at y S C s Zy SC Hs) as (-> & B). destruct (RA t s Ht ltac:(lia)) as (-> & Zr).
      rewrite (jval_at L t s _ C Zr B). rewrite rd2_tab by lia. reflexivity. }
  rewrite (tabM2_fun (S + 1) T _ (jY L term)).
  2:{ intros s t Hs Ht. destruct (RA t s Ht ltac:(lia)) as (-> & Zr). rewrite (jval_at L t s _ C Zr TC). rewrite rd2_tab by lia. reflexivity. }
  assert (E : match k with Regular => map (fun row => row ++ [lninf]) (tab2 S T (jX L y)) | _ => tab2 S T (jX L y) end = tab2 S (cols k T) (fun s t => match k with Regular => if t =? T then lninf else jX L y s t | _ => jX L y s t end)).
  { destruct k; [apply lapp_tab2; auto|reflexivity|reflexivity]. }
  cbv zeta. rewrite E. apply lfinish_eq; auto.
Qed.

(** ** What the recursion computes *)
Fixpoint pw (k : rnnt_type) (pen : R) (te : Z) (px py : list (list (option R))) (c : Z * Z) (l : list bool) : R :=
  match l with
  | [] => 1%R
  | x :: l' => (expo (edge px py c x) * (if x then exp (pen * (IZR (te - 1) / 2 - IZR (snd c))) else 1) * pw k pen te px py (move (negb (is_reg k)) c x) l')%R
  end.

Definition pen_px (pen off : R) (x : list (list (option R))) : list (list (option R)) :=
  map (imap (fun t v => ladd v (Some ((off - IZR t) * pen)%R)) 0) x.
Lemma rd2_pen pen off x s t v : rd2 x s t = Some v -> rd2 (pen_px pen off x) s t = Some (ladd v (Some ((off - IZR t) * pen)%R)).
Proof.
  unfold rd2, pen_px. rewrite rd_map. destruct (rd x s) as [r|]; [|discriminate]. cbn [option_map]. intros H. rewrite rd_imap, H. reflexivity.
Qed.
Lemma shape2_pen pen off n m x : shape2 n m x = true -> shape2 n m (pen_px pen off x) = true.
Proof.
  unfold shape2, pen_px. intros H. apply andb_prop in H as (H1 & H2). rewrite zlen_map, H1. cbn [andb]. rewrite forallb_forall in *. intros r Hr. apply in_map_iff in Hr as (r' & <- & Hr). unfold shape1 in *. rewrite zlen_imap. now apply H2.
Qed.

Lemma pw_weight k pen te S T px px' py l : shape2 S (cols k T) px = true ->
  (forall s t v, rd2 px s t = Some v -> exists v', rd2 px' s t = Some v' /\ expo v' = (expo v * exp (pen * (IZR (te - 1) / 2 - IZR t)))%R) ->
  forall c, 0 <= fst c -> 0 <= snd c -> fst (walk (negb (is_reg k)) c l) <= S -> snd (walk (negb (is_reg k)) c l) <= T ->
  expo (weight (negb (is_reg k)) px' py c l) = pw k pen te px py c l.
Proof.
  intros SX HP. induction l as [|x l IH]; intros (s, t) H1 H2 H3 H4; [apply exp_0|].
  rewrite walk_cons in H3, H4. cbn [weight pw]. rewrite expo_ladd. cbn [fst snd] in *.
  pose proof (walk_eq (negb (is_reg k)) l (move (negb (is_reg k)) (s, t) x)) as WE. pose proof (nT_nonneg l). pose proof (nF_nonneg l).
  assert (M0 : 0 <= fst (move (negb (is_reg k)) (s, t) x) /\ 0 <= snd (move (negb (is_reg k)) (s, t) x)) by (destruct x, k; cbn [is_reg negb move fst snd]; lia).
  rewrite (IH (move (negb (is_reg k)) (s, t) x)) by (auto; lia). f_equal.
  destruct x; cbn [edge]; [|lra].
  assert (MV : s < S /\ t < cols k T). { rewrite WE in H3, H4. destruct k; cbn [is_reg negb move fst snd cols] in *; lia. }
  destruct (shape2_ok _ _ _ SX) as (_ & K). destruct (K s t ltac:(lia) ltac:(lia)) as (v & Hv). destruct (HP s t v Hv) as (v' & Hv' & E). rewrite (rd2_entry _ _ _ _ Hv), (rd2_entry _ _ _ _ Hv'). exact E.
Qed.

Lemma loss_of_ok k B S T pen boundary lp : 0 <= B -> 0 <= S -> 0 <= T -> (0 <= pen)%R -> zlen lp = B ->
  (forall b p, rd lp b = Some p -> shape2 S (cols k T) (fst p) = true /\ shape2 (S + 1) T (snd p) = true) -> bounds_ok B S T boundary ->
  exists neg, (forall r, loss_of k B S T pen boundary r lp = reduce r neg) /\ zlen neg = B /\
    forall b p sb tb se te L, rd lp b = Some p -> bounds S T boundary b = Some (sb, tb, se, te) -> all_paths (negb (is_reg k)) (sb, tb) (se, te) L ->
      (0 <= sb <= se /\ se <= S /\ 0 <= tb <= te /\ te <= T) /\ exists a, rd neg b = Some a /\ expo a = sumf (pw k pen te (fst p) (snd p) (sb, tb)) L.
Proof.
  intros HB HS HT HP ZL SH BO.
  assert (BR : forall b sb tb se te, bounds S T boundary b = Some (sb, tb, se, te) -> 0 <= sb <= se /\ se <= S /\ 0 <= tb <= te /\ te <= T).
  { intros b sb tb se te H. unfold bounds in H. destruct boundary as [bs|]; [|injection H as <- <- <- <-; lia]. destruct BO as (_ & BF). apply rd_In, BF in H. lia. }
  assert (PX : exists px, add_penalty k (cols k T) pen boundary (map fst lp) = Some px /\ zlen px = B /\
    forall b p, rd lp b = Some p -> exists x, rd px b = Some x /\ shape2 S (cols k T) x = true /\
      forall sb tb se te, bounds S T boundary b = Some (sb, tb, se, te) -> forall s t v, rd2 (fst p) s t = Some v -> exists v', rd2 x s t = Some v' /\ expo v' = (expo v * exp (pen * (IZR (te - 1) / 2 - IZR t)))%R).
  { unfold add_penalty. destruct (Rlt_dec 0 pen) as [P0|P0].
    - set (off := fun b => match boundary with None => (IZR (T - 1) / 2)%R | Some bs => match rd bs b with Some bd => (IZR (b_T bd - 1) / 2)%R | None => 0%R end end).
      cbv zeta. rewrite zlen_map, ZL. erewrite (tabM_fun B _ (fun b => match rd lp b with Some p => pen_px pen (off b) (fst p) | None => [] end)).
      2:{ intros b Hb. destruct (rd_in_bound lp b ltac:(lia)) as (p & Hp). rewrite rd_map, Hp. cbn [option_map]. unfold off. destruct boundary as [bs|].
          - destruct BO as (E & _). destruct (rd_in_bound bs b ltac:(lia)) as (bd & ->). reflexivity.
          - unfold cols. destruct k; try reflexivity. now replace (T + 1 - 1) with T by lia. }
      eexists. split; [reflexivity|]. split; [apply zlen_tab; lia|]. intros b p Hp. pose proof (rd_Some_bound _ _ _ Hp) as Bb. rewrite rd_tab by lia. rewrite Hp. eexists. split; [reflexivity|]. split; [apply shape2_pen; eapply SH; eauto|].
      intros sb tb se te Hbd s t v Hv. eexists. split; [apply rd2_pen; exact Hv|]. rewrite expo_ladd. cbn [expo]. f_equal. f_equal. assert (EO : off b = (IZR (te - 1) / 2)%R). { unfold off. unfold bounds in Hbd. destruct boundary as [bs|]; [rewrite Hbd; reflexivity|injection Hbd as _ _ _ <-; reflexivity]. } rewrite EO. lra.
    - exists (map fst lp). split; [reflexivity|]. split; [now rewrite zlen_map|]. intros b p Hp. exists (fst p). split; [rewrite rd_map, Hp; reflexivity|]. split; [eapply SH; eauto|]. intros sb tb se te _ s t v Hv. exists v. split; [exact Hv|]. replace pen with 0%R by lra. rewrite Rmult_0_l, exp_0. lra. }
  destruct PX as (px & EP & ZP & PX).
  assert (SH3 : shape3 B S (cols k T) px = true /\ shape3 B (S + 1) T (map snd lp) = true).
  { unfold shape3. rewrite zlen_map, ZL, ZP, Z.eqb_refl. cbn [andb]. split; apply forallb_forall; intros x Hx.
    - apply In_rd in Hx as (b & Bb & Hx). destruct (rd_in_bound lp b ltac:(lia)) as (p & Hp). destruct (PX b p Hp) as (x' & Hx' & SX & _). rewrite Hx in Hx'. injection Hx' as <-. exact SX.
    - apply in_map_iff in Hx as (p & <- & Hp). apply In_rd in Hp as (b & _ & Hp). apply (SH b p Hp). }
  destruct SH3 as (SX & SY).
  assert (EM : (cols k T =? T) = negb (is_reg k)) by (destruct k; cbn [cols is_reg negb]; lia).
  destruct (C45_mutual_information B S (cols k T) T px (map snd lp) boundary) as (res & ER & EL & Q); auto.
  { destruct k; cbn [cols]; auto. }
  exists (map fst res). split; [|split; [now rewrite zlen_map|]].
  - intros r. unfold loss_of. change (match k with Regular => T + 1 | _ => T end) with (cols k T). cbv zeta. rewrite EP, ER. reflexivity.
  - intros b p sb tb se te L Hp Hbd HL. pose proof (BR b _ _ _ _ Hbd) as BB. split; [exact BB|]. destruct (PX b p Hp) as (x & Hx & SXb & PE). destruct (Q b x (snd p) sb tb se te) as (ans & pm & Hr & Q1 & _); auto; [rewrite rd_map, Hp; reflexivity|].
    exists ans. split; [rewrite rd_map, Hr; reflexivity|]. rewrite EM in Q1. rewrite (Q1 L HL). unfold total. apply sumf_ext. intros l Hl. apply HL in Hl. destruct (SH b p Hp) as (S1 & _).
    apply (pw_weight k pen te S T (fst p) x (snd p) l S1 (PE _ _ _ _ Hbd)); rewrite ?Hl; cbn [fst snd]; lia.
Qed.

(** ** Probabilities *)
Lemma expo_lsub_lse v l : (exists x, In (Some x) l) -> expo (lsub v (lse l)) = (expo v / sumf expo l)%R.
Proof.
  intros (x & Hx). unfold lse, llog. assert (P : (0 < sumf expo l)%R). { apply Rlt_le_trans with (expo (Some x)); [apply exp_pos|]. clear - Hx. induction l as [|a l IH]; [destruct Hx|]. rewrite sumf_cons. pose proof (expo_nonneg a). pose proof (sumf_nonneg expo l expo_nonneg). destruct Hx as [->|Hx]; [lra|]. specialize (IH Hx). lra. }
  destruct (Rlt_dec 0 (sumf expo l)) as [_|N]; [|contradiction]. destruct v as [a|]; cbn [lsub expo]; [|unfold Rdiv; now rewrite Rmult_0_l]. unfold Rminus. rewrite exp_plus, exp_Ropp, exp_ln by exact P. reflexivity.
Qed.

Fixpoint alignb (k : rnnt_type) (te : Z) (c : Z * Z) (l : list bool) : bool :=
  match l with
  | [] => true
  | x :: l' => (if x then snd c <? te else true) && alignb k te (move (negb (is_reg k)) c x) l'
  end.
Lemma alignb_iff k te l : forall c, alignb k te c l = true <-> forall l1 l2, l = l1 ++ true :: l2 -> snd (walk (negb (is_reg k)) c l1) < te.
Proof.
  induction l as [|x l IH]; intros c; cbn [alignb]; [split; auto; intros _ [|? ?] l2 E; discriminate E|].
  rewrite andb_true_iff, IH. split.
  - intros (H1 & H2) [|x' l1] l2 E; cbn [app] in E; injection E as -> E; [cbn; lia|]. rewrite walk_cons. eapply H2; eauto.
  - intros H. split; [destruct x; [|reflexivity]; specialize (H [] l eq_refl); cbn in H; lia|]. intros l1 l2 E. apply (H (x :: l1) l2). now rewrite E.
Qed.
Lemma alignment_filter k sb tb se te L L' : all_paths (negb (is_reg k)) (sb, tb) (se, te) L -> all_alignments k sb tb se te L' ->
  Permutation.Permutation L' (filter (alignb k te (sb, tb)) L).
Proof.
  intros (N & H) (N' & H'). apply Permutation.NoDup_Permutation; [exact N'|now apply NoDup_filter|]. intros l. rewrite H', filter_In, H, alignb_iff. reflexivity.
Qed.

Lemma pw_joint k pen S T C L y term te oe : 0 <= S -> 0 <= T -> shape3 T (S + 1) C L = true -> zlen y = S -> Forall (fun c => 0 <= c < C) y -> 0 <= term < C ->
  (forall t s l, rd2 L t s = Some l -> exists x, In (Some x) l) -> te <= T -> (oe = Some te \/ (oe = None /\ te = T)) ->
  forall l c, 0 <= fst c -> 0 <= snd c -> fst (walk (negb (is_reg k)) c l) <= S -> snd (walk (negb (is_reg k)) c l) = te ->
  pw k pen te (tab2 S (cols k T) (fin_px k oe T (jX L y) (jY L term))) (tab2 (S + 1) T (jY L term)) c l =
  if alignb k te c l then align_prob k pen L y term te c l else 0%R.
Proof.
  intros HS HT SL Zy SC TC FI TT OE.
  assert (RA : forall t s, 0 <= t < T -> 0 <= s <= S -> rd2 L t s = Some (jrow L t s) /\ zlen (jrow L t s) = C).
  { intros t s Ht Hs. destruct (shape3_ok _ _ _ _ SL) as (Z1 & Z2). destruct (rd_in_bound L t ltac:(lia)) as (r & Hr). pose proof (Z2 _ _ Hr) as SR. destruct (shape2_ok _ _ _ SR) as (Z3 & _). destruct (rd_in_bound r s ltac:(lia)) as (l & Hl).
    unfold jrow, rd2. rewrite Hr, Hl. split; auto. exact (shape2_row _ _ _ _ _ SR Hl). }
  assert (CP : forall t s c, 0 <= t < T -> 0 <= s <= S -> 0 <= c < C -> expo (lsub (jval L t s c) (lse (jrow L t s))) = class_prob L s t c).
  { intros t s c Ht Hs Hc. destruct (RA t s Ht Hs) as (E & Zr). rewrite expo_lsub_lse by (eapply FI; eauto). unfold class_prob, softmax. rewrite E, (jval_at L t s c C Zr Hc). reflexivity. }
  induction l as [|x l IH]; intros (s, t) H1 H2 H3 H4; [reflexivity|].
  rewrite walk_cons in H3, H4. cbn [pw alignb align_prob]. cbn [fst snd] in *.
  pose proof (walk_eq (negb (is_reg k)) l (move (negb (is_reg k)) (s, t) x)) as WE. pose proof (nT_nonneg l) as N1. pose proof (nF_nonneg l) as N2.
  assert (M0 : 0 <= fst (move (negb (is_reg k)) (s, t) x) /\ 0 <= snd (move (negb (is_reg k)) (s, t) x)) by (destruct x, k; cbn [is_reg negb move fst snd]; lia).
  rewrite (IH (move (negb (is_reg k)) (s, t) x)) by (auto; lia). rewrite WE in H3, H4.
  destruct x; cbn [edge].
  - assert (MV : s < S /\ t < cols k T /\ (t < te \/ (k = Regular /\ t = te))). { clear - H1 H2 H3 H4 N1 N2 TT. destruct k; cbn [is_reg negb move fst snd cols] in *; try lia. split; [lia|]. split; [lia|]. destruct (Z_lt_ge_dec t te); [left; lia|right; split; [reflexivity|lia]]. }
    destruct MV as (M1 & M2 & M3). rewrite (rd2_entry _ s t (fin_px k oe T (jX L y) (jY L term) s t)) by (apply rd2_tab; lia). destruct (jsym_at y S C s Zy SC ltac:(lia)) as (Ey & By).
    destruct (t <? te) eqn:Et; cbn [andb].
    + assert (EX : expo (fin_px k oe T (jX L y) (jY L term) s t) = (class_prob L s t (jsym y s) * match k with Constrained => class_prob L (s + 1) t term | _ => 1 end)%R).
      { unfold fin_px. destruct k.
        - replace (match oe with Some e => if t =? e then lninf else if t =? T then lninf else jX L y s t | None => if t =? T then lninf else jX L y s t end) with (jX L y s t).
          + rewrite Rmult_1_r. apply CP; lia.
          + destruct OE as [->|(-> & ->)]; [replace (t =? te) with false by lia|]; replace (t =? T) with false by lia; reflexivity.
        - rewrite Rmult_1_r. apply CP; lia.
        - rewrite expo_ladd. f_equal; apply CP; lia. }
      rewrite EX. unfold decision_prob. rewrite Ey. destruct (alignb k te _ l); lra.
    + destruct M3 as [M3|(-> & ->)]; [lia|]. unfold fin_px. replace (match oe with Some e => if te =? e then lninf else if te =? T then lninf else jX L y s te | None => if te =? T then lninf else jX L y s te end) with (@lninf).
      * cbn [expo lninf]. lra.
      * destruct OE as [->|(-> & ->)]; now rewrite Z.eqb_refl.
  - assert (MV : s <= S /\ t < te). { clear - H1 H2 H3 H4 N1 N2. destruct k; cbn [is_reg negb move fst snd] in *; lia. }
    rewrite (rd2_entry _ s t (jY L term s t)) by (apply rd2_tab; lia). unfold jY at 1. rewrite CP by lia. cbn [andb]. unfold decision_prob. destruct (alignb k te _ l); lra.
Qed.

Definition st_ok (k : rnnt_type) (S T : Z) (boundary : option (list (Z * Z * Z * Z))) : Prop :=
  match boundary with
  | None => k <> Regular -> S <= T
  | Some bs => k <> Regular -> Forall (fun b => b_S b <= b_T b) bs
  end.
Lemma validate_ok k S T boundary : 0 <= S -> st_ok k S T boundary -> validate_st_lengths S T (is_reg k) boundary = Some tt.
Proof.
  intros HS BD. unfold validate_st_lengths. replace (0 <=? S) with true by lia. unfold st_ok in BD. destruct boundary as [bs|].
  - replace (is_reg k || forallb (fun b => b_S b <=? b_T b) bs) with true; [reflexivity|]. symmetry. destruct k; [reflexivity| |];
    cbn [is_reg orb]; apply forallb_forall; intros b Hb; specialize (BD ltac:(discriminate)); rewrite Forall_forall in BD; specialize (BD b Hb); lia.
  - replace (is_reg k || (S <=? T)) with true; [reflexivity|]. symmetry. destruct k; [reflexivity| |];
    cbn [is_reg orb]; specialize (BD ltac:(discriminate)); lia.
Qed.
Lemma t_end_ok B S T boundary b : bounds_ok B S T boundary -> 0 <= b < B -> exists sb tb se te oe, bounds S T boundary b = Some (sb, tb, se, te) /\ t_end boundary b = Some oe /\ (oe = Some te \/ (oe = None /\ te = T)) /\ (0 <= T -> 0 <= te <= T).
Proof.
  intros BO Hb. unfold bounds, t_end. destruct boundary as [bs|]; [|exists 0, 0, S, T, None; repeat split; auto; lia].
  destruct BO as (E & BF). destruct (rd_in_bound bs b ltac:(lia)) as ((((sb, tb), se), te) & H). rewrite H. exists sb, tb, se, te, (Some te). apply rd_In, BF in H. repeat split; auto; lia.
Qed.

Lemma joint_batch k B T S C logits symbols term boundary : 0 <= B -> 0 <= T -> 0 <= S -> shape4 B T (S + 1) C logits = true -> shape2 B S symbols = true ->
  Forall (Forall (fun c => 0 <= c < C)) symbols -> 0 <= term < C -> bounds_ok B S T boundary -> st_ok k S T boundary ->
  exists lp, get_rnnt_logprobs_joint lninf ladd lsub lse k B T (S + 1) C logits symbols term boundary = Some lp /\ zlen lp = B /\
    forall b p, rd lp b = Some p -> exists lg y oe, rd logits b = Some lg /\ rd symbols b = Some y /\ t_end boundary b = Some oe /\
      shape3 T (S + 1) C lg = true /\ zlen y = S /\ Forall (fun c => 0 <= c < C) y /\
      p = (tab2 S (cols k T) (fin_px k oe T (jX lg y) (jY lg term)), tab2 (S + 1) T (jY lg term)).
Proof.
  intros HB HT HS SL SS SC TC BO ST. unfold get_rnnt_logprobs_joint. cbv zeta. replace (S + 1 - 1) with S by lia. rewrite SL, SS, validate_ok by auto. cbn [andb].
  destruct (shape4_ok _ _ _ _ _ SL) as (L1 & L2). pose proof (proj1 (shape2_ok _ _ _ SS)) as Y1.
  assert (P : forall b, 0 <= b < B -> exists lg y oe, rd logits b = Some lg /\ rd symbols b = Some y /\ t_end boundary b = Some oe /\ shape3 T (S + 1) C lg = true /\ zlen y = S /\ Forall (fun c => 0 <= c < C) y /\
    logprobs_joint_row lninf ladd lsub lse k S T lg y term oe = Some (tab2 S (cols k T) (fin_px k oe T (jX lg y) (jY lg term)), tab2 (S + 1) T (jY lg term))).
  { intros b Hb. destruct (rd_in_bound logits b ltac:(lia)) as (lg & Hl). destruct (rd_in_bound symbols b ltac:(lia)) as (y & Hy). destruct (t_end_ok B S T boundary b BO Hb) as (sb & tb & se & te & oe & _ & Ho & Hoe & HTE). exists lg, y, oe.
    assert (Zy : zlen y = S) by exact (shape2_row _ _ _ _ _ SS Hy). assert (Fy : Forall (fun c => 0 <= c < C) y). { rewrite Forall_forall in SC. apply SC. eapply rd_In; eauto. }
    do 3 (split; [assumption|]). split; [eauto|]. do 2 (split; [assumption|]). apply joint_row with (C := C); eauto. destruct Hoe as [->|(-> & _)]; auto. }
  match goal with |- context [tabM B ?f] => set (F := f) end.
  destruct (tabM_all B F) as (lp & E & EL & EP); [lia| |].
  { intros b Hb. destruct (P b Hb) as (lg & y & oe & Hl & Hy & Ho & _ & _ & _ & R). eexists. unfold F. rewrite Hl, Hy, Ho. exact R. }
  exists lp. split; [exact E|]. split; [exact EL|]. intros b p Hp. pose proof (rd_Some_bound _ _ _ Hp) as Bb. destruct (P b ltac:(lia)) as (lg & y & oe & Hl & Hy & Ho & X1 & X2 & X3 & R). exists lg, y, oe. repeat split; auto.
  specialize (EP b p Hp). unfold F in EP. rewrite Hl, Hy, Ho, R in EP. now injection EP as <-.
Qed.

(** ** rnnt_loss_simple *)
Lemma vmax_some l x : In (Some x) l -> exists m, vmax l = Some m.
Proof.
  induction l as [|a l IH]; [intros []|]. unfold vmax in *. cbn [fold_right]. intros [->|H]; [destruct (fold_right lmax None l); cbn; eauto|]. destruct (IH H) as (m & ->). destruct a; cbn; eauto.
Qed.
Lemma simple_norm l a : zlen l = zlen a -> (exists x, In (Some x) (map (fun xy => ladd (fst xy) (snd xy)) (combine a l))) ->
  ladd (ladd (llog (sumf (fun xy => fst xy * snd xy)%R (combine (map (fun x => expo (lsub x (vmax l))) l) (map (fun x => expo (lsub x (vmax a))) a)))) (vmax l)) (vmax a) =
  lse (map (fun xy => ladd (fst xy) (snd xy)) (combine a l)).
Proof.
  intros ZZ (z & Hz). assert (E1 : exists x y, In (Some x) l /\ In (Some y) a). { apply in_map_iff in Hz as ((u & v) & E & H). cbn [fst snd] in E. destruct u as [u|], v as [v|]; try discriminate. exists v, u. split; [eapply in_combine_r; eauto|eapply in_combine_l; eauto]. }
  destruct E1 as (x & y & Hx & Hy). destruct (vmax_some l x Hx) as (m & ->). destruct (vmax_some a y Hy) as (n & ->).
  set (J := map (fun xy => ladd (fst xy) (snd xy)) (combine a l)) in *.
  assert (ES : sumf (fun xy => fst xy * snd xy)%R (combine (map (fun x => expo (lsub x (Some m))) l) (map (fun x => expo (lsub x (Some n))) a)) = (sumf expo J * exp (- (m + n)))%R).
  { unfold J. clear Hz Hx Hy J. revert a ZZ. induction l as [|u l IH]; intros [|v a] ZZ; [cbn [map combine]; rewrite !sumf_nil; lra|exfalso; rewrite zlen_cons, zlen_nil in ZZ; pose proof (zlen_nonneg a); lia|exfalso; rewrite zlen_cons, zlen_nil in ZZ; pose proof (zlen_nonneg l); lia|].
    rewrite !zlen_cons in ZZ. cbn [map combine]. rewrite !sumf_cons, (IH a ltac:(lia)). cbn [fst snd]. rewrite expo_ladd. replace (exp (- (m + n))) with (exp (- m) * exp (- n))%R by (rewrite <- exp_plus; f_equal; lra).
    destruct u as [u|], v as [v|]; cbn [lsub expo]; unfold Rminus; rewrite ?exp_plus; ring. }
  rewrite ES. assert (P : (0 < sumf expo J)%R). { pose proof (expo_lsub_lse (Some 0%R) J (ex_intro _ z Hz)) as X. apply Rlt_le_trans with (expo (Some z)); [apply exp_pos|]. clear - Hz. induction J as [|j J IH]; [destruct Hz|]. rewrite sumf_cons. pose proof (expo_nonneg j). pose proof (sumf_nonneg expo J expo_nonneg). destruct Hz as [->|Hz]; [lra|]. specialize (IH Hz). lra. }
  unfold lse, llog. destruct (Rlt_dec 0 (sumf expo J)) as [_|N]; [|contradiction]. destruct (Rlt_dec 0 (sumf expo J * exp (- (m + n)))) as [_|N]; [|exfalso; apply N, Rmult_lt_0_compat; [exact P|apply exp_pos]].
  cbn [ladd]. f_equal. rewrite ln_mult, ln_exp by (auto; apply exp_pos). lra.
Qed.

Lemma simple_row k S T C lm am L y term te : 0 <= S -> 0 <= T -> shape2 (S + 1) C lm = true -> shape2 T C am = true -> shape3 T (S + 1) C L = true -> add_joiner T (S + 1) lm am L ->
  (forall t s l, rd2 L t s = Some l -> exists x, In (Some x) l) -> zlen y = S -> Forall (fun c => 0 <= c < C) y -> 0 <= term < C ->
  match te with None => True | Some t => 0 <= t <= T end ->
  logprobs_simple_row k S T lm am y term te = Some (tab2 S (cols k T) (fin_px k te T (jX L y) (jY L term)), tab2 (S + 1) T (jY L term)).
Proof.
  intros HS HT SLM SAM SL (_ & _ & AJ) FI Zy SC TC TE.
  set (la := fun s => match rd lm s with Some l => l | None => [] end). set (aa := fun t => match rd am t with Some l => l | None => [] end).
  destruct (shape2_ok _ _ _ SLM) as (ZLM & _). destruct (shape2_ok _ _ _ SAM) as (ZAM & _).
  assert (LA : forall s, 0 <= s <= S -> rd lm s = Some (la s) /\ zlen (la s) = C). { intros s Hs. unfold la. destruct (rd_in_bound lm s ltac:(lia)) as (l & Hl). rewrite Hl. split; auto. exact (shape2_row _ _ _ _ _ SLM Hl). }
  assert (AA : forall t, 0 <= t < T -> rd am t = Some (aa t) /\ zlen (aa t) = C). { intros s Hs. unfold aa. destruct (rd_in_bound am s ltac:(lia)) as (l & Hl). rewrite Hl. split; auto. exact (shape2_row _ _ _ _ _ SAM Hl). }
  assert (JR : forall s t, 0 <= s <= S -> 0 <= t < T -> jrow L t s = map (fun xy => ladd (fst xy) (snd xy)) (combine (aa t) (la s)) /\ exists x, In (Some x) (jrow L t s)).
  { intros s t Hs Ht. pose proof (AJ t s _ _ (proj1 (AA t Ht)) (proj1 (LA s Hs))) as E. unfold jrow. rewrite E. split; [reflexivity|]. exact (FI t s _ E). }
  assert (JV : forall s t c, 0 <= s <= S -> 0 <= t < T -> 0 <= c < C -> exists u v, rd (aa t) c = Some u /\ rd (la s) c = Some v /\ jval L t s c = ladd u v).
  { intros s t c Hs Ht Hc. destruct (LA s Hs) as (_ & Z1). destruct (AA t Ht) as (_ & Z2). destruct (rd_in_bound (aa t) c ltac:(lia)) as (u & Hu). destruct (rd_in_bound (la s) c ltac:(lia)) as (v & Hv). exists u, v. split; auto. split; auto.
    unfold jval. rewrite (proj1 (JR s t Hs Ht)), rd_map, OpsProofs.rd_combine, Hu, Hv. reflexivity. }
  assert (NO : forall s t, 0 <= s <= S -> 0 <= t < T -> ladd (ladd (llog (sumf (fun xy => fst xy * snd xy)%R (combine (map (fun x => expo (lsub x (vmax (la s)))) (la s)) (map (fun x => expo (lsub x (vmax (aa t)))) (aa t))))) (vmax (la s))) (vmax (aa t)) = lse (jrow L t s)).
  { intros s t Hs Ht. destruct (JR s t Hs Ht) as (E & X). rewrite E in *. apply simple_norm; [|exact X]. destruct (LA s Hs) as (_ & ->). destruct (AA t Ht) as (_ & ->). reflexivity. }
  unfold logprobs_simple_row. cbv zeta.
  rewrite (tabM_fun T _ (fun t => map (fun x => expo (lsub x (vmax (aa t)))) (aa t))) by (intros t Ht; rewrite rd_map, (proj1 (AA t Ht)); reflexivity).
  rewrite (tabM_fun (S + 1) _ (fun s => map (fun x => expo (lsub x (vmax (la s)))) (la s))) by (intros s Hs; rewrite rd_map, (proj1 (LA s ltac:(lia))); reflexivity).
  rewrite (tabM2_fun (S + 1) T _ (fun s t => lse (jrow L t s))).
  2:{ intros s t Hs Ht. rewrite !rd_tab by lia. rewrite !rd_map, (proj1 (LA s ltac:(lia))), (proj1 (AA t Ht)). cbn [option_map]. f_equal. apply NO; lia. }
  set (av := fun s t => match rd (aa t) (jsym y s) with Some u => u | None => None end). set (lv := fun s => match rd (la s) (jsym y s) with Some u => u | None => None end).
  rewrite (tabM2_fun S T _ av).
  2:{ intros s t Hs Ht. destruct (jsym_at y S C s Zy SC Hs) as (-> & By). rewrite (proj1 (AA t Ht)). destruct (JV s t (jsym y s) ltac:(lia) Ht By) as (u & v & Hu & Hv & _). unfold av. now rewrite Hu. }
  rewrite (tabM_fun S _ lv).
  2:{ intros s Hs. destruct (jsym_at y S C s Zy SC Hs) as (-> & By). destruct (LA s ltac:(lia)) as (-> & Zl). unfold lv. destruct (rd_in_bound (la s) (jsym y s) ltac:(lia)) as (u & ->). reflexivity. }
  assert (E : match k with Regular => map (fun row => row ++ [lninf]) (tab2 S T av) | _ => tab2 S T av end = tab2 S (cols k T) (fun s t => if t =? T then match k with Regular => lninf | _ => av s t end else av s t)).
  { destruct k; [rewrite lapp_tab2 by auto; reflexivity| |]; cbn [cols]; apply tab_ext; intros s Hs; apply tab_ext; intros t Ht; rewrite (proj2 (Z.eqb_neq t T) ltac:(lia)); reflexivity. }
  rewrite E. change (match k with Regular => T + 1 | _ => T end) with (cols k T).
  rewrite (tabM2_fun S (cols k T) _ (fun s t => match k with Regular => if t =? T then lninf else jX L y s t | _ => jX L y s t end)).
  2:{ intros s t Hs Ht. rewrite rd2_tab by lia. rewrite rd_tab by lia. destruct (t <? T) eqn:Et.
      - rewrite rd2_tab by lia. replace (t =? T) with false by lia. destruct (jsym_at y S C s Zy SC Hs) as (_ & By). destruct (JV s t (jsym y s) ltac:(lia) ltac:(lia) By) as (u & v & Hu & Hv & Ev). assert (EX : lsub (ladd (av s t) (lv s)) (lse (jrow L t s)) = jX L y s t) by (unfold jX, av, lv; now rewrite Hu, Hv, Ev). rewrite EX. destruct k; reflexivity.
      - assert (k = Regular /\ t = T) as (-> & ->) by (destruct k; cbn [cols] in Ht; [split; [reflexivity|lia]|exfalso; lia|exfalso; lia]). rewrite Z.eqb_refl. reflexivity. }
  rewrite (tabM2_fun (S + 1) T _ (jY L term)).
  2:{ intros s t Hs Ht. rewrite (proj1 (AA t Ht)), (proj1 (LA s ltac:(lia))). destruct (JV s t term ltac:(lia) Ht TC) as (u & v & -> & -> & Ev). rewrite rd2_tab by lia. unfold jY. now rewrite Ev. }
  apply lfinish_eq; auto.
Qed.

(** ** rnnt_loss_pruned *)
Lemma masked_pw k pen te S T rg p f l : masked lninf k S T rg p f -> forall c, 0 <= fst c -> 0 <= snd c ->
  fst (walk (negb (is_reg k)) c l) <= S -> snd (walk (negb (is_reg k)) c l) <= T ->
  pw k pen te (fst p) (snd p) c l = if stays k rg c l then pw k pen te (fst f) (snd f) c l else 0%R.
Proof.
  intros (_ & _ & MX & MY). induction l as [|x l IH]; intros (s, t) H1 H2 H3 H4; [reflexivity|].
  rewrite walk_cons in H3, H4. cbn [pw stays]. cbn [fst snd] in *.
  pose proof (walk_eq (negb (is_reg k)) l (move (negb (is_reg k)) (s, t) x)) as WE. pose proof (nT_nonneg l). pose proof (nF_nonneg l).
  assert (M0 : 0 <= fst (move (negb (is_reg k)) (s, t) x) /\ 0 <= snd (move (negb (is_reg k)) (s, t) x)).
  { destruct x, k; cbn [is_reg negb move fst snd]; lia. }
  rewrite (IH (move (negb (is_reg k)) (s, t) x)) by (auto; lia).
  assert (MV : fst (move (negb (is_reg k)) (s, t) x) <= S /\ snd (move (negb (is_reg k)) (s, t) x) <= T).
  { rewrite WE in H3, H4. cbn [fst snd] in H3, H4. destruct (negb (is_reg k)); lia. }
  set (okb := keptb rg s t && match k with Constrained => if x then keptb rg (s + 1) t else true | _ => true end).
  assert (E : expo (edge (fst p) (snd p) (s, t) x) = if okb then expo (edge (fst f) (snd f) (s, t) x) else 0%R).
  { destruct x; cbn [edge].
    - destruct (MX s t) as (v & Ev & V1 & V2). { cbn [move fst snd] in MV. lia. } { destruct k; cbn [is_reg negb move fst snd] in MV; lia. }
      rewrite (rd2_entry _ _ _ _ Ev). destruct okb eqn:EO; unfold okb in EO.
      + apply andb_prop in EO as (E1 & E2). apply keptb_iff in E1.
        rewrite (rd2_entry (fst f) s t v); [reflexivity|]. apply V1. split; [exact E1|]. intros ->. now apply keptb_iff.
      + rewrite V2; [reflexivity|]. intros (K1 & K2). apply keptb_iff in K1. rewrite K1 in EO. cbn [andb] in EO. destruct k; try discriminate.
        specialize (K2 eq_refl). apply keptb_iff in K2. congruence.
    - destruct (MY s t) as (v & Ev & V1 & V2). { cbn [move fst snd] in MV. lia. } { cbn [move fst snd] in MV. lia. }
      rewrite (rd2_entry _ _ _ _ Ev).
      assert (okb = keptb rg s t) as -> by (unfold okb; destruct k; now rewrite andb_true_r).
      destruct (keptb rg s t) eqn:EO.
      + apply keptb_iff in EO. rewrite (rd2_entry (snd f) s t v); [reflexivity|]. auto.
      + rewrite V2; [reflexivity|]. intros K. apply keptb_iff in K. congruence. }
  rewrite E. destruct okb; cbn [andb]; [|lra]. destruct (stays k rg _ l); lra.
Qed.
