(** * C44: the pruned RNN-T log-probabilities. *)
From Coq Require Import ZArith List Lia Bool.
From Coq Require Import ZifyBool ZifyNat.
From Verif Require Import Base RaggedListProofs RaggedOpsProofs OpsModel RnntModel RnntSpec RnntProofs.
Import ListNotations.
Open Scope Z_scope.

Lemma tabM_fun {A} n (f : Z -> option A) (g : Z -> A) : (forall i, 0 <= i < n -> f i = Some (g i)) -> tabM n f = Some (tab n g).
Proof.
  intros H. unfold tabM, tab. apply mapM_Some_map. intros i Hi. apply in_zrange in Hi. auto.
Qed.
Lemma tabM2_fun {A} n m (f : Z -> Z -> option A) (g : Z -> Z -> A) :
  (forall i j, 0 <= i < n -> 0 <= j < m -> f i j = Some (g i j)) -> tabM2 n m f = Some (tab n (fun i => tab m (g i))).
Proof. intros H. unfold tabM2. apply tabM_fun. intros i Hi. apply tabM_fun. intros j Hj. auto. Qed.
Lemma rd2_tab {A} n m (g : Z -> Z -> A) i j : 0 <= i < n -> 0 <= j < m -> rd2 (tab n (fun i => tab m (g i))) i j = Some (g i j).
Proof. intros Hi Hj. unfold rd2. rewrite (rd_tab n (fun i => tab m (g i))) by auto. now rewrite rd_tab. Qed.

Lemma shape2_tab {A} n m (g : Z -> Z -> A) : 0 <= n -> 0 <= m -> shape2 n m (tab n (fun i => tab m (g i))) = true.
Proof.
  intros Hn Hm. unfold shape2. rewrite zlen_tab, Z.eqb_refl by auto. cbn [andb]. apply forallb_forall. intros x Hx.
  apply in_map_iff in Hx as (i & <- & _). unfold shape1. rewrite zlen_tab by auto. lia.
Qed.

Section P.
Context {V : Type} (ninf : V) (vadd vsub : V -> V -> V) (lse : list V -> V).
Variables (S T r C : Z) (term : Z) (symbols : list Z).
Variable L : list (list (list V)).          (* full logits, (T, S+1, C) *)
Variable P : list (list (list V)).          (* pruned logits, (T, r, C) *)
Variable rg : list (list Z).
Variable w : Z -> Z.
Hypothesis HS : 0 <= S.
Hypothesis HT : 0 <= T.
Hypothesis Hr : 1 <= r <= S + 1.
Hypothesis LS : forall t s, 0 <= t < T -> 0 <= s <= S -> exists l, rd2 L t s = Some l /\ zlen l = C.
Hypothesis PR : forall t j i, rd2 rg t j = Some i -> rd2 P t j = rd2 L t i.
Hypothesis RG : forall t, 0 <= t < T -> rd rg t = Some (map (fun j => w t + j) (zrange r)).
Hypothesis WR : forall t, 0 <= t < T -> 0 <= w t /\ w t + r - 1 <= S.
Hypothesis SY : zlen symbols = S.
Hypothesis SC : Forall (fun c => 0 <= c < C) symbols.
Hypothesis TC : 0 <= term < C.

Let row t s := match rd2 L t s with Some l => l | None => [] end.
Let val t s c := match rd (row t s) c with Some x => x | None => ninf end.
Let sym s := match rd (symbols ++ [term]) s with Some c => c | None => 0 end.
Let X s t := vsub (val t s (sym s)) (lse (row t s)).
Let Y s t := vsub (val t s term) (lse (row t s)).
Definition inwin (s t : Z) : bool := (w t <=? s) && (s <? w t + r).

Lemma row_at t s : 0 <= t < T -> 0 <= s <= S -> rd2 L t s = Some (row t s) /\ zlen (row t s) = C.
Proof. intros Ht Hs. unfold row. destruct (LS t s Ht Hs) as (l & -> & E). auto. Qed.
Lemma val_at t s c : 0 <= t < T -> 0 <= s <= S -> 0 <= c < C -> rd (row t s) c = Some (val t s c).
Proof. intros Ht Hs Hc. unfold val. destruct (row_at t s Ht Hs) as (_ & E). destruct (rd_in_bound (row t s) c) as (x & ->); [lia|reflexivity]. Qed.
Lemma sym_at s : 0 <= s <= S -> rd (symbols ++ [term]) s = Some (sym s) /\ 0 <= sym s < C.
Proof.
  intros Hs. unfold sym. destruct (rd_in_bound (symbols ++ [term]) s) as (c & E); [rewrite zlen_app; change (zlen [term]) with 1; lia|].
  rewrite E. split; auto. apply rd_In in E. rewrite Forall_forall in SC. apply in_app_iff in E as [E|[<-|[]]]; auto.
Qed.
Lemma sym_at' s : 0 <= s < S -> rd symbols s = Some (sym s).
Proof. intros Hs. destruct (sym_at s ltac:(lia)) as (E & _). rewrite rd_app_l in E by lia. exact E. Qed.

Lemma rg_at t j : 0 <= t < T -> 0 <= j < r -> rd2 rg t j = Some (w t + j).
Proof. intros Ht Hj. unfold rd2. rewrite (RG t Ht), rd_map, rd_zrange by lia. reflexivity. Qed.
Lemma P_at t j : 0 <= t < T -> 0 <= j < r -> rd2 P t j = Some (row t (w t + j)).
Proof. intros Ht Hj. rewrite (PR t j (w t + j)) by (apply rg_at; auto). apply row_at; auto. pose proof (WR t Ht). lia. Qed.

Lemma kept_iff s t : kept rg s t <-> (0 <= t < T /\ inwin s t = true) \/ (kept rg s t /\ ~ 0 <= t < T).
Proof.
  destruct (Z_le_gt_dec 0 t); [destruct (Z_lt_ge_dec t T)|]; [|split; intros; [right; split; [auto|lia]|intuition lia]..].
  split.
  - intros (rw & E & H). rewrite RG in E by lia. injection E as <-. apply in_map_iff in H as (j & <- & Hj). apply in_zrange in Hj.
    left. split; [lia|]. unfold inwin. lia.
  - intros [(_ & H)|(H & _)]; auto. unfold inwin in H. exists (map (fun j => w t + j) (zrange r)). split; [apply RG; lia|].
    apply in_map_iff. exists (s - w t). split; [lia|]. apply in_zrange. lia.
Qed.

Lemma rolled (g : Z -> Z -> V) :
  roll_by_shifts (S + 1) (map (fun rw => rw ++ repeat ninf (Z.to_nat (S + 1 - r))) (tab T (fun t => tab r (fun j => g t (w t + j)))))
     (tab T w) = Some (tab T (fun t => tab (S + 1) (fun i => if inwin i t then g t i else ninf))).
Proof.
  unfold roll_by_shifts. rewrite zlen_map, zlen_tab by auto. apply tabM_fun. intros t Ht.
  rewrite rd_map, (rd_tab T (fun t => tab r (fun j => g t (w t + j)))) by auto. cbn [option_map]. rewrite rd_tab by auto.
  apply tabM_fun. intros i Hi. pose proof (WR t Ht) as Wt. pose proof (zlen_tab r (fun j => g t (w t + j)) ltac:(lia)) as LT.
  unfold inwin. destruct ((w t <=? i) && (i <? w t + r)) eqn:E.
  - rewrite Z.mod_small by lia. rewrite rd_app_l by lia. rewrite rd_tab by lia. do 2 f_equal. lia.
  - destruct (Z_lt_ge_dec i (w t)).
    + replace (i - w t) with ((i - w t + (S + 1)) + (-1) * (S + 1)) by lia. rewrite Z_mod_plus_full, Z.mod_small by lia.
      rewrite rd_app_r by lia. rewrite rd_repeat by lia. reflexivity.
    + rewrite Z.mod_small by lia. rewrite rd_app_r by lia. rewrite rd_repeat by lia. reflexivity.
Qed.

(** px before the final adjustments *)
Let px0 (k : rnnt_type) (g : Z -> Z -> V) : list (list V) :=
  match k with Regular => map (fun rw => rw ++ [ninf]) (tab S (fun s => tab T (g s))) | _ => tab S (fun s => tab T (g s)) end.

Lemma pruned_eq k te :
  logprobs_pruned_row ninf vadd vsub lse k S T r P symbols rg term te =
  finish ninf vadd k te S T (px0 k (fun s t => if inwin s t then X s t else ninf))
    (tab (S + 1) (fun s => tab T (fun t => if inwin s t then Y s t else ninf))).
Proof.
  unfold logprobs_pruned_row.
  rewrite (tabM2_fun T r _ (fun t j => lse (row t (w t + j)))) by (intros t j Ht Hj; now rewrite P_at).
  rewrite (tabM2_fun T r (fun t j => i <- rd2 rg t j;; rd (symbols ++ [term]) i) (fun t j => sym (w t + j))).
  2:{ intros t j Ht Hj. rewrite rg_at by auto. apply sym_at. pose proof (WR t Ht). lia. }
  rewrite (tabM_fun T _ w) by (intros t Ht; rewrite rg_at by lia; f_equal; lia).
  rewrite (tabM2_fun T r _ (fun t j => X (w t + j) t)).
  2:{ intros t j Ht Hj. pose proof (WR t Ht). rewrite rd2_tab by auto. rewrite P_at by auto.
      rewrite val_at by (try apply sym_at; lia). rewrite rd2_tab by auto. reflexivity. }
  replace (0 <=? S + 1 - r) with true by lia.
  rewrite (rolled (fun t s => X s t)).
  rewrite (tabM2_fun S T _ (fun s t => if inwin s t then X s t else ninf)).
  2:{ intros s t Hs Ht. rewrite rd2_tab by lia. reflexivity. }
  rewrite (tabM2_fun T r _ (fun t j => Y (w t + j) t)).
  2:{ intros t j Ht Hj. pose proof (WR t Ht). rewrite P_at by auto. rewrite val_at by lia. rewrite rd2_tab by auto. reflexivity. }
  rewrite (rolled (fun t s => Y s t)).
  rewrite (tabM2_fun (S + 1) T _ (fun s t => if inwin s t then Y s t else ninf)).
  2:{ intros s t Hs Ht. rewrite rd2_tab by lia. reflexivity. }
  reflexivity.
Qed.

Lemma joint_eq k te :
  logprobs_joint_row ninf vadd vsub lse k S T L symbols term te =
  finish ninf vadd k te S T (px0 k X) (tab (S + 1) (fun s => tab T (Y s))).
Proof.
  unfold logprobs_joint_row.
  rewrite (tabM2_fun T (S + 1) _ (fun t s => lse (row t s))).
  2:{ intros t s Ht Hs. destruct (row_at t s Ht ltac:(lia)) as (-> & _). reflexivity. }
  rewrite (tabM2_fun S T _ X).
  2:{ intros s t Hs Ht. rewrite sym_at' by auto. destruct (row_at t s Ht ltac:(lia)) as (-> & _).
      rewrite val_at by (try apply sym_at; lia). rewrite rd2_tab by lia. reflexivity. }
  rewrite (tabM2_fun (S + 1) T _ Y).
  2:{ intros s t Hs Ht. destruct (row_at t s Ht ltac:(lia)) as (-> & _).
      rewrite val_at by lia. rewrite rd2_tab by lia. reflexivity. }
  reflexivity.
Qed.

Variable te : option Z.
Hypothesis TE : match te with None => True | Some t => 0 <= t <= T end.

(** The final px: entry (s, t) given the value function [g] *)
Let fin_px (k : rnnt_type) (g h : Z -> Z -> V) (s t : Z) : V :=
  match k with
  | Regular => match te with
               | Some e => if t =? e then ninf else if t =? T then ninf else g s t
               | None => if t =? T then ninf else g s t
               end
  | Modified => g s t
  | Constrained => vadd (g s t) (h (s + 1) t)
  end.
Let cols k := match k with Regular => T + 1 | _ => T end.

Lemma wr_tab {A} n (g : Z -> A) e v : 0 <= e < n -> wr (tab n g) e v = Some (tab n (fun t => if t =? e then v else g t)).
Proof.
  intros He. destruct (wr_Some (tab n g) e v) as (l & E & L1 & L2); [rewrite zlen_tab; lia|]. rewrite E. f_equal.
  rewrite zlen_tab in L1 by lia. apply list_ext_rd; [rewrite zlen_tab; lia|].
  intros i Hi. rewrite L2. rewrite !rd_tab by lia. destruct (i =? e); reflexivity.
Qed.

Lemma app_tab (g : Z -> V) : tab T g ++ [ninf] = tab (T + 1) (fun t => if t =? T then ninf else g t).
Proof.
  apply list_ext_rd; [rewrite zlen_app, !zlen_tab by lia; reflexivity|]. rewrite zlen_app, zlen_tab by lia. change (zlen [ninf]) with 1.
  intros i Hi. rewrite rd_tab by lia. destruct (i =? T) eqn:E.
  - rewrite rd_app_r by (rewrite zlen_tab; lia). rewrite zlen_tab by lia. replace (i - T) with 0 by lia. reflexivity.
  - rewrite rd_app_l by (rewrite zlen_tab; lia). now rewrite rd_tab by lia.
Qed.

Lemma finish_eq k g h : finish ninf vadd k te S T (px0 k g) (tab (S + 1) (fun s => tab T (h s))) =
  Some (tab S (fun s => tab (cols k) (fin_px k g h s)), tab (S + 1) (fun s => tab T (h s))).
Proof.
  destruct k; cbn [finish px0 fin_px cols].
  - assert (E0 : map (fun rw => rw ++ [ninf]) (tab S (fun s => tab T (g s))) =
                 tab S (fun s => tab (T + 1) (fun t => if t =? T then ninf else g s t))).
    { rewrite map_tab. apply tab_ext. intros s Hs. apply app_tab. }
    rewrite E0. unfold fix_for_boundary. destruct te as [e|]; [|reflexivity].
    assert (E1 : mapM (fun row0 => wr row0 e ninf) (tab S (fun s => tab (T + 1) (fun t => if t =? T then ninf else g s t))) =
      Some (tab S (fun s => tab (T + 1) (fun t => if t =? e then ninf else if t =? T then ninf else g s t)))).
    { unfold tab at 1. rewrite mapM_map. apply mapM_Some_map. intros s Hs. apply wr_tab. lia. }
    rewrite E1. reflexivity.
  - reflexivity.
  - rewrite (tabM2_fun S T _ (fun s t => vadd (g s t) (h (s + 1) t))); [reflexivity|].
    intros s t Hs Ht. rewrite !rd2_tab by lia. reflexivity.
Qed.

Lemma kept_none s t : zlen rg = T -> ~ 0 <= t < T -> ~ kept rg s t.
Proof. intros Z0 Ht (rw & E & _). apply rd_Some_bound in E. lia. Qed.

Lemma pruned_vs_joint k : zlen rg = T ->
  (k = Constrained -> forall x, vadd ninf x = ninf /\ vadd x ninf = ninf) ->
  exists px py pxf pyf,
    logprobs_pruned_row ninf vadd vsub lse k S T r P symbols rg term te = Some (px, py) /\
    logprobs_joint_row ninf vadd vsub lse k S T L symbols term te = Some (pxf, pyf) /\
    shape2 S (cols k) px = true /\ shape2 (S + 1) T py = true /\
    (forall s t, 0 <= s < S -> 0 <= t < cols k ->
       (kept rg s t -> (k = Constrained -> kept rg (s + 1) t) -> rd2 px s t = rd2 pxf s t) /\
       (~ (kept rg s t /\ (k = Constrained -> kept rg (s + 1) t)) -> rd2 px s t = Some ninf) /\
       exists v, rd2 px s t = Some v) /\
    (forall s t, 0 <= s <= S -> 0 <= t < T ->
       (kept rg s t -> rd2 py s t = rd2 pyf s t) /\ (~ kept rg s t -> rd2 py s t = Some ninf) /\
       exists v, rd2 py s t = Some v).
Proof.
  intros ZR AB. rewrite pruned_eq, joint_eq, !finish_eq. eexists _, _, _, _. split; [reflexivity|]. split; [reflexivity|].
  assert (KW : forall s t, 0 <= t < T -> (kept rg s t <-> inwin s t = true)) by (intros s t Ht; rewrite kept_iff; intuition lia).
  split; [apply shape2_tab; auto; destruct k; cbn; lia|]. split; [apply shape2_tab; lia|].
  split.
  - intros s t Hs Ht. rewrite !rd2_tab by lia. cbn [fin_px]. split; [|split; [|eexists; reflexivity]].
    + intros K1 K2. f_equal. destruct (Z_lt_ge_dec t T) as [B|B]; [|exfalso; apply (kept_none s t ZR); [lia|exact K1]].
      apply KW in K1; [|lia]. destruct k; unfold fin_px; rewrite K1; auto.
      specialize (K2 eq_refl). apply KW in K2; [|lia]. now rewrite K2.
    + intros K. f_equal. destruct k; unfold fin_px, cols in *.
      * replace (t =? T) with (negb (t <? T)) by lia. destruct (t <? T) eqn:E; cbn [negb]; [|now destruct te as [e|]; [destruct (t =? e)|]].
        assert (inwin s t = false) as ->. { destruct (inwin s t) eqn:E1; auto. exfalso. apply K. split; [apply KW; [lia|auto]|congruence]. }
        destruct te as [e|]; [destruct (t =? e)|]; reflexivity.
      * assert (inwin s t = false) as ->; [|reflexivity]. destruct (inwin s t) eqn:E1; auto. exfalso. apply K. split; [apply KW; [lia|auto]|congruence].
      * destruct (inwin s t) eqn:E1; [|apply AB; auto]. destruct (inwin (s + 1) t) eqn:E2; [|apply AB; auto].
        exfalso. apply K. split; [apply KW; auto|intros _; apply KW; auto].
  - intros s t Hs Ht. rewrite !rd2_tab by lia. split; [|split; [|eexists; reflexivity]].
    + intros K. apply KW in K; auto. now rewrite K.
    + intros K. destruct (inwin s t) eqn:E; [|reflexivity]. exfalso. apply K, KW; auto.
Qed.
End P.

(** Consequence: the pruned joiner input [logits] holds the rows of the full
    one selected by [ranges]. *)
Definition gathered {D} (ranges : list (list (list Z))) (pruned full : list (list (list D))) : Prop :=
  forall b t j i, rd3 ranges b t j = Some i ->
    (p <- rd pruned b;; rd2 p t j) = (f <- rd full b;; rd2 f t i).

Lemma shape4_ok {A} n m k l (x : list (list (list (list A)))) : shape4 n m k l x = true ->
  zlen x = n /\ forall i y, rd x i = Some y -> shape3 m k l y = true.
Proof.
  unfold shape4. intros H. apply andb_prop in H as (H1 & H2). rewrite forallb_forall in H2. split; [lia|].
  intros i y Hy. apply H2. eapply rd_In; eauto.
Qed.
Lemma shape2_row {A} n m (x : list (list A)) i y : shape2 n m x = true -> rd x i = Some y -> zlen y = m.
Proof.
  unfold shape2. intros H Hy. apply andb_prop in H as (_ & H2). rewrite forallb_forall in H2. apply shape1_ok, H2. eapply rd_In; eauto.
Qed.

(** C44.  Whatever the arithmetic on log-probabilities is (in the constrained
    topology -inf must absorb additions): if every utterance's ranges are
    windows (C43 shows the ranges of get_rnnt_prune_ranges are) and the pruned
    logits are the full ones at the kept positions, then the pruned
    log-probabilities are the full ones inside the windows and -inf outside. *)
Theorem C44_pruned_logprobs : forall (V : Type) (ninf : V) vadd vsub lse k B T S r step C
    (full pruned : list (list (list (list V)))) symbols ranges term boundary,
  (k = Constrained -> forall x, vadd ninf x = ninf /\ vadd x ninf = ninf) ->
  0 <= B -> 0 <= T -> 0 <= S -> 1 <= r <= S + 1 ->
  shape4 B T (S + 1) C full = true -> shape4 B T r C pruned = true ->
  shape3 B T r ranges = true -> shape2 B S symbols = true ->
  Forall (windows S T r step) ranges -> gathered ranges pruned full ->
  Forall (Forall (fun c => 0 <= c < C)) symbols -> 0 <= term < C ->
  match boundary with
  | None => k <> Regular -> S <= T
  | Some bs => zlen bs = B /\ Forall (fun b => 0 <= b_T b <= T /\ (k <> Regular -> b_S b <= b_T b)) bs
  end ->
  exists lp lf,
    get_rnnt_logprobs_pruned ninf vadd vsub lse k B T r C S pruned symbols ranges term boundary = Some lp /\
    get_rnnt_logprobs_joint ninf vadd vsub lse k B T (S + 1) C full symbols term boundary = Some lf /\
    zlen lp = B /\ zlen lf = B /\
    forall b rg p f, rd ranges b = Some rg -> rd lp b = Some p -> rd lf b = Some f -> masked ninf k S T rg p f.
Proof.
  intros V ninf vadd vsub lse k B T S r step C full pruned symbols ranges term boundary AB HB HT HS Hr SF SP SR SS WD GA SC TC BD.
  unfold get_rnnt_logprobs_pruned, get_rnnt_logprobs_joint. cbv zeta. replace (S + 1 - 1) with S by lia.
  rewrite SF, SP, SR, SS. cbn [andb].
  assert (EV : validate_st_lengths S T (is_reg k) boundary = Some tt).
  { unfold validate_st_lengths. replace (0 <=? S) with true by lia. destruct boundary as [bs|].
    - destruct BD as (_ & BF). rewrite Forall_forall in BF.
      replace (is_reg k || forallb (fun b => b_S b <=? b_T b) bs) with true; [reflexivity|]. symmetry. destruct k; [reflexivity| |];
      cbn [is_reg orb]; apply forallb_forall; intros b Hb; destruct (BF b Hb) as (_ & H); specialize (H ltac:(discriminate)); lia.
    - replace (is_reg k || (S <=? T)) with true; [reflexivity|]. symmetry. destruct k; [reflexivity| |];
      cbn [is_reg orb]; specialize (BD ltac:(discriminate)); lia. }
  rewrite EV.
  destruct (shape4_ok _ _ _ _ _ SF) as (F1 & F2). destruct (shape4_ok _ _ _ _ _ SP) as (P1 & P2).
  destruct (shape3_ok _ _ _ _ SR) as (R1 & R2). pose proof (proj1 (shape2_ok _ _ _ SS)) as S1. rewrite Forall_forall in WD, SC.
  assert (ROW : forall b, 0 <= b < B -> exists fl pl y rg te p f,
     rd full b = Some fl /\ rd pruned b = Some pl /\ rd symbols b = Some y /\ rd ranges b = Some rg /\ t_end boundary b = Some te /\
     logprobs_pruned_row ninf vadd vsub lse k S T r pl y rg term te = Some p /\
     logprobs_joint_row ninf vadd vsub lse k S T fl y term te = Some f /\ masked ninf k S T rg p f).
  { intros b Hb. destruct (rd_in_bound full b) as (fl & Hfl); [lia|]. destruct (rd_in_bound pruned b) as (pl & Hpl); [lia|].
    destruct (rd_in_bound symbols b) as (y & Hy); [lia|]. destruct (rd_in_bound ranges b) as (rg & Hrg); [lia|].
    assert (TE : exists te, t_end boundary b = Some te /\ match te with None => True | Some t => 0 <= t <= T end).
    { unfold t_end. destruct boundary as [bs|]; [|now exists None]. destruct BD as (BL & BF). rewrite Forall_forall in BF.
      destruct (rd_in_bound bs b) as (x & Hx); [lia|]. rewrite Hx. eexists. split; [reflexivity|]. apply (BF x (rd_In _ _ _ Hx)). }
    destruct TE as (te & Hte & TE). destruct (WD rg (rd_In _ _ _ Hrg)) as (w & W1 & W2 & W3 & _).
    destruct (pruned_vs_joint ninf vadd vsub lse S T r C term y fl pl rg w) with (te := te) (k := k)
      as (px & py & pxf & pyf & E1 & E2 & E5 & E6 & E3 & E4); auto.
    - intros t s Ht Hs. specialize (F2 b fl Hfl). destruct (shape3_ok _ _ _ _ F2) as (L1 & L2).
      destruct (rd_in_bound fl t) as (rw & Hrw); [lia|]. specialize (L2 t rw Hrw). destruct (shape2_ok _ _ _ L2) as (M1 & _).
      destruct (rd_in_bound rw s) as (l & Hl); [lia|]. exists l. unfold rd2. rewrite Hrw. split; [exact Hl|]. eapply shape2_row; eauto.
    - intros t j i Hi. specialize (GA b t j i). unfold rd3 in GA. rewrite Hrg, Hpl, Hfl in GA. auto.
    - eapply shape2_row; eauto.
    - apply SC. eapply rd_In; eauto.
    - exists fl, pl, y, rg, te, (px, py), (pxf, pyf). do 7 (split; [assumption|]). split; cbn [fst snd]; [exact E5|]. split; [exact E6|]. split.
      + intros s t Hs Ht. destruct (E3 s t Hs Ht) as (A1 & A2 & v & Hv). exists v. split; [exact Hv|]. split.
        * intros (K1 & K2). rewrite <- A1; auto.
        * intros K. specialize (A2 K). congruence.
      + intros s t Hs Ht. destruct (E4 s t Hs Ht) as (A1 & A2 & v & Hv). exists v. split; [exact Hv|]. split.
        * intros K1. rewrite <- A1; auto.
        * intros K. specialize (A2 K). congruence. }
  match goal with |- context [tabM B ?f = Some _ /\ tabM B ?g = Some _ /\ _] => set (FP := f); set (FJ := g) end.
  destruct (tabM_all B FP) as (lp & EP & LP & QP); [lia| |].
  { intros b Hb. destruct (ROW b Hb) as (fl & pl & y & rg & te & p & f & A1 & A2 & A3 & A4 & A5 & A6 & A7 & A8).
    exists p. unfold FP. now rewrite A2, A3, A4, A5. }
  destruct (tabM_all B FJ) as (lf & EJ & LJ & QJ); [lia| |].
  { intros b Hb. destruct (ROW b Hb) as (fl & pl & y & rg & te & p & f & A1 & A2 & A3 & A4 & A5 & A6 & A7 & A8).
    exists f. unfold FJ. now rewrite A1, A3, A5. }
  exists lp, lf. do 4 (split; [assumption|]). intros b rg p f Hrg Hp Hf.
  pose proof (rd_Some_bound _ _ _ Hp) as Bb. rewrite LP in Bb.
  destruct (ROW b Bb) as (fl & pl & y & rg' & te & p' & f' & A1 & A2 & A3 & A4 & A5 & A6 & A7 & A8).
  apply QP in Hp. apply QJ in Hf. unfold FP in Hp. unfold FJ in Hf. rewrite A2, A3, A4, A5 in Hp. rewrite A1, A3, A5 in Hf.
  assert (rg' = rg) by congruence. assert (p' = p) by congruence. assert (f' = f) by congruence. subst. exact A8.
Qed.
Print Assumptions C44_pruned_logprobs.

(** do_rnnt_pruning selects these rows: entry (b, t, j) of the pruned outputs is
    frame t of the encoder and position ranges[b][t][j] of the decoder, so
    that whatever the joiner computes position by position is gathered. *)
Theorem C44_do_rnnt_pruning : forall (D : Type) B T S r step (am lm : list (list (list D))) ranges da dl,
  0 <= B -> 0 <= T -> 0 <= S -> 1 <= r ->
  shape3 B T da am = true -> shape3 B (S + 1) dl lm = true -> shape3 B T r ranges = true ->
  Forall (windows S T r step) ranges ->
  exists ap lpn, do_rnnt_pruning B T (S + 1) r am lm ranges = Some (ap, lpn) /\
    zlen ap = B /\ zlen lpn = B /\
    forall b t j, 0 <= b < B -> 0 <= t < T -> 0 <= j < r ->
      exists i xa xl, rd3 ranges b t j = Some i /\ rd2 am b t = Some xa /\ rd2 lm b i = Some xl /\
                      rd3 ap b t j = Some xa /\ rd3 lpn b t j = Some xl.
Proof.
  intros D B T S r step am lm ranges da dl HB HT HS Hr SA SL SR WD. unfold do_rnnt_pruning.
  destruct (shape3_ok _ _ _ _ SA) as (A1 & A2). destruct (shape3_ok _ _ _ _ SL) as (L1 & L2). destruct (shape3_ok _ _ _ _ SR) as (R1 & R2).
  rewrite A1, L1, R1, Z.eqb_refl, SR. cbn [andb]. rewrite Forall_forall in WD.
  assert (AT : forall b t j, 0 <= b < B -> 0 <= t < T -> 0 <= j < r ->
      exists i xa xl, rd3 ranges b t j = Some i /\ rd2 am b t = Some xa /\ rd2 lm b i = Some xl).
  { intros b t j Hb Ht Hj. destruct (rd_in_bound ranges b) as (rg & Hrg); [lia|]. destruct (rd_in_bound am b) as (a & Ha); [lia|].
    destruct (rd_in_bound lm b) as (l & Hl); [lia|]. destruct (WD rg (rd_In _ _ _ Hrg)) as (w & W1 & W2 & W3 & _).
    pose proof (W3 t Ht). pose proof (proj1 (shape2_ok _ _ _ (A2 b a Ha))). pose proof (proj1 (shape2_ok _ _ _ (L2 b l Hl))).
    destruct (rd_in_bound a t) as (xa & Hxa); [lia|]. destruct (rd_in_bound l (w t + j)) as (xl & Hxl); [lia|].
    exists (w t + j), xa, xl. unfold rd3, rd2. rewrite Hrg, Ha, Hl, (W2 t Ht), rd_map, rd_zrange by lia. auto. }
  set (dv := fun (o : option (list D)) => match o with Some x => x | None => [] end).
  assert (EA : forall b, 0 <= b < B -> tabM2 T r (fun t _ => rd2 am b t) = Some (tab T (fun t => tab r (fun j => dv (rd2 am b t))))).
  { intros b Hb. apply (tabM2_fun T r (fun t _ => rd2 am b t) (fun t _ => dv (rd2 am b t))). intros t j Ht Hj.
    destruct (AT b t j Hb Ht Hj) as (i & xa & xl & E1 & E2 & E3). now rewrite E2. }
  assert (EL : forall b, 0 <= b < B -> tabM2 T r (fun t j => i <- rd3 ranges b t j;; rd2 lm b i) =
     Some (tab T (fun t => tab r (fun j => dv (i <- rd3 ranges b t j;; rd2 lm b i))))).
  { intros b Hb. apply (tabM2_fun T r _ (fun t j => dv (i <- rd3 ranges b t j;; rd2 lm b i))). intros t j Ht Hj.
    destruct (AT b t j Hb Ht Hj) as (i & xa & xl & E1 & E2 & E3). rewrite E1, E3. reflexivity. }
  rewrite (tabM_fun B _ _ EA), (tabM_fun B _ _ EL). eexists _, _. split; [reflexivity|].
  split; [now rewrite zlen_tab|]. split; [now rewrite zlen_tab|].
  intros b t j Hb Ht Hj. destruct (AT b t j Hb Ht Hj) as (i & xa & xl & E1 & E2 & E3). exists i, xa, xl.
  unfold rd3 in E1 |- *. destruct (rd ranges b) as [rg|] eqn:Hrg; [|discriminate].
  do 3 (split; [assumption|]).
  rewrite (rd_tab B (fun b => tab T (fun t => tab r (fun j => dv (rd2 am b t))))) by auto.
  rewrite (rd_tab B (fun b => tab T (fun t => tab r (fun j => dv (i <- rd3 ranges b t j;; rd2 lm b i))))) by auto.
  rewrite (rd2_tab T r (fun t j => dv (rd2 am b t))) by auto. rewrite (rd2_tab T r (fun t j => dv (i <- rd3 ranges b t j;; rd2 lm b i))) by auto.
  unfold rd3. rewrite Hrg, E1, E2, E3. auto.
Qed.
Print Assumptions C44_do_rnnt_pruning.

(** Instance: S = 2, T = 2, windows of 2 positions moving by one; a vocabulary
    of two symbols and integers as log-probabilities (-inf := -1000). *)
Example C44_ex : exists full pruned ranges,
  shape4 1 2 3 2 full = true /\ shape4 1 2 2 2 pruned = true /\ shape3 1 2 2 ranges = true /\
  Forall (windows 2 2 2 1) ranges /\ gathered ranges pruned full /\
  get_rnnt_logprobs_pruned (-1000) Z.add Z.sub zsum Regular 1 2 2 2 2 pruned [[1; 1]] ranges 0 (Some [(0, 0, 2, 2)]) =
    Some [([[-1; -1000; -1000]; [-3; -9; -1000]], [[-2; -1000]; [-4; -10]; [-1000; -12]])] /\
  get_rnnt_logprobs_joint (-1000) Z.add Z.sub zsum Regular 1 2 3 2 full [[1; 1]] 0 (Some [(0, 0, 2, 2)]) =
    Some [([[-1; -7; -1000]; [-3; -9; -1000]], [[-2; -8]; [-4; -10]; [-6; -12]])].
Proof.
  exists [[[[1; 2]; [3; 4]; [5; 6]]; [[7; 8]; [9; 10]; [11; 12]]]], [[[[1; 2]; [3; 4]]; [[9; 10]; [11; 12]]]], [[[0; 1]; [1; 2]]].
  do 3 (split; [reflexivity|]). split; [|split; [|split; reflexivity]].
  - constructor; [|constructor]. exists (fun t => t). split; [reflexivity|]. split; [|split; [|split]]; [|intros; lia|reflexivity|intros; lia].
    intros t Ht. assert (t = 0 \/ t = 1) as [-> | ->] by lia; reflexivity.
  - intros b t j i H. pose proof H as H0. unfold rd3, rd2 in H.
    destruct (rd [[[0; 1]; [1; 2]]] b) as [x|] eqn:Eb; [|discriminate]. pose proof (rd_Some_bound _ _ _ Eb) as Bb.
    change (zlen [[[0; 1]; [1; 2]]]) with 1 in Bb. assert (b = 0) as -> by lia. injection Eb as <-.
    destruct (rd [[0; 1]; [1; 2]] t) as [y|] eqn:Et; [|discriminate]. pose proof (rd_Some_bound _ _ _ Et) as Bt.
    change (zlen [[0; 1]; [1; 2]]) with 2 in Bt.
    assert (t = 0 \/ t = 1) as [-> | ->] by lia; injection Et as <-; pose proof (rd_Some_bound _ _ _ H) as Bj;
      [change (zlen [0; 1]) with 2 in Bj|change (zlen [1; 2]) with 2 in Bj];
      assert (j = 0 \/ j = 1) as [-> | ->] by lia; injection H as <-; reflexivity.
Qed.
