(** * Proofs: the loops over batches compute a function defined by recursion
      over the arcs. *)
From Coq Require Import ZArith List Lia Bool Reals Permutation.
From Coq Require Import ZifyBool ZifyNat.
From Verif Require Import Base RaggedModel RaggedSpec RaggedProofs FsaSpec FsaLemmas EpsLoopProofs RaggedOpsModel RaggedOpsSpec RaggedOpsProofs RaggedCatProofs
  GraphProofs PropsProps ReverseModel ReverseProofs ConnectProofs LogReal BatchModel TransposeProofs ScoreModel.
Import ListNotations.
Open Scope Z_scope.

Lemma foldB_app {S} (f : S -> Z -> option S) l1 l2 s : foldB f (l1 ++ l2) s = (s' <- foldB f l1 s;; foldB f l2 s').
Proof. revert s. induction l1 as [|x l1 IH]; intros s; auto. cbn [app foldB]. destruct (f s x); auto. Qed.

Section Pass.
Variables (N : Z) (B : list (list (list Z))) (g : Z -> list Z) (red : list (option R) -> list Z -> option R * Z) (ord : Z -> list Z).
Variables (other : Z -> option Z) (keep : Z -> option bool) (ot : Z -> Z) (kp : Z -> bool) (scores : list (option R)) (w : Z -> option R).
Let states := concat (concat B).
Hypothesis N0 : 0 <= N.
Hypothesis SR : forall s, In s states -> 0 <= s < N.
Hypothesis FO : fair ord.
Hypothesis HK : forall s, 0 <= s < N -> keep s = Some (kp s).
Hypothesis HO : forall s q, 0 <= s < N -> In q (g s) -> other q = Some (ot q) /\ 0 <= ot q < N /\ rd scores q = Some (w q).
Let L := map g states.
Definition row_states (m : Z) : list Z := concat (pick B m).

Lemma batch_pos m row : rd B m = Some row ->
  rd (splits_of B) m = Some (off1 B m) /\ rd (splits_of B) (m + 1) = Some (off1 B m + zlen row) /\
  rd (splits_of (concat B)) (off1 B m) = Some (off1 (map (@concat Z) B) m) /\
  rd (splits_of (concat B)) (off1 B m + zlen row) = Some (off1 (map (@concat Z) B) m + zlen (concat row)) /\
  (forall x, 0 <= x < zlen (concat row) -> rd states (off1 (map (@concat Z) B) m + x) = rd (concat row) x).
Proof.
  intros H. pose proof (rd_Some_bound _ _ _ H) as Bm. pose proof (zlen_nonneg row). pose proof (off1_nonneg B m). pose proof (off1_next B m row H) as ON. pose proof (off1_bound B (m + 1)).
  assert (RB : forall i, 0 <= i <= zlen B -> rd (splits_of B) i = Some (off1 B i)) by (intros; now apply rd_splits_off).
  assert (RC : forall i, 0 <= i <= zlen (concat B) -> rd (splits_of (concat B)) i = Some (off1 (concat B) i)) by (intros; now apply rd_splits_off).
  rewrite !RB, !RC by lia. rewrite ON. repeat split; auto.
  - f_equal. replace (off1 B m) with (off1 B m + 0) by lia. rewrite (off1_concat B m row 0 H) by lia. rewrite off1_map_concat. change (off1 row 0) with 0. lia.
  - f_equal. rewrite (off1_concat B m row (zlen row) H) by lia. rewrite off1_map_concat. now rewrite off1_all.
  - intros x Hx. unfold states. rewrite <- concat_map_concat. destruct (rd_in_bound (concat row) x Hx) as (s & Hs). rewrite Hs.
    apply (rd_concat_off (map (@concat Z) B) m (concat row) x s); auto. now rewrite rd_map, H.
Qed.

Lemma pass_step_ok m row (stv : Z -> option R) (env : Z -> Z) (G : Z -> option R) : rd B m = Some row ->
  (forall s q, In s (concat row) -> In q (g s) -> stv (ot q) = G (ot q)) ->
  let R s := red (map (fun q => ladd (G (ot q)) (w q)) (g s)) (g s) in
  let inb s := if in_dec Z.eq_dec s (concat row) then true else false in
  pass_step red ord other keep (splits_of B) (splits_of (concat B)) states (splits_of L) (concat L) scores (tab N stv, tab N env) m =
  Some (tab N (fun s => if inb s then if is_ninf (fst (R s)) && kp s then stv s else fst (R s) else stv s),
        tab N (fun s => if inb s then snd (R s) else env s)).
Proof.
  intros Hm HG. cbv zeta. destruct (batch_pos m row Hm) as (P1 & P2 & P3 & P4 & P5). unfold pass_step. rewrite P1, P2, P3, P4.
  set (b := off1 (map (@concat Z) B) m) in *. replace (b + zlen (concat row) - b) with (zlen (concat row)) by lia. set (c := concat row) in *.
  set (Rs := fun s => red (map (fun q => ladd (G (ot q)) (w q)) (g s)) (g s)).
  assert (CR : forall x s, rd c x = Some s -> 0 <= s < N /\ In s c /\ rd states (b + x) = Some s).
  { intros x s Hx. pose proof (rd_Some_bound _ _ _ Hx). rewrite P5 by auto. split; [|split; [eapply rd_In; eauto|auto]]. apply SR. apply (rd_In _ (b + x)). now rewrite P5. }
  assert (E1 : mapM (fun x =>
           y0 <- rd (splits_of L) (b + x);; y1 <- rd (splits_of L) (b + x + 1);;
           qs <- mapM (fun y => rd (concat L) (y0 + y)) (zrange (y1 - y0));;
           sc <- mapM (fun q => o <- other q;; a <- rd (fst (tab N stv, tab N env)) o;; w <- rd scores q;; Some (ladd a w)) qs;;
           Some (red sc qs)) (zrange (zlen c)) = Some (map Rs c)).
  { apply RaggedOpsProofs.mapM_zrange; [apply zlen_nonneg|now rewrite zlen_map|]. intros x Hx. destruct (rd_in_bound c x Hx) as (s & Hs). destruct (CR x s Hs) as (Bs & Is & Ps).
    assert (HL : rd L (b + x) = Some (g s)) by (unfold L; now rewrite rd_map, Ps). pose proof (rd_Some_bound _ _ _ HL). rewrite !rd_splits_off by lia. rewrite (off1_next _ _ _ HL).
    replace (off1 L (b + x) + zlen (g s) - off1 L (b + x)) with (zlen (g s)) by lia.
    rewrite (GraphProofs.mapM_zrange (g s)).
    2:{ intros y q Hy. now destruct (rd_concat_off L (b + x) (g s) y q HL Hy). }
    rewrite (mapM_Some_map _ (fun q => ladd (G (ot q)) (w q))).
    2:{ intros q Hq. destruct (HO s q Bs Hq) as (-> & O2 & ->). cbn [fst]. rewrite rd_tab by lia. now rewrite (HG s q Is Hq). }
    rewrite rd_map, Hs. reflexivity. }
  rewrite E1. cbn [fst snd].
  assert (LT : forall {A} (h : Z -> A), zlen (map Some (tab N h)) = N) by (intros; rewrite zlen_map, zlen_tab by lia; reflexivity).
  assert (MT : forall {A} (h : Z -> A) j, 0 <= j < N -> rd (map Some (tab N h)) j = Some (Some (h j))) by (intros; rewrite rd_map, rd_tab by lia; reflexivity).
  set (inb := fun s => if in_dec Z.eq_dec s c then true else false).
  set (nst := fun s => if inb s then if is_ninf (fst (Rs s)) && kp s then stv s else fst (Rs s) else stv s).
  set (nen := fun s => if inb s then snd (Rs s) else env s).
  assert (IB : forall s, In s c -> inb s = true) by (intros s Hs; unfold inb; destruct (in_dec Z.eq_dec s c); tauto).
  assert (SX : forall x, In x (ord (zlen c)) <-> 0 <= x < zlen c) by (intros x; apply in_sched, FO).
  destruct (k2_eval_agrees N nen (fun x => s <- rd states (b + x);; r <- rd (map Rs c) x;; Some [(s, snd r)]) (ord (zlen c))) with (arr := map Some (tab N env)) as (ent & K1 & K2 & K3).
  { intros x Hx. apply SX in Hx. destruct (rd_in_bound c x Hx) as (s & Hs). destruct (CR x s Hs) as (Bs & Is & Ps). rewrite Ps, rd_map, Hs. cbn [option_map]. eexists. split; [reflexivity|].
    constructor; [|constructor]. split; cbn [fst snd]; auto. unfold nen. now rewrite IB. }
  { apply LT. }
  rewrite K1. clear K1.
  destruct (k2_eval_agrees N nst (fun x => s <- rd states (b + x);; r <- rd (map Rs c) x;; k <- keep s;; Some (if is_ninf (fst r) && k then [] else [(s, fst r)])) (ord (zlen c)))
    with (arr := map Some (tab N stv)) as (sts & J1 & J2 & J3).
  { intros x Hx. apply SX in Hx. destruct (rd_in_bound c x Hx) as (s & Hs). destruct (CR x s Hs) as (Bs & Is & Ps). rewrite Ps, rd_map, Hs, (HK s Bs). cbn [option_map]. eexists. split; [reflexivity|].
    destruct (is_ninf (fst (Rs s)) && kp s) eqn:E; constructor; [|constructor]. split; cbn [fst snd]; auto. unfold nst. now rewrite IB, E. }
  { apply LT. }
  rewrite J1. clear J1.
  rewrite (freeze_tab N nen ent), (freeze_tab N nst sts); auto.
  - intros j Hj. apply J3; auto. rewrite MT by lia. unfold nst. destruct (inb j) eqn:E; [|now left]. destruct (is_ninf (fst (Rs j)) && kp j) eqn:E2; [now left|].
    right. unfold inb in E. destruct (in_dec Z.eq_dec j c) as [I|]; [|discriminate]. apply In_rd in I as (x & Bx & Hx). destruct (CR x j Hx) as (Bs & Is & Ps). exists x, [(j, fst (Rs j))].
    split; [now apply SX|]. rewrite Ps, rd_map, Hx, (HK j Bs). cbn [option_map]. rewrite E2. split; auto. now left.
  - intros j Hj. apply K3; auto. rewrite MT by lia. unfold nen. destruct (inb j) eqn:E; [|now left].
    right. unfold inb in E. destruct (in_dec Z.eq_dec j c) as [I|]; [|discriminate]. apply In_rd in I as (x & Bx & Hx). destruct (CR x j Hx) as (Bs & Is & Ps). exists x, [(j, snd (Rs j))].
    split; [now apply SX|]. rewrite Ps, rd_map, Hx. cbn [option_map]. split; auto. now left.
Qed.

(** the whole loop *)
Variable G : Z -> option R.
Definition RG (s : Z) : option R * Z := red (map (fun q => ladd (G (ot q)) (w q)) (g s)) (g s).
Hypothesis GK : forall s, 0 <= s < N -> kp s = true -> G s = lzero /\ fst (RG s) = None.
Hypothesis GR : forall s, 0 <= s < N -> kp s = false -> G s = fst (RG s).
Definition done (ms : list Z) (s : Z) : bool := existsb (fun m => if in_dec Z.eq_dec s (row_states m) then true else false) ms.
Definition stv_of (ms : list Z) (s : Z) : option R := if done ms s then G s else if kp s then lzero else None.
Definition env_of (ms : list Z) (s : Z) : Z := if done ms s then snd (RG s) else -1.

Lemma done_app ms ms' s : done (ms ++ ms') s = done ms s || done ms' s.
Proof. apply existsb_app. Qed.
Lemma pass_ok ms : (forall m, In m ms -> 0 <= m < zlen B) ->
  (forall pre m post s q, ms = pre ++ m :: post -> In s (row_states m) -> In q (g s) -> done pre (ot q) = true) ->
  foldB (pass_step red ord other keep (splits_of B) (splits_of (concat B)) states (splits_of L) (concat L) scores) ms (tab N (stv_of []), tab N (env_of [])) =
  Some (tab N (stv_of ms), tab N (env_of ms)).
Proof.
  induction ms as [|m ms IH] using rev_ind; intros HB HD; [reflexivity|]. rewrite foldB_app. rewrite IH.
  2:{ intros x Hx. apply HB. apply in_or_app. now left. }
  2:{ intros pre x post s q E. apply (HD pre x (post ++ [m]) s q). rewrite E, <- app_assoc. reflexivity. }
  cbn [foldB]. destruct (rd_in_bound B m) as (row & Hrow); [apply HB, in_or_app; right; now left|].
  assert (ER : row_states m = concat row) by (unfold row_states, pick; now rewrite Hrow).
  rewrite (pass_step_ok m row (stv_of ms) (env_of ms) G Hrow).
  2:{ intros s q Hs Hq. unfold stv_of. rewrite (HD ms m [] s q); auto. now rewrite ER. }
  assert (DE : forall s, done (ms ++ [m]) s = done ms s || (if in_dec Z.eq_dec s (concat row) then true else false)).
  { intros s. rewrite done_app. f_equal. cbn [done existsb]. now rewrite orb_false_r, ER. }
  f_equal. f_equal; apply tab_ext; intros s Hs; unfold stv_of, env_of; rewrite DE; fold (RG s).
  - destruct (in_dec Z.eq_dec s (concat row)); [|now rewrite orb_false_r]. rewrite orb_true_r. destruct (kp s) eqn:E.
    + destruct (GK s Hs E) as (-> & ->). cbn. now destruct (done ms s).
    + rewrite andb_false_r. symmetry. now apply GR.
  - destruct (in_dec Z.eq_dec s (concat row)); [|now rewrite orb_false_r]. now rewrite orb_true_r.
Qed.
End Pass.

(** ** Arc batches *)
Lemma gather_cells (Rw : list (list Z)) (states : list Z) : Permutation states (zrange (zlen Rw)) ->
  let L := map (pick Rw) states in
  exsum (map (fun s => zlen (pick Rw s)) states) = splits_of L /\ zlen (concat L) = zlen (concat Rw) /\
  (forall i, 0 <= i < zlen (concat L) -> exists p s j x, rd (ids_of L) i = Some p /\ rd states p = Some s /\ rd (splits_of Rw) s = Some (off1 Rw s) /\ rd (splits_of L) p = Some (off1 L p) /\
     i = off1 L p + j /\ rd (concat L) i = Some x /\ rd (concat Rw) (off1 Rw s + j) = Some x).
Proof.
  intros P L. split; [unfold splits_of, L; now rewrite map_map|].
  assert (PL : Permutation L Rw).
  { assert (LM : zlen (map (pick Rw) (zrange (zlen Rw))) = zlen Rw) by (rewrite zlen_map, zlen_zrange; auto; apply zlen_nonneg).
    assert (ME : map (pick Rw) (zrange (zlen Rw)) = Rw).
    { apply list_ext_rd; [exact LM|]. intros i Hi. rewrite LM in Hi. rewrite rd_map, rd_zrange by lia. cbn [option_map]. unfold pick. now destruct (rd_in_bound Rw i Hi) as (r & ->). }
    unfold L. rewrite <- ME at 2. now apply Permutation_map. }
  split.
  { unfold zlen. f_equal. apply Permutation_length. clear -PL. induction PL; cbn [concat]; auto; [now apply Permutation_app_head| |eapply Permutation_trans; eauto].
    rewrite !app_assoc. apply Permutation_app_tail, Permutation_app_comm. }
  intros i Hi. destruct (rd_in_bound (concat L) i Hi) as (x & Hx). destruct (rd_concat_inv _ _ _ Hx) as (p & r & j & R1 & R2 & E & R3).
  pose proof R1 as R1'. unfold L in R1. rewrite rd_map in R1. destruct (rd states p) as [s|] eqn:Es; [|discriminate]. cbn in R1. injection R1 as <-.
  assert (Bs : 0 <= s < zlen Rw) by (apply in_zrange; apply (Permutation_in _ P); eapply rd_In; eauto). destruct (rd_in_bound Rw s Bs) as (r & Hr).
  pose proof (rd_Some_bound _ _ _ R1'). exists p, s, j, x. rewrite !rd_splits_off by lia. repeat split; auto. unfold pick in R2. rewrite Hr in R2. now destruct (rd_concat_off Rw s r j x Hr R2).
Qed.
Lemma count_cells (Rw : list (list Z)) (rs : list Z) (states : list Z) : rs = splits_of Rw -> Permutation states (zrange (zlen Rw)) ->
  mapM (fun i => s <- rd states i;; x <- rd rs s;; y <- rd rs (s + 1);; Some (y - x)) (zrange (zlen Rw)) = Some (map (fun s => zlen (pick Rw s)) states).
Proof.
  intros -> P. assert (LS : zlen states = zlen Rw) by (unfold zlen; rewrite (Permutation_length P); fold (zlen (zrange (zlen Rw))); rewrite zlen_zrange; auto; apply zlen_nonneg).
  apply RaggedOpsProofs.mapM_zrange; [apply zlen_nonneg|now rewrite zlen_map|]. intros i Hi. destruct (rd_in_bound states i ltac:(lia)) as (s & Hs). rewrite Hs, rd_map, Hs. cbn [option_map].
  assert (Bs : 0 <= s < zlen Rw) by (apply in_zrange; apply (Permutation_in _ P); eapply rd_In; eauto). destruct (rd_in_bound Rw s Bs) as (r & Hr).
  rewrite !rd_splits_off by lia. rewrite (off1_next _ _ _ Hr). unfold pick. rewrite Hr. f_equal. lia.
Qed.

Lemma entering_arc_batches_ok v (Rw : list (list Z)) states : zlen (v_rs2 v) - 1 = zlen Rw -> zlen (v_arcs v) = zlen (concat Rw) -> Permutation states (zrange (zlen Rw)) ->
  entering_arc_batches v (splits_of Rw) (concat Rw) states = Some (splits_of (map (pick Rw) states), concat (map (pick Rw) states)).
Proof.
  intros H1 H2 P. unfold entering_arc_batches. rewrite H1, H2. rewrite (count_cells Rw _ states eq_refl P). destruct (gather_cells Rw states P) as (E1 & E2 & E3). rewrite E1, <- E2.
  rewrite row_ids_of_splits.
  rewrite (RaggedOpsProofs.mapM_zrange _ _ (concat (map (pick Rw) states))); [reflexivity|apply zlen_nonneg|reflexivity|].
  intros i Hi. destruct (E3 i Hi) as (p & s & j & x & -> & -> & -> & -> & -> & -> & <-). f_equal. lia.
Qed.
Lemma leaving_arc_batches_ok v (Rw : list (list Z)) states : v_rs2 v = splits_of Rw -> concat Rw = zrange (zlen (v_arcs v)) -> Permutation states (zrange (zlen Rw)) ->
  leaving_arc_batches v states = Some (splits_of (map (pick Rw) states), concat (map (pick Rw) states)).
Proof.
  intros H1 H2 P. unfold leaving_arc_batches. rewrite H1, zlen_splits_of. replace (zlen Rw + 1 - 1) with (zlen Rw) by lia. rewrite (count_cells Rw _ states eq_refl P).
  destruct (gather_cells Rw states P) as (E1 & E2 & E3). rewrite E1. assert (EA : zlen (v_arcs v) = zlen (concat Rw)) by (rewrite H2, zlen_zrange; auto; apply zlen_nonneg). rewrite EA, <- E2.
  rewrite row_ids_of_splits.
  rewrite (RaggedOpsProofs.mapM_zrange _ _ (concat (map (pick Rw) states))); [reflexivity|apply zlen_nonneg|reflexivity|].
  intros i Hi. destruct (E3 i Hi) as (p & s & j & x & -> & -> & -> & -> & -> & -> & X). f_equal. rewrite H2 in X. pose proof (rd_Some_bound _ _ _ X) as BX. rewrite zlen_zrange in BX by apply zlen_nonneg.
  rewrite rd_zrange in X by auto. injection X as <-. lia.
Qed.

(** ** Initial scores *)
Lemma init_scores_ok (fs : list nfsa) ord (cell : Z -> Z -> Z) (kp : Z -> bool) : fair ord ->
  (forall k f, rd fs k = Some f -> 0 < zlen f -> off1 fs k <= cell (off1 fs k) (off1 fs k + zlen f) < off1 fs k + zlen f) ->
  (forall s, 0 <= s < zlen (concat fs) -> kp s = true <-> exists k f, rd fs k = Some f /\ 0 < zlen f /\ s = cell (off1 fs k) (off1 fs k + zlen f)) ->
  init_scores ord cell (flat_vec fs) = Some (tab (zlen (concat fs)) (fun s => if kp s then lzero else None)).
Proof.
  intros FO HC HK. unfold init_scores. cbn [flat_vec v_rs1 v_rs2]. rewrite !zlen_splits_of. replace (zlen fs + 1 - 1) with (zlen fs) by lia. replace (zlen (concat fs) + 1 - 1) with (zlen (concat fs)) by lia.
  set (N := zlen (concat fs)). assert (N0 : 0 <= N) by apply zlen_nonneg.
  assert (CB : forall k f, rd fs k = Some f -> 0 < zlen f -> 0 <= cell (off1 fs k) (off1 fs k + zlen f) < N).
  { intros k f Hk Hf. specialize (HC k f Hk Hf). pose proof (off1_next _ _ _ Hk). pose proof (off1_bound fs (k + 1)). pose proof (off1_nonneg fs k). unfold N. lia. }
  set (body := fun k => b <- rd (splits_of fs) k;; e <- rd (splits_of fs) (k + 1);; Some (if 0 <? e - b then [(cell b e, lzero)] else [])).
  assert (BO : forall k f, rd fs k = Some f -> body k = Some (if 0 <? zlen f then [(cell (off1 fs k) (off1 fs k + zlen f), lzero)] else [])).
  { intros k f Hk. pose proof (rd_Some_bound _ _ _ Hk). unfold body. rewrite !rd_splits_off by lia. rewrite (off1_next _ _ _ Hk). now replace (off1 fs k + zlen f - off1 fs k) with (zlen f) by lia. }
  destruct (k2_eval_agrees N (fun s => if kp s then lzero else None) body (ord (zlen fs))) with (arr := repeat (Some lninf) (Z.to_nat N)) as (m & K1 & K2 & K3).
  { intros k Hk. apply (in_sched (zlen fs)) in Hk; [|apply FO]. destruct (rd_in_bound fs k Hk) as (f & Hf). rewrite (BO k f Hf). eexists. split; [reflexivity|].
    destruct (0 <? zlen f) eqn:E; constructor; [|constructor]. specialize (CB k f Hf ltac:(lia)). split; cbn [fst snd]; auto. rewrite (proj2 (HK _ CB)); auto. exists k, f. repeat split; auto. lia. }
  { rewrite zlen_repeat. lia. }
  rewrite K1. apply freeze_tab; auto. intros j Hj. apply K3; auto. destruct (kp j) eqn:E.
  - right. destruct (proj1 (HK j Hj) E) as (k & f & Hf & Lf & ->). exists k, [(cell (off1 fs k) (off1 fs k + zlen f), lzero)]. split; [apply (in_sched (zlen fs)); [apply FO|now apply rd_Some_bound in Hf]|].
    rewrite (BO k f Hf). replace (0 <? zlen f) with true by lia. split; auto. now left.
  - left. apply rd_repeat. lia.
Qed.
