(** One iteration of the epsilon closure, continued: the items of the result *)
From Coq Require Import ZArith List Lia Bool Permutation Sorted.
From Coq Require Import ZifyBool ZifyNat.
From Verif Require Import Base RaggedModel RaggedSpec RaggedProofs FsaSpec FsaLemmas SelectProofs RaggedOpsModel RaggedOpsProofs RaggedOpsProps EpsLoopProofs
  PropsProps ReverseProps ConnectProofs ExtractProofs ConnectRun RmEpsLang RmDevModel RmDevRagged RmDevEnc RmDevIter.
Import ListNotations.
Open Scope Z_scope.

Lemma mapM_select {X Y} (f : X -> option Y) keep : forall l ys, mapM f l = Some ys -> mapM f (select keep l) = Some (select keep ys).
Proof.
  induction keep as [|b keep IH]; intros l ys H; [destruct l, ys; reflexivity|]. destruct l as [|x l]; cbn [mapM] in H; [injection H as <-; reflexivity|].
  destruct (f x) as [y|] eqn:Ex; [|discriminate]. destruct (mapM f l) as [ys'|] eqn:El; [|discriminate]. injection H as <-. cbn [select]. destruct b; cbn [mapM]; rewrite ?Ex, (IH l ys' El); reflexivity.
Qed.
Lemma select_marks {Y} (l : list (bool * Y)) : select (map fst l) (map snd l) = map snd (filter fst l).
Proof. induction l as [|(b, y) l IH]; [reflexivity|]. cbn [map fst snd select filter]. destruct b; cbn [map snd]; now rewrite IH. Qed.
Lemma splits_zlen {X Y} (a : list (list X)) (b : list (list Y)) : map zlen a = map zlen b -> splits_of a = splits_of b.
Proof. unfold splits_of. now intros ->. Qed.

(** Expansion of every element of the rows *)
Definition ex {X Y} (e : X -> list Y) (R : Z -> list X) (o : Z) : list Y := concat (map e (R o)).
Section Exp.
Context {X Y : Type}.
Variables (S : Z) (K : Z -> bool) (R : Z -> list X) (e : X -> list Y).
Lemma ex_flat : flatR S (ex e R) = concat (map e (flatR S R)).
Proof. unfold flatR. rewrite <- (concat_map_rows e (map R (zrange S))), map_map. reflexivity. Qed.
Hypothesis NIL : forall o, K o = false -> R o = [].
Lemma ex_nil o : K o = false -> ex e R o = []. Proof. intros H. unfold ex. now rewrite NIL. Qed.
Lemma ex_splits : mapM (rd (splits_of (map e (flatR S R)))) (splits_of (map R (L S K))) = Some (splits_of (map (ex e R) (L S K))).
Proof. rewrite <- (concat_L S K R NIL), rm_axis_splits, map_map. reflexivity. Qed.
Lemma ex_ids : mapM (rd (ids_of (map R (L S K)))) (ids_of (map e (flatR S R))) = Some (ids_of (map (ex e R) (L S K))).
Proof. rewrite <- (concat_L S K R NIL), rm_axis_ids, map_map. reflexivity. Qed.
End Exp.

(** Items with their positions *)
Definition IR (R : Z -> list item) (o : Z) : list (Z * item) := imap (fun k x => (A R o + k, x)) 0 (R o).
Lemma IR_snd R o : map snd (IR R o) = R o.
Proof. unfold IR. rewrite map_imap. cbn. rewrite imap_const. apply map_id. Qed.
Lemma rd_IR R o k p : rd (IR R o) k = Some p -> rd (R o) k = Some (snd p) /\ fst p = A R o + k.
Proof. unfold IR. rewrite rd_imap. destruct (rd (R o) k) as [x|]; [|discriminate]. cbn. intros E. injection E as <-. auto. Qed.
Lemma IR_rd R o k x : rd (R o) k = Some x -> rd (IR R o) k = Some (A R o + k, x).
Proof. intros H. unfold IR. rewrite rd_imap, H. reflexivity. Qed.

Section One.
Variable fs : list nfsa.
Variables (K : Z -> bool) (R : Z -> list item).
Hypothesis WF : wf fs K R.
Notation N := (NS fs).

(** what an iteration does to the items *)
Definition expanded (o : Z) (z : item) : Prop := In z (R o) \/ exists x y, In x (R o) /\ In y (R (idst x)) /\ z = comb x y.
Definition step (R' : Z -> list item) : Prop := forall o, 0 <= o < N ->
  (forall z, In z (R' o) -> expanded o z) /\
  (forall z, expanded o z -> exists y, In y (R' o) /\ idst y = idst z /\ isc z <= isc y) /\
  StronglySorted (fun x y => idst x < idst y) (R' o).

Definition ee (p : Z * item) : list (list Z * item) :=
  ([fst p], snd p) :: map (fun q => ([fst p; fst q], comb (snd p) (snd q))) (IR R (idst (snd p))).
Definition EX : Z -> list (list Z * item) := ex ee (IR R).
Lemma IR_nil o : K o = false -> IR R o = [].
Proof. intros H. unfold IR. now rewrite (wfn fs K R WF). Qed.
Lemma EX_nil o : K o = false -> EX o = [].
Proof. apply (ex_nil K (IR R) ee IR_nil). Qed.
Lemma fl_IR : map snd (flatR N (IR R)) = fl fs R.
Proof. unfold flatR, fl. rewrite concat_map, map_map. unfold flatR. f_equal. apply map_ext. intros; apply IR_snd. Qed.
Lemma A_IR o : A (IR R) o = A R o.
Proof. unfold A. rewrite <- (zlen_map snd), concat_map, map_map. do 2 f_equal. apply map_ext. intros; apply IR_snd. Qed.
Lemma rd_flIR j p : rd (flatR N (IR R)) j = Some p -> fst p = j /\ rd (fl fs R) j = Some (snd p).
Proof.
  intros H. destruct (rd_flat N K (IR R) IR_nil j p H) as (o & k & B & KO & H1 & H2 & _). destruct (rd_IR _ _ _ _ H1) as (H3 & H4). rewrite A_IR in H2. split; [lia|]. rewrite <- fl_IR, rd_map, H. reflexivity.
Qed.
Lemma zlen_flIR : zlen (flatR N (IR R)) = zlen (fl fs R).
Proof. now rewrite <- fl_IR, zlen_map. Qed.
Lemma zlen_ee p : zlen (ee p) = 1 + zlen (R (idst (snd p))).
Proof. unfold ee. rewrite zlen_cons, zlen_map, <- (zlen_map snd (IR R _)), IR_snd. reflexivity. Qed.
Lemma rs2_IR : r_rs2 (vec fs K R) = splits_of (map (IR R) (L N K)) /\ r_ids2 (vec fs K R) = ids_of (map (IR R) (L N K)).
Proof.
  assert (E : map zlen (map R (L N K)) = map zlen (map (IR R) (L N K))) by (rewrite !map_map; apply map_ext; intros o; rewrite <- (IR_snd R o), zlen_map; reflexivity).
  cbn [vec r_rs2 r_ids2]. split; [now apply splits_zlen|now apply ids_of_zlen].
Qed.
Lemma n3_ok : mapM (fun j => p <- arc_pos (vec fs K R) j;; let '(a, s, b) := p in l0 <- rd (r_rs2 (vec fs K R)) (b + dst a);; l1 <- rd (r_rs2 (vec fs K R)) (b + dst a + 1);; Some (1 + (l1 - l0)))
    (zrange (zlen (r_arcs (vec fs K R)))) = Some (map zlen (map ee (flatR N (IR R)))).
Proof.
  rewrite zlen_arcs. apply mapM_by_rd; [rewrite !zlen_map, zlen_flIR, zlen_zrange by apply zlen_nonneg; auto|]. intros j j' Hj. pose proof (rd_Some_bound _ _ _ Hj) as B. rewrite zlen_zrange in B by apply zlen_nonneg. rewrite rd_zrange in Hj by auto. injection Hj as <-.
  destruct (rd_in_bound (flatR N (IR R)) j ltac:(rewrite zlen_flIR; lia)) as (p & Hp). destruct (rd_flIR _ _ Hp) as (_ & Hx). rewrite (arc_pos_ok fs K R WF _ _ Hx). destruct (rd_fl fs K R WF _ _ Hx) as (k & _ & _ & _ & _ & _ & W1 & W2 & W3).
  rewrite enc_dst, (rs2_rd fs K R WF) by lia. rewrite (rs2_rd1 fs K R WF) by auto. rewrite !rd_map, Hp. cbn [option_map]. rewrite zlen_ee. f_equal. lia.
Qed.
Lemma comb_enc x y : In x (fl fs R) -> In y (R (idst x)) -> mkArc (src (enc fs K x)) (dst (enc fs K y)) 0 (sc (enc fs K x) + sc (enc fs K y)) = enc fs K (comb x y).
Proof.
  intros Hx Hy. destruct (in_fl fs K R WF x Hx) as (B & KO & I & W1 & W2 & W3). destruct (proj2 WF _ _ W1 Hy) as (S1 & _). unfold enc. cbn. rewrite S1, W3. reflexivity.
Qed.
Lemma expand_ok r l k p : rd (map ee (flatR N (IR R))) r = Some l -> rd l k = Some p -> expand_arc (vec fs K R) r k = Some (enc fs K (snd p), fst p).
Proof.
  intros Hr Hk. rewrite rd_map in Hr. destruct (rd (flatR N (IR R)) r) as [q|] eqn:Eq; [|discriminate]. injection Hr as <-. destruct (rd_flIR _ _ Eq) as (F & Hx). unfold expand_arc, ee in *. rewrite rd_cons in Hk. destruct (k =? 0) eqn:E0.
  - injection Hk as <-. rewrite (arc_rd fs K R _ _ Hx). cbn. now rewrite F.
  - rewrite rd_map in Hk. destruct (rd (IR R (idst (snd q))) (k - 1)) as [q2|] eqn:E2; [|discriminate]. injection Hk as <-. destruct (rd_IR _ _ _ _ E2) as (Hy & F2). rewrite (arc_pos_ok fs K R WF _ _ Hx). destruct (rd_fl fs K R WF _ _ Hx) as (k' & _ & _ & _ & _ & _ & W1 & W2 & W3).
    rewrite enc_dst, (rs2_rd fs K R WF) by lia. pose proof (fl_rd fs K R WF _ _ _ W1 Hy) as Hy2. replace (A R (idst (snd q)) + k - 1) with (A R (idst (snd q)) + (k - 1)) by lia. rewrite (arc_rd fs K R _ _ Hy2). cbn [fst snd]. rewrite comb_enc; [|eapply rd_In; eauto|eapply rd_In; eauto]. f_equal. f_equal. rewrite F, F2. reflexivity.
Qed.
(** elements of the expansion *)
Lemma in_EX o p : 0 <= o < N -> In p (EX o) -> isrc (snd p) = o /\ 0 <= idst (snd p) < N /\ K (idst (snd p)) = true /\ so fs (idst (snd p)) = so fs o /\ expanded o (snd p) /\
  exists xs, mapM (rd (fl fs R)) (fst p) = Some xs /\ snd (snd p) = concat (map snd xs).
Proof.
  intros B H. unfold EX, ex in H. apply in_concat in H as (l & H1 & H2). apply in_map_iff in H1 as (q & <- & Hq). apply In_rd in Hq as (k & _ & Hq). destruct (rd_IR _ _ _ _ Hq) as (Hx & F). assert (Ix : In (snd q) (R o)) by (eapply rd_In; eauto). destruct (proj2 WF o _ B Ix) as (S1 & W1 & W2 & W3).
  pose proof (fl_rd fs K R WF _ _ _ B Hx) as Hf. rewrite <- F in Hf. destruct H2 as [<-|H2].
  - cbn [fst snd]. split; [auto|]. split; [auto|]. split; [auto|]. split; [auto|]. split; [now left|]. exists [snd q]. cbn [mapM]. rewrite Hf. split; [auto|]. cbn. now rewrite app_nil_r.
  - apply in_map_iff in H2 as (q2 & <- & Hq2). apply In_rd in Hq2 as (k2 & _ & Hq2). destruct (rd_IR _ _ _ _ Hq2) as (Hy & F2). assert (Iy : In (snd q2) (R (idst (snd q)))) by (eapply rd_In; eauto). destruct (proj2 WF _ _ W1 Iy) as (T1 & T2 & T3 & T4). pose proof (fl_rd fs K R WF _ _ _ W1 Hy) as Hg. rewrite <- F2 in Hg.
    cbn [fst snd]. split; [exact S1|]. change (idst (comb (snd q) (snd q2))) with (idst (snd q2)). split; [auto|]. split; [auto|]. split; [congruence|]. split; [right; eauto 6|]. exists [snd q; snd q2]. cbn [mapM]. rewrite Hf, Hg. split; [auto|]. cbn. now rewrite app_nil_r.
Qed.
Lemma EX_in o z : expanded o z -> exists p, In p (EX o) /\ snd p = z.
Proof.
  intros [H|(x & y & Hx & Hy & ->)].
  - apply In_rd in H as (k & _ & H). exists ([A R o + k], z). split; [|auto]. unfold EX, ex. apply in_concat. exists (ee (A R o + k, z)). split; [apply in_map; eapply rd_In; apply IR_rd; eauto|now left].
  - apply In_rd in Hx as (k & _ & Hx). apply In_rd in Hy as (k2 & _ & Hy). exists ([A R o + k; A R (idst x) + k2], comb x y). split; [|auto]. unfold EX, ex. apply in_concat. exists (ee (A R o + k, x)). split; [apply in_map; eapply rd_In; apply IR_rd; eauto|right].
    change ([A R o + k; A R (idst x) + k2], comb x y) with ((fun q : Z * item => ([A R o + k; fst q], comb x (snd q))) (A R (idst x) + k2, y)). apply in_map. eapply rd_In; apply IR_rd; eauto.
Qed.

Theorem one_iter_ok ord : fair ord -> (forall x, In x (fl fs R) -> isrc x = idst x -> isc x <= 0) ->
  exists R' am, one_iter ord (vec fs K R) = Some (vec fs K R', am) /\ wf fs K R' /\ step R' /\
  exists PS, mapM (mapM (rd (fl fs R))) am = Some PS /\ map snd (fl fs R') = map (fun xs => concat (map snd xs)) PS.
Proof.
  intros HO HC. unfold one_iter.
  assert (CK : forallb (fun a => negb ((src a =? dst a) && (0 <? sc a))) (r_arcs (vec fs K R)) = true).
  { apply forallb_forall. intros a Ha. cbn [vec r_arcs] in Ha. apply in_map_iff in Ha as (x & <- & Hx). destruct (in_fl fs K R WF x Hx) as (B & KO & I & W1 & W2 & W3). destruct (src (enc fs K x) =? dst (enc fs K x)) eqn:E; [|reflexivity]. cbn in E. assert (nw K (isrc x) = nw K (idst x)) by lia. apply nw_inj in H; auto; try lia. specialize (HC x Hx H). cbn. change (sc (fst x)) with (isc x). lia. }
  rewrite CK, n3_ok. set (LL := map ee (flatR N (IR R))). change (exsum (map zlen LL)) with (splits_of LL). rewrite zlen_map. rewrite rd_splits_off by (pose proof (zlen_nonneg LL); lia). rewrite off1_all, row_ids_of_splits.
  rewrite (ragged_eval LL (expand_arc (vec fs K R)) (fun p => (enc fs K (snd p), fst p)) expand_ok).
  destruct rs2_IR as (-> & ->). unfold LL at 1. rewrite (ex_splits N K (IR R) ee IR_nil). unfold LL at 1. rewrite (ex_ids N K (IR R) ee IR_nil). fold EX.
  set (X := map EX (L N K)).
  assert (EC : concat LL = concat X). { unfold X. rewrite (concat_L N K EX EX_nil). unfold EX. rewrite ex_flat. reflexivity. }
  rewrite EC, !map_map. cbn [fst snd]. set (g := fun p : list Z * item => enc fs K (snd p)). change (map (fun x => enc fs K (snd x)) (concat X)) with (map g (concat X)).
  destruct (sorted_rows g X) as (sr & LS & LZ & (order & ES & EO) & HR). rewrite ES. cbn [fst snd].
  rewrite <- (splits_zlen _ _ LZ), <- (ids_of_zlen _ _ LZ).
  assert (LT : zlen (concat X) = zlen (concat sr)) by (rewrite <- !off1_all, LS; pose proof (map_zlen_rd _ _ LZ) as (_ & _ & -> & _); reflexivity).
  rewrite LT, keep_first_ok. set (ms := map (marks (fun y => dst (g y)) None) sr).
  assert (MS : map snd (concat ms) = concat sr). { unfold ms. rewrite concat_map, map_map. f_equal. rewrite <- (map_id sr) at 2. apply map_ext. intros; apply marks_snd. }
  assert (MZ : map zlen ms = map zlen sr). { unfold ms. rewrite map_map. apply map_ext. intros l. rewrite <- (zlen_map snd), marks_snd. reflexivity. }
  assert (LM : zlen (concat ms) = zlen (concat sr)) by (rewrite <- MS, zlen_map; reflexivity).
  rewrite new2old_kept by (rewrite zlen_map, LM; apply HO). rewrite <- (splits_zlen _ _ MZ), <- (ids_of_zlen _ _ MZ), o2n_splits, n2o_ids.
  rewrite <- MS, map_map, (n2o_values fst (fun x => g (snd x))).
  assert (LO : length (map fst (concat ms)) = length order). { rewrite map_length. pose proof (mapM_length _ _ _ EO). unfold zlen in LM. lia. }
  rewrite (mapM_kept0 _ _ LO). pose proof (mapM_select _ (map fst (concat ms)) _ _ EO) as EO2. rewrite <- MS, select_marks in EO2.
  assert (EA : mapM (rd (map (fun p : list Z * item => fst p) (concat X))) (select (map fst (concat ms)) order) = Some (map fst (map snd (filter fst (concat ms))))).
  { clear -EO2. revert EO2. generalize (map snd (filter fst (concat ms))), (select (map fst (concat ms)) order). intros ys l; revert ys. induction l as [|i l IH]; intros ys H; cbn [mapM] in *; [injection H as <-; reflexivity|]. rewrite rd_map. destruct (rd (concat X) i) as [y|]; [|discriminate]. destruct (mapM (rd (concat X)) l) as [ys'|]; [|discriminate]. injection H as <-. cbn. now rewrite (IH ys' eq_refl). }
  change (fun x : list Z * item => fst x) with (fun p : list Z * item => fst p). rewrite EA.
  set (fr := map (fun m : list (bool * (list Z * item)) => map snd (filter fst m)) ms).
  set (R' := rowf N K (map (map snd) fr)).
  assert (LF : zlen (map (map snd) fr) = nw K N) by (unfold fr, ms; rewrite !zlen_map, LS; unfold X; rewrite zlen_map; apply zlen_L).
  assert (RM : map R' (L N K) = map (map snd) fr) by (apply rowf_map; auto).
  assert (RN : forall o, K o = false -> R' o = []) by (intros; now apply rowf_nil).
  assert (FC : concat fr = map snd (filter fst (concat ms))). { unfold fr. rewrite filter_concat, concat_map, !map_map. reflexivity. }
  assert (FL : fl fs R' = map snd (concat fr)). { unfold fl. rewrite <- (concat_L N K R' RN), RM, <- concat_map. reflexivity. }
  (* rows *)
  assert (RR : forall o, 0 <= o < N -> K o = true -> exists row, R' o = map snd (firsts (fun y => dst (g y)) row) /\ Permutation (EX o) row /\ StronglySorted (fun a b => closure_lt (g b) (g a) = false) row).
  { intros o B KO. destruct (HR (nw K o) (EX o)) as (row & E1 & E2 & E3); [unfold X; rewrite rd_map, rd_L; auto|]. exists row. split; [|auto]. apply (rowf_at N K _ o _ B KO). unfold fr, ms. rewrite !rd_map, E1. reflexivity. }
  assert (ST : forall o, 0 <= o < N -> forall row, Permutation (EX o) row -> StronglySorted (fun a b => closure_lt (g b) (g a) = false) row -> StronglySorted (before (fun y => idst (snd y)) (fun y => isc (snd y))) row /\ firsts (fun y => dst (g y)) row = firsts (fun y => idst (snd y)) row).
  { intros o B row HP HS. assert (IE : forall p, In p row -> isrc (snd p) = o /\ 0 <= idst (snd p) < N /\ K (idst (snd p)) = true). { intros p Hp. destruct (in_EX o p B ltac:(eapply Permutation_in; [apply Permutation_sym; exact HP|exact Hp])) as (E1 & E2 & E3 & _). auto. }
    assert (CE : forall p q, In p row -> In q row -> (dst (g p) =? dst (g q)) = (idst (snd p) =? idst (snd q)) /\ (dst (g p) < dst (g q) -> idst (snd p) < idst (snd q))).
    { intros p q Hp Hq. destruct (IE p Hp) as (P1 & P2 & P3). destruct (IE q Hq) as (Q1 & Q2 & Q3). unfold g, enc. cbn. rewrite P1, Q1. split.
      - destruct (idst (snd p) =? idst (snd q)) eqn:E; [assert (E' : idst (snd p) = idst (snd q)) by lia; rewrite E'; lia|]. destruct (nw K (idst (snd p)) - nw K (so fs o) =? nw K (idst (snd q)) - nw K (so fs o)) eqn:E2; auto. exfalso. assert (X0 : nw K (idst (snd p)) = nw K (idst (snd q))) by lia. apply nw_inj in X0; auto; lia.
      - intros H. destruct (Z_lt_le_dec (idst (snd p)) (idst (snd q))); auto. pose proof (nw_mono K (idst (snd q)) (idst (snd p)) ltac:(lia)). lia. }
    split.
    - clear HP. induction HS as [|p row HS IH HF]; constructor.
      + apply IH; intros; [apply IE|apply CE]; now right.
      + rewrite Forall_forall in *. intros q Hq. specialize (HF q Hq). destruct (CE q p (or_intror Hq) (or_introl eq_refl)) as (C1 & C2). destruct (CE p q (or_introl eq_refl) (or_intror Hq)) as (C3 & C4). unfold closure_lt in HF. unfold before. destruct (dst (g q) =? dst (g p)) eqn:E; [right; change (sc (g p)) with (isc (snd p)) in HF; change (sc (g q)) with (isc (snd q)) in HF; lia|left; apply C4; lia].
    - clear HP HS. unfold firsts. f_equal. f_equal.
      assert (G : forall l p p', (forall y, In y l -> In y row) -> (match p, p' with None, None => True | Some q, Some q' => forall y, In y l -> (dst (g y) =? q) = (idst (snd y) =? q') | _, _ => False end) -> marks (fun y => dst (g y)) p l = marks (fun y => idst (snd y)) p' l); [|apply G; auto].
      induction l as [|y l IH]; intros p p' HI HQ; [reflexivity|]. cbn [marks]. f_equal.
      + destruct p as [q|], p' as [q'|]; try contradiction; auto. rewrite HQ by now left. reflexivity.
      + apply IH; [intros; apply HI; now right|]. intros z Hz. apply CE; apply HI; [now right|now left]. }
  assert (SP : step R').
  { intros o B. destruct (K o) eqn:KO.
    - destruct (RR o B KO) as (row & ER & HP & HS). destruct (ST o B row HP HS) as (HS2 & EF). rewrite EF in ER. destruct (firsts_ok _ _ row HS2) as (F1 & F2 & F3). rewrite ER. split; [|split].
      + intros z Hz. apply in_map_iff in Hz as (p & <- & Hp). apply F2 in Hp. destruct (in_EX o p B ltac:(eapply Permutation_in; [apply Permutation_sym; exact HP|exact Hp])) as (_ & _ & _ & _ & E & _). exact E.
      + intros z Hz. destruct (EX_in o z Hz) as (p & Hp & <-). destruct (F3 p ltac:(eapply Permutation_in; eauto)) as (y & Hy & Y1 & Y2). exists (snd y). split; [now apply in_map|]. split; auto.
      + clear -F1. induction F1 as [|p l F1 IH HF]; cbn; constructor; auto. rewrite Forall_map. exact HF.
    - rewrite (RN o KO). split; [intros z []|]. split; [|constructor]. intros z [Hz|(x & y & Hx & _)]; rewrite (wfn fs K R WF o KO) in *; contradiction. }
  exists R', (map fst (map snd (filter fst (concat ms)))). split.
  - assert (Z1 : map zlen (map (filter fst) ms) = map zlen (map R' (L N K))) by (rewrite RM; unfold fr; rewrite !map_map; apply map_ext; intros; now rewrite !zlen_map).
    f_equal. f_equal. unfold vec. f_equal; [now apply splits_zlen|now apply ids_of_zlen|]. rewrite FL, FC, !map_map. reflexivity.
  - split; [|split; [exact SP|]].
    + split; [exact RN|]. intros o z B Hz. destruct (K o) eqn:KO; [|rewrite RN in Hz by auto; destruct Hz]. destruct (RR o B KO) as (row & ER & HP & HS). rewrite ER in Hz. apply in_map_iff in Hz as (p & <- & Hp). apply marks_in in Hp. destruct (in_EX o p B ltac:(eapply Permutation_in; [apply Permutation_sym; exact HP|exact Hp])) as (E1 & E2 & E3 & E4 & _). auto.
    + rewrite FL, <- FC. assert (G : forall p, In p (concat fr) -> exists xs, mapM (rd (fl fs R)) (fst p) = Some xs /\ snd (snd p) = concat (map snd xs)).
      { intros p Hp. assert (Ip : In p (concat X)). { rewrite FC in Hp. assert (In p (concat sr)) by (rewrite <- MS; apply in_map_iff in Hp as (q & <- & Hq); apply filter_In in Hq as (Hq & _); now apply in_map). apply in_concat in H as (row & H1 & H2). apply In_rd in H1 as (i & Bi & H1). rewrite LS in Bi. destruct (rd_in_bound X i Bi) as (row0 & H3). destruct (HR i row0 H3) as (row' & H4 & H5 & _). rewrite H1 in H4. injection H4 as <-. apply in_concat. exists row0. split; [eapply rd_In; eauto|]. eapply Permutation_in; [apply Permutation_sym; exact H5|exact H2]. }
        unfold X in Ip. rewrite (concat_L N K EX EX_nil) in Ip. apply (in_flat N) in Ip as (o & B & Ip). destruct (in_EX o p B Ip) as (_ & _ & _ & _ & _ & E). exact E. }
      clear -G. induction (concat fr) as [|p l IH]; [exists []; split; reflexivity|]. destruct (G p (or_introl eq_refl)) as (xs & E1 & E2). destruct IH as (PS & P1 & P2); [intros; apply G; now right|]. exists (xs :: PS). cbn [map mapM]. rewrite E1, P1. split; [reflexivity|]. cbn. now rewrite P2, E2.
Qed.
Lemma one_iter_check ord r : one_iter ord (vec fs K R) = Some r -> forall x, In x (fl fs R) -> isrc x = idst x -> isc x <= 0.
Proof.
  unfold one_iter. destruct (forallb _ _) eqn:CK; [|discriminate]. intros _ x Hx E. rewrite forallb_forall in CK. specialize (CK (enc fs K x)). cbn [vec r_arcs] in CK. specialize (CK ltac:(now apply in_map)). cbn in CK. rewrite E in CK. change (sc (fst x)) with (isc x) in CK. lia.
Qed.
End One.
