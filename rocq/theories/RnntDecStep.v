(** * One frame of one stream *)
From Coq Require Import ZArith List Lia Bool Permutation Sorted.
From Coq Require Import ZifyBool ZifyNat.
From Verif Require Import Base RaggedModel RaggedSpec RaggedProofs FsaSpec FsaLemmas RaggedOpsModel OpsModel RaggedOpsProofs RaggedListProofs IDenseModel IDenseSpec IDensePaths RnntDecModel RnntDecSpec RnntDecList RnntDecGroup RnntDecArith.
From Verif Require DetInv IPrunedOut.
Import ListNotations.
Open Scope Z_scope.

Lemma SS_filter {A} (R : A -> A -> Prop) (p : A -> bool) l : StronglySorted R l -> StronglySorted R (filter p l).
Proof. induction 1 as [|x l HS IH HF]; cbn; [constructor|]. destruct (p x); [|exact IH]. constructor; [exact IH|]. rewrite Forall_forall in *. intros y Hy. apply filter_In in Hy as (Hy & _). auto. Qed.
Lemma filter_pairs (p : Z -> bool) l : map fst (filter snd (map (fun i => (i, p i)) l)) = filter p l.
Proof. induction l as [|x l IH]; cbn; [reflexivity|]. destruct (p x); cbn; now rewrite IH. Qed.

Lemma in_concat_imap {A B} (F : Z -> A -> list B) l y : forall k, In y (concat (imap F k l)) <-> exists i x, rd l i = Some x /\ In y (F (k + i) x).
Proof.
  induction l as [|x l IH]; intros k; cbn [imap concat].
  - split; [easy|]. intros (i & x & H & _). now rewrite rd_nil in H.
  - rewrite in_app_iff, IH. split.
    + intros [H|(i & z & H1 & H2)]; [exists 0, x; rewrite rd_cons_0, Z.add_0_r; auto|]. pose proof (rd_Some_bound _ _ _ H1). exists (i + 1), z. rewrite rd_cons_S by lia. split; [exact H1|]. now replace (k + (i + 1)) with (k + 1 + i) by lia.
    + intros (i & z & H1 & H2). pose proof (rd_Some_bound _ _ _ H1). destruct (Z.eq_dec i 0) as [->|Hn]; [left; rewrite rd_cons_0 in H1; injection H1 as <-; now rewrite Z.add_0_r in H2|]. right. exists (i - 1), z. replace i with (i - 1 + 1) in H1 by lia. rewrite rd_cons_S in H1 by lia. split; [exact H1|]. now replace (k + 1 + (i - 1)) with (k + i) by lia.
Qed.
Lemma nodup_concat_imap {A B} (F : Z -> A -> list B) (xa : A -> Z) (xb : B -> Z) l : (forall i x, F i x = [] \/ exists y, F i x = [y] /\ xb y = xa x) ->
  NoDup (map xa l) -> forall k, NoDup (map xb (concat (imap F k l))).
Proof.
  intros HF. induction l as [|x l IH]; intros HN k; cbn [imap concat map] in *; [constructor|]. inversion HN as [|? ? N1 N2]; subst. specialize (IH N2 (k + 1)). destruct (HF k x) as [->|(y & -> & E)]; [exact IH|]. cbn [app map]. constructor; [|exact IH].
  rewrite E. intros H. apply N1. apply in_map_iff in H as (b & Eb & H). apply in_concat_imap in H as (i & z & H1 & H2). apply in_map_iff. exists z. split; [|eapply rd_In; eauto]. destruct (HF (k + 1 + i) z) as [X|(y' & X & E')]; rewrite X in H2; [easy|]. destruct H2 as [<-|[]]. congruence.
Qed.

Section Step.
Context (f : nfsa) (c : rcfg) (net : Z -> list Z -> list Z).
Hypothesis Hf : valid f.
Hypothesis HV : 1 <= r_vocab c.
Hypothesis Hh : 1 <= r_hist c.
Hypothesis Hb : 0 <= r_beam c.
Hypothesis Hlab : forall a, In a (all_arcs f) -> lab a < r_vocab c.
Hypothesis Hnet : forall t ctx, zlen (net t ctx) = r_vocab c.
Notation V := (r_vocab c).
Notation h := (r_hist c).
Notation n := (nstates f).
Notation cof := (ctxof V h).
Notation lp := (logp net).
Notation hy := (hyp f h net).
Notation g := (flat f).
Notation lc := (larc f c net).
Notation inr := (inr f c).
Definition unp : Prop := no_limit f V h (r_maxs c) (r_maxc c) /\ forall t ctx, lp t ctx 0 <= 0.

Lemma ngs_flat : ngs g = n.
Proof. unfold ngs. cbn [row_splits flat]. rewrite zlen_splits_of. unfold nstates. lia. Qed.
Lemma rd_net t ctx l : 0 <= l < V -> rd (net t ctx) l = Some (lp t ctx l).
Proof. intros H. unfold logp, at0. destruct (rd_in_bound (net t ctx) l) as (x & ->); [rewrite Hnet; lia|reflexivity]. Qed.

(** the arcs of one state *)
Definition srow (row : list Z) (mx : option Z) (v x : Z) : option (list cand) :=
  m <- num_arcs g v;;
  ks <- mapM (fun i => b <- pass1 c g row mx v x i;; Some (i, b)) (zrange m);;
  mapM (fun i => populate c g row v x i) (map fst (filter snd ks)).
Record srow_ok (t v x : Z) (mx : option Z) (out : list cand) : Prop := {
  sr_arc : forall a, In a out -> lc t v (x_arc (c_inf a)) (x_lab (c_inf a)) (x_sc (c_inf a)) (c_val a) /\ c_scr a = x + x_sc (c_inf a);
  sr_nd : NoDup (map (fun a => x_arc (c_inf a)) out);
  sr_all : (forall t ctx, lp t ctx 0 <= 0) -> forall ja l w v', lc t v ja l w v' -> (forall m, mx = Some m -> m - r_beam c <= x + w) -> exists a, In a out /\ x_arc (c_inf a) = ja }.
Lemma srow_total t v x mx : inr v -> exists out, srow (net t (cof (v / n))) mx v x = Some out /\ srow_ok t v x mx out.
Proof.
  intros Hv. pose proof (n2 f Hf) as N2. set (gs := v mod n). assert (Bg : 0 <= gs < n) by (apply Z.mod_pos_bound; lia). unfold srow, num_arcs. rewrite ngs_flat. fold gs.
  destruct (rd_in_bound f gs) as (st & Hst); [exact Bg|]. set (o := off1 f gs). set (row := net t (cof (v / n))).
  destruct Hf as (F1 & _ & F3).
  assert (Ho : 0 <= o) by apply off1_nonneg.
  assert (Ra : forall i b, rd st i = Some b -> rd (all_arcs f) (o + i) = Some b /\ src b = gs).
  { intros i b Hi. split; [apply (rd_concat_off _ _ _ _ _ Hst Hi)|]. eapply F1; [exact Hst|eapply rd_In; eauto]. }
  assert (Ar : forall j b, rd (all_arcs f) j = Some b -> src b = gs -> gs <> n - 1 /\ exists i, 0 <= i < zlen st /\ j = o + i /\ rd st i = Some b).
  { intros j b Hj Es. pose proof (rd_In _ _ _ Hj) as Hin. destruct (F3 b Hin) as (_ & _ & _ & S4). split; [rewrite <- Es; exact S4|]. apply rd_concat_inv in Hj as (r & l & i & H1 & H2 & H3 & _). assert (r = gs) as -> by (rewrite <- Es; symmetry; eapply F1; [exact H1|eapply rd_In; eauto]). assert (l = st) as -> by congruence. exists i. split; [eapply rd_Some_bound; eauto|]. auto. }
  destruct (Z.eqb_spec gs (n - 1)) as [Eg|Eg].
  - exists []. split; [reflexivity|]. split; [easy|constructor|]. intros _ ja l w v' [(_ & _ & X & _)|(b & B1 & B2 & _)] _; [exfalso; apply X; exact Eg|]. fold gs in B2. destruct (Ar _ _ B1 B2) as (X & _). congruence.
  - cbn [row_splits flat]. rewrite !rd_splits_off by (unfold nstates in *; lia). cbn [option_map]. rewrite (off1_next _ _ _ Hst). fold o. replace (o + zlen st - o + 1) with (zlen st + 1) by lia. pose proof (zlen_nonneg st) as Zst.
    set (lpf := fun b => lp t (cof (v / n)) (if lab b =? -1 then 0 else lab b)).
    set (pb := fun i => if i =? 0 then true else match rd st (i - 1) with Some b => if lab b =? 0 then true else match mx with Some m => m - r_beam c <=? x + sc b + (if lab b =? -1 then 0 else lp t (cof (v / n)) (lab b)) | None => true end | None => true end).
    set (pop := fun i => match (if i =? 0 then None else rd st (i - 1)) with None => mkC (mkI (-1) (lp t (cof (v / n)) 0) 0 0) v (x + lp t (cof (v / n)) 0)
        | Some b => mkC (mkI (o + i - 1) (sc b + lpf b) (lab b) 0) (code' V h (v / n) (lab b) * n + dst b) (x + sc b + lpf b) end).
    assert (GI : forall i, graph_idx g v i = Some (o + i - 1)). { intros i. unfold graph_idx. rewrite ngs_flat. fold gs. cbn [row_splits flat]. rewrite rd_splits_off by (unfold nstates in *; lia). reflexivity. }
    assert (LB : forall i b, rd st i = Some b -> -1 <= lab b < V). { intros i b Hi. destruct (Ra _ _ Hi) as (R1 & _). pose proof (rd_In _ _ _ R1) as Hin. destruct (F3 b Hin) as (_ & L & _). specialize (Hlab b Hin). lia. }
    assert (E1 : mapM (fun i => b <- pass1 c g row mx v x i;; Some (i, b)) (zrange (zlen st + 1)) = Some (map (fun i => (i, pb i)) (zrange (zlen st + 1)))).
    { apply mapM_Some_map. intros i Hi. apply in_zrange in Hi. unfold pass1, pb. destruct (Z.eqb_spec i 0) as [|Hi0]; [reflexivity|]. rewrite GI. cbn [option_map arcs flat]. destruct (rd_in_bound st (i - 1)) as (b & Hbi); [lia|]. destruct (Ra _ _ Hbi) as (R1 & _). replace (o + i - 1) with (o + (i - 1)) by lia. unfold all_arcs in R1. rewrite R1, Hbi. cbn [option_map]. pose proof (LB _ _ Hbi).
      destruct (Z.eqb_spec (lab b) 0) as [|L0]; [reflexivity|]. destruct (Z.eqb_spec (lab b) (-1)) as [|L1]; [reflexivity|]. unfold row. rewrite rd_net by lia. reflexivity. }
    rewrite E1. cbn [option_map]. rewrite filter_pairs.
    assert (E2 : mapM (fun i => populate c g row v x i) (filter pb (zrange (zlen st + 1))) = Some (map pop (filter pb (zrange (zlen st + 1))))).
    { apply mapM_Some_map. intros i Hi. apply filter_In in Hi as (Hi & _). apply in_zrange in Hi. unfold populate, pop. destruct (Z.eqb_spec i 0) as [|Hi0]; [unfold row; rewrite rd_net by lia; reflexivity|]. rewrite GI. cbn [option_map arcs flat]. destruct (rd_in_bound st (i - 1)) as (b & Hbi); [lia|]. destruct (Ra _ _ Hbi) as (R1 & _). replace (o + i - 1) with (o + (i - 1)) by lia. unfold all_arcs in R1. rewrite R1, Hbi. cbn [option_map]. pose proof (LB _ _ Hbi).
      unfold row. rewrite rd_net by (destruct (lab b =? -1) eqn:?; lia). cbn [option_map]. rewrite ngs_flat. reflexivity. }
    rewrite E2. eexists. split; [reflexivity|].
    assert (PA : forall i, 0 <= i < zlen st + 1 -> x_arc (c_inf (pop i)) = if i =? 0 then -1 else o + i - 1). { intros i Hi. unfold pop. destruct (Z.eqb_spec i 0) as [|Hi0]; [reflexivity|]. destruct (rd_in_bound st (i - 1)) as (b & ->); [lia|]. reflexivity. }
    split.
    + intros a Ha. apply in_map_iff in Ha as (i & <- & Hi). apply filter_In in Hi as (Hi & _). apply in_zrange in Hi. unfold pop. destruct (Z.eqb_spec i 0) as [|Hi0]; cbn [c_inf x_arc x_lab x_sc c_val c_scr].
      * split; [|reflexivity]. left. auto.
      * destruct (rd_in_bound st (i - 1)) as (b & Hbi); [lia|]. rewrite Hbi. cbn [c_inf x_arc x_lab x_sc c_val c_scr]. split; [|lia]. right. exists b. destruct (Ra _ _ Hbi) as (R1 & R2). replace (o + i - 1) with (o + (i - 1)) by lia. auto.
    + apply SS_lt_NoDup. rewrite map_map. apply SS_map. assert (SSf : StronglySorted Z.lt (filter pb (zrange (zlen st + 1)))) by (apply SS_filter, zrange_SS). assert (IN : forall i, In i (filter pb (zrange (zlen st + 1))) -> 0 <= i < zlen st + 1) by (intros i Hi; apply filter_In in Hi as (Hi & _); now apply in_zrange in Hi).
      revert SSf IN. generalize (filter pb (zrange (zlen st + 1))). intros L. induction 1 as [|i L HS IH HF]; intros IN; constructor; [apply IH; intros; apply IN; now right|]. rewrite Forall_forall in *. intros k Hk. pose proof (HF k Hk). pose proof (IN i (or_introl eq_refl)). pose proof (IN k (or_intror Hk)). rewrite !PA by assumption. destruct (i =? 0) eqn:?, (k =? 0) eqn:?; lia.
    + intros HL ja l w v' HLa HM. destruct HLa as [(-> & -> & _ & -> & ->)|(b & B1 & B2 & -> & -> & ->)].
      * exists (pop 0). split; [|reflexivity]. apply in_map. apply filter_In. split; [apply in_zrange; lia|reflexivity].
      * fold gs in B2. destruct (Ar _ _ B1 B2) as (_ & i & Hi & -> & Hbi). exists (pop (i + 1)). split; [|rewrite PA by lia; replace (i + 1 =? 0) with false by lia; lia]. apply in_map. apply filter_In. split; [apply in_zrange; lia|]. unfold pb. replace (i + 1 =? 0) with false by lia. replace (i + 1 - 1) with i by lia. rewrite Hbi.
        destruct (lab b =? 0) eqn:L0; [reflexivity|]. destruct mx as [m|]; [|reflexivity]. specialize (HM m eq_refl). specialize (HL t (cof (v / n))). destruct (lab b =? -1) eqn:L1; lia.
Qed.

(** ** The states of a stream *)
Definition ccode (ctx : list (Z * Z)) : Z := match ctx with s :: _ => fst s / n | [] => 0 end.
Record okS (t : Z) (sts : list (list (Z * Z))) : Prop := {
  os_hyp : forall v x, In (v, x) (concat sts) -> inr v /\ exists p, hy p (v mod n) (cof (v / n)) x /\ zlen p = t;
  os_nd : NoDup (map fst (concat sts));
  os_ne : forall ctx, In ctx sts -> ctx <> [] /\ forall s, In s ctx -> fst s / n = ccode ctx;
  os_ctx : NoDup (map ccode sts);
  os_maxs : 0 < r_maxs c -> zlen (concat sts) <= r_maxs c;
  os_maxc : 0 < r_maxc c -> zlen sts <= r_maxc c }.
Lemma ok_start : okS 0 [[(0, 0)]].
Proof.
  pose proof (n2 f Hf) as N2. pose proof (pw V HV h ltac:(lia)). split.
  - intros v x [E|[]]. injection E as <- <-. split; [unfold RnntDecArith.inr; nia|]. exists []. rewrite Z.mod_0_l, Z.div_0_l by lia. split; [rewrite (ctxof_0 V h HV) by lia; constructor|reflexivity].
  - cbn. repeat constructor. easy.
  - intros ctx [<-|[]]. split; [discriminate|]. intros s [<-|[]]. reflexivity.
  - cbn. repeat constructor. easy.
  - intros X. change (1 <= r_maxs c). lia.
  - intros X. change (1 <= r_maxc c). lia.
Qed.
Lemma contexts_ok t sts : okS t sts -> get_contexts c g sts = Some (map (fun ctx => cof (ccode ctx)) sts).
Proof.
  intros K. unfold get_contexts. apply mapM_Some_map. intros ctx Hc. destruct (os_ne _ _ K ctx Hc) as (NE & _). destruct ctx as [|s ctx]; [easy|]. rewrite rd_cons_0. cbn [option_map ccode]. rewrite ngs_flat. reflexivity.
Qed.
Definition rows_of (t : Z) (sts : list (list (Z * Z))) : list (list Z) := map (fun ctx => net t (cof (ccode ctx))) sts.

Definition best (sts : list (list (Z * Z))) : option Z := kmax (map (fun s => Some (snd s)) (concat sts)).
Definition arcs_ok (t : Z) (sts : list (list (Z * Z))) (cs : list (list (list cand))) : Prop :=
  map zlen cs = map zlen sts /\
  forall j v x row, rd (concat sts) j = Some (v, x) -> rd (concat cs) j = Some row -> srow_ok t v x (best sts) row.
Lemma stream_arcs_ok t sts : okS t sts -> exists cs, stream_arcs c g (rows_of t sts) sts = Some cs /\ arcs_ok t sts cs.
Proof.
  intros K. unfold stream_arcs. fold (best sts).
  assert (EX : forall s, exists out, (inr (fst s) -> srow (net t (cof (fst s / n))) (best sts) (fst s) (snd s) = Some out /\ srow_ok t (fst s) (snd s) (best sts) out)).
  { intros s. destruct (Z_le_gt_dec 0 (fst s)) as [H0|H0]; [destruct (Z_lt_ge_dec (fst s) (V ^ h * n)) as [H1|H1]|].
    - destruct (srow_total t (fst s) (snd s) (best sts)) as (out & O1); [split; lia|]. exists out. auto.
    - exists []. intros X. unfold RnntDecArith.inr in X. lia.
    - exists []. intros X. unfold RnntDecArith.inr in X. lia. }
  assert (exists F : list (list (list cand)), Forall2 (Forall2 (fun s out => srow (net t (cof (fst s / n))) (best sts) (fst s) (snd s) = Some out /\ srow_ok t (fst s) (snd s) (best sts) out)) sts F) as (F & HF).
  { assert (IR : forall ctx s, In ctx sts -> In s ctx -> inr (fst s)). { intros ctx [v x] Hc Hs. apply (os_hyp _ _ K v x). apply in_concat. eauto. } revert IR EX. generalize (best sts). generalize sts. clear. intros sts mx IR EX.
    induction sts as [|ctx sts IH]; [exists []; constructor|]. destruct IH as (F & HF); [intros ctx' s H1 H2; apply (IR ctx' s); [now right|exact H2]|]. assert (exists R, Forall2 (fun s out => srow (net t (cof (fst s / n))) mx (fst s) (snd s) = Some out /\ srow_ok t (fst s) (snd s) mx out) ctx R) as (R & HR).
    { specialize (IR ctx). assert (IR' : forall s, In s ctx -> inr (fst s)) by (intros; apply IR; [now left|assumption]). clear IR. induction ctx as [|s ctx IH]; [exists []; constructor|]. destruct IH as (R & HR); [intros; apply IR'; now right|]. destruct (EX s) as (out & O). exists (out :: R). constructor; [apply O, IR'; now left|exact HR]. }
    exists (R :: F). constructor; assumption. }
  exists F. assert (Fl : forall A B (P : A -> B -> Prop) l m, Forall2 P l m -> zlen l = zlen m) by (intros A B P l m; induction 1; [reflexivity|rewrite !zlen_cons; lia]).
  assert (Fr : forall A B (P : A -> B -> Prop) l m i x y, Forall2 P l m -> rd l i = Some x -> rd m i = Some y -> P x y).
  { intros A B P l m i x y HP. revert i. induction HP as [|a b l m H1 H2 IH]; intros i Hi Hj; [rewrite rd_nil in Hi; discriminate|]. pose proof (rd_Some_bound _ _ _ Hi). destruct (Z.eq_dec i 0) as [->|Hn]; [rewrite rd_cons_0 in Hi; rewrite rd_cons_0 in Hj; congruence|]. replace i with (i - 1 + 1) in Hi by lia. replace i with (i - 1 + 1) in Hj by lia. rewrite rd_cons_S in Hi by lia. rewrite rd_cons_S in Hj by lia. eauto. }
  assert (ML : map zlen F = map zlen sts). { clear -HF Fl. induction HF as [|a b l m H1 H2 IH]; [reflexivity|]. cbn. rewrite IH. f_equal. symmetry. eapply Fl; eauto. }
  split.
  - apply mapM_zrange; [apply zlen_nonneg|symmetry; eapply Fl; eauto|]. intros k Hk. destruct (rd_in_bound sts k Hk) as (ctx & Hc). destruct (rd_in_bound F k) as (R & HR); [rewrite <- (Fl _ _ _ _ _ HF); exact Hk|]. rewrite Hc, HR. cbn [option_map]. unfold rows_of. rewrite rd_map, Hc. cbn [option_map].
    pose proof (Fr _ _ _ _ _ _ _ _ HF Hc HR) as FR. destruct (os_ne _ _ K ctx (rd_In _ _ _ Hc)) as (_ & NC). apply mapM_Some_iff. clear -FR NC. revert NC. generalize (ccode ctx). intros cc NC. induction FR as [|s out l m H1 H2 IH]; constructor; [|apply IH; intros; apply NC; now right]. destruct H1 as (H1 & _). rewrite (NC s (or_introl eq_refl)) in H1. exact H1.
  - split; [exact ML|]. intros j v x row Hj Hr. apply rd_concat_inv in Hj as (k & ctx & i & J1 & J2 & J3 & _). destruct (rd_in_bound F k) as (R & HR); [rewrite <- (Fl _ _ _ _ _ HF); eapply rd_Some_bound; eauto|]. pose proof (Fr _ _ _ _ _ _ _ _ HF J1 HR) as FR.
    destruct (rd_in_bound R i) as (row' & Hrow); [rewrite <- (Fl _ _ _ _ _ FR); eapply rd_Some_bound; eauto|]. destruct (rd_concat_off _ _ _ _ _ HR Hrow) as (X & _). rewrite (IDenseInit.off1_same F sts k ML), <- J3, Hr in X. injection X as <-. destruct (Fr _ _ _ _ _ _ _ _ FR J2 Hrow) as (_ & O). exact O.
Qed.

(** ** One step *)
Record stepR (t : Z) (ss : list (Z * Z)) (F : list (list ainf)) (ss' : list (Z * Z)) : Prop := {
  st_len : zlen F = zlen ss;
  st_arc : forall j v x row a, rd ss j = Some (v, x) -> rd F j = Some row -> In a row -> exists v' x',
    lc t v (x_arc a) (x_lab a) (x_sc a) v' /\ rd ss' (x_dst a) = Some (v', x') /\ x + x_sc a <= x';
  st_nd : forall j row, rd F j = Some row -> NoDup (map x_arc row);
  st_all : unp -> forall j v x row ja l w v', rd ss j = Some (v, x) -> rd F j = Some row -> lc t v ja l w v' ->
    (forall p s ctx x', hy p s ctx x' -> zlen p = t \/ zlen p = t + 1 -> x' - r_beam c <= x + w) -> exists a, In a row /\ x_arc a = ja }.

Section One.
Context (t : Z) (sts : list (list (Z * Z))) (cs : list (list (list cand))) (fin : list (list (list Z))).
Hypothesis K : okS t sts.
Hypothesis AO : arcs_ok t sts cs.
Notation cl := (flat_cands cs).
Hypothesis FO : fin_ok g cl c fin.
Lemma cs_len : zlen (concat cs) = zlen (concat sts).
Proof. destruct AO as (M & _). rewrite <- !zsum_zlen_concat. now rewrite M. Qed.
Lemma cand_at i : 0 <= i < zlen cl -> exists j m v x row a, rd (concat sts) j = Some (v, x) /\ rd (concat cs) j = Some row /\ rd row m = Some a /\
  rd cl i = Some a /\ i = off1 (concat cs) j + m /\ srow_ok t v x (best sts) row.
Proof.
  intros Hi. destruct (rd_in_bound cl i Hi) as (a & Ha). pose proof Ha as Ha'. unfold flat_cands in Ha'. apply rd_concat_inv in Ha' as (j & row & m & H1 & H2 & H3 & _).
  destruct (rd_in_bound (concat sts) j) as ((v & x) & Hs); [rewrite <- cs_len; eapply rd_Some_bound; eauto|]. exists j, m, v, x, row, a. destruct AO as (_ & AO2). eauto 10.
Qed.
Lemma cand_hyp i : 0 <= i < zlen cl -> inr (val_of cl i) /\ exists p, hy p (val_of cl i mod n) (cof (val_of cl i / n)) (scr_of cl i) /\ zlen p = t + 1.
Proof.
  intros Hi. destruct (cand_at i Hi) as (j & m & v & x & row & a & H1 & H2 & H3 & H4 & H5 & H6). unfold val_of, scr_of. rewrite H4. destruct (sr_arc _ _ _ _ _ H6 a (rd_In _ _ _ H3)) as (L & ->). destruct (os_hyp _ _ K v x (rd_In _ _ _ H1)) as (Hv & p & P1 & P2).
  destruct (larc_hyp f c net Hf HV Hh Hlab _ _ _ _ _ _ _ _ Hv L P1 P2) as (Q1 & Q2 & Q3). split; [exact Q1|]. eauto.
Qed.
Lemma gpos : 0 < ngs g. Proof. rewrite ngs_flat. pose proof (n2 f Hf). lia. Qed.
Lemma fin_l l : In l (concat fin) -> l <> [] /\ forall i, In i l -> val_of cl i = sval cl l /\ 0 <= i < zlen cl.
Proof.
  intros Hl. apply (fk_in _ _ _ _ FO) in Hl. destruct (group_ok g cl gpos) as (_ & _ & C & _). destruct (C l Hl) as (C1 & C2). split; [exact C1|]. intros i Hi. split; [auto|]. apply (gr_ids g cl gpos). eauto.
Qed.
Definition smx (l : list Z) : Z := match kmax (map (fun i => Some (scr_of cl i)) l) with Some m => m | None => 0 end.
Lemma smx_ok l : l <> [] -> kmax (map (fun i => Some (scr_of cl i)) l) = Some (smx l) /\ (exists i, In i l /\ smx l = scr_of cl i) /\ forall i, In i l -> scr_of cl i <= smx l.
Proof.
  intros NE. unfold smx. destruct (kmax (map (fun i => Some (scr_of cl i)) l)) as [m|] eqn:E.
  - split; [reflexivity|]. split.
    + apply kmax_in in E. apply in_map_iff in E as (i & Ei & Hi). injection Ei as <-. eauto.
    + intros i Hi. assert (O : ole (Some (scr_of cl i)) (kmax (map (fun i => Some (scr_of cl i)) l))) by (apply kmax_ge; apply (in_map (fun i => Some (scr_of cl i))); exact Hi). rewrite E in O. exact O.
  - exfalso. rewrite <- (map_map (scr_of cl) Some) in E. apply kmax_None in E. destruct l; [easy|discriminate].
Qed.
Definition ns (l : list Z) : Z * Z := (sval cl l, smx l).
Lemma new_states_ok : new_states cl fin = Some (map (map ns) fin).
Proof.
  unfold new_states. apply mapM_Some_map. intros x Hx. apply mapM_Some_map. intros l Hl. assert (Hin : In l (concat fin)) by (apply in_concat; eauto). destruct (fin_l l Hin) as (NE & FL). destruct (smx_ok l NE) as (E & _). rewrite E. destruct l as [|i l]; [easy|]. rewrite rd_cons_0. cbn [option_map]. reflexivity.
Qed.
Lemma concat_ns : concat (map (map ns) fin) = map ns (concat fin).
Proof. now rewrite concat_map. Qed.
Lemma ok_next : okS (t + 1) (map (map ns) fin).
Proof.
  split.
  - intros v x Hin. rewrite concat_ns in Hin. apply in_map_iff in Hin as (l & E & Hl). injection E as <- <-. destruct (fin_l l Hl) as (NE & FL). destruct (smx_ok l NE) as (_ & (i & Hi & ->) & _). destruct (FL i Hi) as (<- & Bi). apply cand_hyp. exact Bi.
  - rewrite concat_ns, map_map. cbn [ns fst]. apply SS_lt_NoDup. apply SS_map. exact (fk_sorted _ _ _ _ FO).
  - intros ctx Hc. apply in_map_iff in Hc as (x & <- & Hx). destruct (fk_ne _ _ _ _ FO x Hx) as (NE & SC). rewrite ngs_flat in SC. split; [destruct x; [easy|discriminate]|]. intros s Hs. apply in_map_iff in Hs as (l & <- & Hl). destruct x as [|l0 x]; [easy|]. cbn [map ccode ns fst]. apply SC; [exact Hl|now left].
  - rewrite map_map. apply SS_lt_NoDup. apply SS_map. pose proof (fk_apart _ _ _ _ FO) as AP. pose proof (fun x Hx => proj1 (fk_ne _ _ _ _ FO x Hx)) as NE. revert NE AP. clear. generalize fin. intros fn NE AP. revert NE. induction AP as [|x l HS IH HF]; intros NE; [constructor|]. constructor; [apply IH; intros; apply NE; now right|]. rewrite Forall_forall in *. intros y Hy. specialize (HF y Hy). pose proof (NE x (or_introl eq_refl)) as Nx. pose proof (NE y (or_intror Hy)) as Ny. destruct x as [|l1 x]; [easy|]. destruct y as [|l2 y]; [easy|]. cbn [map ccode ns fst]. rewrite <- ngs_flat. apply HF; now left.
  - rewrite concat_ns, zlen_map. exact (fk_maxs _ _ _ _ FO).
  - rewrite zlen_map. exact (fk_maxc _ _ _ _ FO).
Qed.
Definition farc (i : Z) (a : cand) : list ainf :=
  match find_idx (existsb (Z.eqb i)) 0 (concat fin) with
  | Some d => [mkI (x_arc (c_inf a)) (x_sc (c_inf a)) (x_lab (c_inf a)) d]
  | None => []
  end.
Lemma new_frame_shape : map zlen (new_frame cs fin) = map zlen sts.
Proof.
  destruct AO as (<- & _). unfold new_frame. apply chop_zlen. rewrite zlen_map. apply zlen_chop.
Qed.
Lemma new_frame_flat : concat (new_frame cs fin) = imap (fun j row => concat (imap farc (off1 (concat cs) j) row)) 0 (concat cs).
Proof.
  unfold new_frame. rewrite concat_chop by (rewrite zlen_map; apply zlen_chop). unfold flat_cands. fold farc. rewrite chop_imap, map_imap. reflexivity.
Qed.
Lemma step_ok : stepR t (concat sts) (concat (new_frame cs fin)) (concat (map (map ns) fin)).
Proof.
  rewrite new_frame_flat, concat_ns. split.
  - rewrite zlen_imap. apply cs_len.
  - intros j v x row a Hs Hr Ha. rewrite rd_imap in Hr. destruct (rd (concat cs) j) as [crow|] eqn:Ec; [|discriminate]. injection Hr as <-. apply in_concat_imap in Ha as (m & a0 & A1 & A2). unfold farc in A2. destruct (find_idx _ 0 (concat fin)) as [d|] eqn:Ed; [|easy]. destruct A2 as [<-|[]]. cbn [x_arc x_lab x_sc x_dst].
    apply find_idx_some in Ed as (l & L1 & L2). rewrite Z.sub_0_r in L1. apply existsb_exists in L2 as (i & I1 & I2). apply Z.eqb_eq in I2. subst i. cbn [Z.add] in I1. rewrite Z.add_0_l in I1. destruct AO as (_ & AO2). pose proof (AO2 _ _ _ _ Hs Ec) as SR. destruct (sr_arc _ _ _ _ _ SR a0 (rd_In _ _ _ A1)) as (L & E).
    destruct (rd_concat_off _ _ _ _ _ Ec A1) as (R & _). fold (flat_cands cs) in R. destruct (fin_l l (rd_In _ _ _ L1)) as (NE & FL). destruct (FL _ I1) as (EV & _). destruct (smx_ok l NE) as (_ & _ & SM). specialize (SM _ I1). unfold val_of in EV. unfold scr_of in SM. rewrite R in EV, SM. exists (c_val a0), (smx l). split; [exact L|]. split; [rewrite rd_map, L1; cbn; unfold ns; now rewrite EV|]. lia.
  - intros j row Hr. rewrite rd_imap in Hr. destruct (rd (concat cs) j) as [crow|] eqn:Ec; [|discriminate]. injection Hr as <-. destruct (rd_in_bound (concat sts) j) as ((v & x) & Hs); [rewrite <- cs_len; eapply rd_Some_bound; eauto|]. destruct AO as (_ & AO2). pose proof (AO2 _ _ _ _ Hs Ec) as SR.
    apply (nodup_concat_imap farc (fun a => x_arc (c_inf a)) x_arc); [|exact (sr_nd _ _ _ _ _ SR)]. intros i a. unfold farc. destruct (find_idx _ _ _); [right; eexists; split; reflexivity|now left].
  - intros (UL & LP) j v x row ja l w v' Hs Hr L HG. rewrite rd_imap in Hr. destruct (rd (concat cs) j) as [crow|] eqn:Ec; [|discriminate]. injection Hr as <-. destruct AO as (_ & AO2). pose proof (AO2 _ _ _ _ Hs Ec) as SR.
    destruct (sr_all _ _ _ _ _ SR LP ja l w v' L) as (a & A1 & A2).
    { intros m Hm. unfold best in Hm. apply kmax_in in Hm. apply in_map_iff in Hm as ((v0 & x0) & Em & Hin). injection Em as <-. destruct (os_hyp _ _ K v0 x0 Hin) as (_ & p & P1 & P2). eapply HG; eauto. }
    apply In_rd in A1 as (m & Hm & A1). destruct (rd_concat_off _ _ _ _ _ Ec A1) as (R & _). fold (flat_cands cs) in R. destruct (sr_arc _ _ _ _ _ SR a (rd_In _ _ _ A1)) as (L' & E). rewrite A2 in L'. destruct (larc_fun f c net Hlab _ _ _ _ _ _ _ _ _ L L') as (_ & Ew & _).
    destruct UL as (U1 & U2). pose proof (pw V HV h ltac:(lia)) as PV. destruct (gr_counts g cl gpos (V ^ h)) as (C1 & C2); [lia|intros i Hi; rewrite ngs_flat; apply (cand_hyp i Hi)|]. rewrite ngs_flat in C1.
    destruct (fk_all _ _ _ _ FO (off1 (concat cs) j + m)) as (l1 & F1 & F2).
    + eapply rd_Some_bound; eauto.
    + intros i Hi. destruct (cand_hyp i Hi) as (_ & p & P1 & P2). unfold scr_of at 2. rewrite R, E, Ew. eapply HG; eauto.
    + destruct U1; [now left|right; lia].
    + destruct U2; [now left|right; lia].
    + destruct (find_idx_ex (existsb (Z.eqb (off1 (concat cs) j + m))) (concat fin) 0 l1 F1) as (d & Hd); [apply existsb_exists; exists (off1 (concat cs) j + m); split; [exact F2|apply Z.eqb_refl]|].
      exists (mkI (x_arc (c_inf a)) (x_sc (c_inf a)) (x_lab (c_inf a)) d). split; [|exact A2]. apply in_concat_imap. exists m, a. split; [exact A1|]. unfold farc. rewrite Z.add_0_l, Hd. now left.
Qed.
End One.
End Step.
