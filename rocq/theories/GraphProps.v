(** * Properties of the graph builders (C16 batch, C17, C37-C40). *)
From Coq Require Import ZArith List Lia Bool Permutation.
From Coq Require Import ZifyBool ZifyNat.
From Verif Require Import Base RaggedModel RaggedSpec RaggedProofs FsaSpec FsaLemmas FsaOpsModel FsaOpsProofs FsaOpsProps
  EpsLoopProofs RaggedOpsModel RaggedListProofs FstSpec GraphModel GraphProofs TopoProofs LevProofs LinearModel LinearProofs.
Import ListNotations.
Open Scope Z_scope.

Lemma valid_tab {B} n (g : Z -> list (arc * B)) : 2 <= n ->
  (forall i b, 0 <= i < n -> In b (g i) -> src (fst b) = i /\ 0 <= dst (fst b) < n /\ -1 <= lab (fst b) /\
     (lab (fst b) = -1 <-> dst (fst b) = n - 1) /\ i <> n - 1) ->
  valid (map (map fst) (tab n g)).
Proof.
  intros Hn H. assert (L : zlen (map (map fst) (tab n g)) = n) by (rewrite zlen_map, zlen_tab; lia).
  split; [|split].
  - intros i st a Hi Ha. rewrite rd_map in Hi. destruct (rd (tab n g) i) as [s|] eqn:E; [|discriminate].
    injection Hi as <-. apply rd_tab_Some in E as (Hb & ->). apply in_map_iff in Ha as (b & <- & Hin). now apply (H i b).
  - unfold nstates. lia.
  - intros a Ha. unfold all_arcs in Ha. rewrite <- concat_map in Ha. apply in_map_iff in Ha as (b & <- & Hb).
    apply in_concat_tab in Hb as (i & Hi & Hb). destruct (H i b Hi Hb) as (E1 & E2 & E0 & E3 & E4).
    unfold nstates, final. unfold nstates. rewrite L. split; [lia|]. split; [lia|]. split; [exact E3|]. lia.
Qed.

(** ** C16, batch *)
Lemma linear_forward syms : forward (linear_nested syms) /\ one_arc_per_state (linear_nested syms).
Proof.
  split.
  - intros a Ha. rewrite all_arcs_linear in Ha. apply linear_arcs_in in Ha. lia.
  - unfold one_arc_per_state, linear_nested. apply Forall_app. split; [|repeat constructor; cbv; discriminate].
    apply Forall_forall. intros st Hst. apply in_map_iff in Hst as (a & <- & _). cbv. discriminate.
Qed.

(** C16: the batched linear_fsa builds one FSA per list, for every execution
    order; each has exactly one successful path, with the list as labels and
    score zero; it goes forward and has at most one arc per state (so it is
    topologically sorted and arc-sorted). *)
Theorem C16_linear_fsas : forall (y : list (list Z)) sched,
  is_sched (zlen (concat y) + 2 * zlen y) sched ->
  exists fs, linear_fsas sched (splits_of y) (concat y) = Some (mkVOut (flat_vec fs) (ids_of (concat fs)) []) /\
    Forall2 (fun l f => src_ok f /\ forward f /\ one_arc_per_state f /\ nstates f = zlen l + 2 /\
               (Forall (fun a => 0 <= a) l -> valid f) /\
               (forall p q, path (all_arcs f) 0 p (final f) -> path (all_arcs f) 0 q (final f) -> p = q) /\
               forall w s, accepts f w s <-> w = l /\ s = 0) y fs.
Proof.
  intros y sched Hs. exists (map linear_nested y). split; [now apply linear_fsas_ok|].
  clear. induction y as [|l y IH]; cbn [map]; constructor; auto.
  destruct (linear_forward l) as (F & O).
  split; [apply linear_src_ok|]. split; [exact F|]. split; [exact O|].
  split; [apply zlen_linear_nested|]. split; [apply linear_valid|].
  split; [|intros; apply linear_language].
  intros p q Hp Hq. rewrite all_arcs_linear, final_linear in *.
  apply (linear_path_step 0 l []) in Hp; [|simpl; tauto|lia].
  apply (linear_path_step 0 l []) in Hq; [|simpl; tauto|lia]. congruence.
Qed.
Print Assumptions C16_linear_fsas.

Example C16_linear_fsas_ex : is_sched (zlen (concat [[1; 2]; []; [5]]) + 2 * zlen [[1; 2]; []; [5]]) (rev (zrange 9)) /\
  exists o, linear_fsas (rev (zrange 9)) (splits_of [[1; 2]; []; [5]]) (concat [[1; 2]; []; [5]]) = Some o /\ vo_vec o =
    mkVec [0; 4; 6; 9] [0; 1; 2; 3; 3; 4; 4; 5; 6; 6]
      [mkArc 0 1 1 0; mkArc 1 2 2 0; mkArc 2 3 (-1) 0; mkArc 0 1 (-1) 0; mkArc 0 1 5 0; mkArc 1 2 (-1) 0].
Proof. split; [solve_sched|]. eexists. split; [vm_compute; reflexivity|reflexivity]. Qed.

(** The batched version does not reject -1 (finding): the result then is not a
    valid FSA, while the single version raises. *)
Theorem C16_batch_accepts_final_label_refuted : exists y o sched,
  is_sched (zlen (concat y) + 2 * zlen y) sched /\
  linear_fsas sched (splits_of y) (concat y) = Some o /\
  (forall sched1, linear_fsa sched1 (concat y) = None \/ ~ is_sched (zlen (concat y) + 1) sched1) /\
  exists a, In a (v_arcs (vo_vec o)) /\ lab a = -1 /\ dst a <> 2.
Proof.
  exists [[-1]], (mkVOut (mkVec [0; 3] [0; 1; 2; 2] [mkArc 0 1 (-1) 0; mkArc 1 2 (-1) 0]) [0; 1] []), (zrange 3).
  split; [solve_sched|]. split; [vm_compute; reflexivity|]. split.
  - intros s. destruct (linear_fsa s (concat [[-1]])) eqn:E; [|now left]. right. intros Hs.
    rewrite (C16_linear_fsa_rejects (concat [[-1]]) s) in E; [discriminate|now left|exact Hs].
  - exists (mkArc 0 1 (-1) 0). cbn. repeat split; auto; discriminate.
Qed.
Print Assumptions C16_batch_accepts_final_label_refuted.

(** ** C17 *)
Lemma lin_src_ge its k b : In b (lin_arcs k its) -> k <= src (fst b) /\ dst (fst b) = src (fst b) + 1.
Proof.
  revert k; induction its as [|it t IH]; intros k H; [destruct H|]. destruct H as [<-|H]; cbn; [lia|]. apply IH in H. lia.
Qed.
Lemma lin_path its : forall k A p, (forall b, In b A -> src (fst b) < k) ->
  tpath (A ++ lin_arcs k its) k p (k + zlen its) <-> p = lin_arcs k its.
Proof.
  induction its as [|it t IH]; intros k A p HA.
  - change (zlen (@nil (Z * Z * Z))) with 0. cbn [lin_arcs]. rewrite app_nil_r, Z.add_0_r. split.
    + intros H. apply tpath_inv in H as [(-> & _)|(b & p' & -> & Hb & E & _)]; auto. apply HA in Hb. lia.
    + intros ->. constructor.
  - rewrite zlen_cons. cbn [lin_arcs]. set (a := (mkArc k (k + 1) _ _, _)).
    assert (HA' : forall b, In b (A ++ [a]) -> src (fst b) < k + 1).
    { intros b Hb. apply in_app_or in Hb as [Hb|[<-|[]]]; [apply HA in Hb|cbn]; lia. }
    specialize (IH (k + 1) (A ++ [a])). rewrite <- app_assoc in IH. cbn [app] in IH.
    replace (k + (1 + zlen t)) with (k + 1 + zlen t) by lia. replace (k + (zlen t + 1)) with (k + 1 + zlen t) by lia.
    split.
    + intros H. apply tpath_inv in H as [(-> & E)|(b & p' & -> & Hb & E & Hp)]; [pose proof (zlen_nonneg t); lia|].
      apply in_app_or in Hb as [Hb|[<-|Hb]].
      * apply HA in Hb; lia.
      * f_equal. apply IH; auto.
      * apply lin_src_ge in Hb. lia.
    + intros ->. apply tpath_step; auto; [apply in_or_app; cbn; auto|]. cbn [fst a dst]. apply IH; auto.
Qed.
Lemma concat_lin' its : concat (lin its) = lin_arcs 0 its.
Proof. unfold lin. rewrite concat_app, concat_singletons. cbn. apply app_nil_r. Qed.
Lemma zlen_lin_arcs its : forall k, zlen (lin_arcs k its) = zlen its.
Proof. induction its; intros k; cbn [lin_arcs]; auto. now rewrite !zlen_cons, IHits. Qed.
Lemma zlen_lin its : zlen (lin its) = zlen its + 1.
Proof. unfold lin. rewrite zlen_app, zlen_map, zlen_lin_arcs. reflexivity. Qed.

(** items of a pair of sequences *)
Fixpoint items (l a : list Z) : list (Z * Z * Z) :=
  match l, a with x :: l', y :: a' => (x, y, 0) :: items l' a' | _, _ => [(-1, -1, 0)] end.
Lemma items_facts l : forall a k, zlen l = zlen a ->
  map fst (lin_arcs k (items l a)) = linear_arcs k l /\ ilabels (lin_arcs k (items l a)) = l ++ [-1] /\
  olabels (lin_arcs k (items l a)) = a ++ [-1] /\ tscore (lin_arcs k (items l a)) = 0 /\ zlen (items l a) = zlen l + 1.
Proof.
  induction l as [|x l IH]; intros [|y a] k H; rewrite ?zlen_cons in H.
  - repeat split.
  - change (zlen (@nil Z)) with 0 in H. pose proof (zlen_nonneg a). lia.
  - change (zlen (@nil Z)) with 0 in H. pose proof (zlen_nonneg l). lia.
  - destruct (IH a (k + 1)) as (I1 & I2 & I3 & I4 & I5); [lia|]. cbn [items lin_arcs map linear_arcs].
    unfold ilabels, olabels, tscore in *. cbn [map fst snd lab sc zsum app]. rewrite I1, I2, I3, I4, !zlen_cons, I5.
    repeat split; auto. lia.
Qed.
Lemma lin_items_fsa l a : zlen l = zlen a -> fsa_of (lin (items l a)) = linear_nested l.
Proof.
  intros H. destruct (items_facts l a 0 H) as (E & _). unfold fsa_of, lin, linear_nested. rewrite map_app, map_map. cbn [map].
  f_equal. rewrite <- E, map_map. reflexivity.
Qed.

(** An FST with exactly one successful path: input [l], output [a], score 0. *)
Definition one_path (T : nfst) (l a : list Z) : Prop :=
  exists p, (forall q, tpath (concat T) 0 q (zlen T - 1) <-> q = p) /\
    ilabels p = l ++ [-1] /\ olabels p = a ++ [-1] /\ tscore p = 0.
Lemma lin_one_path l a : zlen l = zlen a -> one_path (lin (items l a)) l a.
Proof.
  intros H. destruct (items_facts l a 0 H) as (_ & E2 & E3 & E4 & E5). exists (lin_arcs 0 (items l a)).
  split; [|auto]. intros q. rewrite concat_lin', zlen_lin. replace (zlen (items l a) + 1 - 1) with (0 + zlen (items l a)) by lia.
  apply (lin_path (items l a) 0 []). intros b [].
Qed.

(** C17: linear_fst of one pair of sequences. *)
Theorem C17_linear_fst : forall labels aux sched,
  labels <> [] -> ~ In (-1) labels -> zlen labels = zlen aux -> is_sched (zlen labels + 1) sched ->
  exists T ids, linear_fst_one sched labels aux = Some (mkOut (flat (fsa_of T)) ids [], aux_of T) /\
    one_path T labels aux /\ (Forall (fun x => 0 <= x) labels -> valid (fsa_of T)).
Proof.
  intros l a sched Hne H1 HL Hs. exists (lin (items l a)), (ids_of (linear_nested l)).
  rewrite lin_items_fsa by auto. split; [|split].
  - unfold linear_fst_one. rewrite linear_fsa_eq by auto.
    assert (R : exists x, rd l 0 = Some x) by (destruct l; [congruence|]; eexists; reflexivity). destruct R as (x & ->).
    cbn [o_fsa flat arcs]. replace (zlen (a ++ [-1]) =? _) with true.
    + unfold aux_of. rewrite concat_lin'. destruct (items_facts l a 0 HL) as (_ & _ & E & _). unfold olabels in E. now rewrite E.
    + symmetry. pose proof (all_arcs_linear l) as E. unfold all_arcs in E. rewrite E, zlen_linear_arcs, zlen_app.
      change (zlen [-1]) with 1. lia.
  - now apply lin_one_path.
  - apply linear_valid.
Qed.
Print Assumptions C17_linear_fst.
Example C17_linear_fst_ex : [3; 0; 4] <> [] /\ ~ In (-1) [3; 0; 4] /\ zlen [3; 0; 4] = zlen [7; 8; 0] /\
  is_sched (zlen [3; 0; 4] + 1) [2; 0; 3; 1].
Proof. split; [discriminate|]. split; [cbn; lia|]. split; [reflexivity|]. solve_sched. Qed.

(** ... of a batch. *)
Theorem C17_linear_fst_batch : forall labels aux sched,
  labels <> [] -> Forall2 (fun l a => zlen l = zlen a) labels aux ->
  is_sched (zlen (concat labels) + 2 * zlen labels) sched ->
  exists Ts o, linear_fst_batch sched labels aux = Some (o, map snd (concat (concat Ts))) /\
    vo_vec o = vec_of Ts /\ Forall2 (fun la T => one_path T (fst la) (snd la)) (combine labels aux) Ts.
Proof.
  intros ls az sched Hne HF Hs. exists (map (fun la => lin (items (fst la) (snd la))) (combine ls az)).
  exists (mkVOut (flat_vec (map linear_nested ls)) (ids_of (concat (map linear_nested ls))) []).
  split; [|split].
  - unfold linear_fst_batch. fold (splits_of ls). rewrite linear_fsas_ok by auto.
    assert (R : exists x, rd ls 0 = Some x) by (destruct ls; [congruence|]; eexists; reflexivity). destruct R as (x & ->).
    assert (R : exists x, rd az 0 = Some x) by (destruct HF; [congruence|]; eexists; reflexivity). destruct R as (x' & ->).
    cbn [vo_vec flat_vec v_arcs].
    assert (E : concat (map (fun l => l ++ [-1]) az) = map snd (concat (concat (map (fun la => lin (items (fst la) (snd la))) (combine ls az))))).
    { clear -HF. induction HF as [|l a ls az H HF IH]; auto. cbn [combine map concat]. rewrite concat_app, map_app, IH. f_equal.
      rewrite concat_lin'. destruct (items_facts l a 0 H) as (_ & _ & E & _). now rewrite <- E. }
    assert (E2 : zlen (concat (map (fun l => l ++ [-1]) az)) = zlen (concat (concat (map linear_nested ls)))).
    { clear -HF. induction HF as [|l a ls az H HF IH]; auto. cbn [map concat]. rewrite concat_app, !zlen_app, IH.
      pose proof (all_arcs_linear l) as E. unfold all_arcs in E. rewrite E, zlen_linear_arcs. change (zlen [-1]) with 1. lia. }
    rewrite E2. replace (_ =? _) with true by lia. now rewrite <- E.
  - cbn [vo_vec]. unfold vec_of. f_equal. clear -HF. induction HF as [|l a ls az H HF IH]; auto. cbn [combine map]. f_equal; auto.
    symmetry. apply (lin_items_fsa l a H).
  - clear -HF. induction HF as [|l a ls az H HF IH]; cbn [combine map]; constructor; auto. now apply lin_one_path.
Qed.
Print Assumptions C17_linear_fst_batch.
Example C17_linear_fst_batch_ex : [[1; 2]; []; [3]] <> [] /\
  Forall2 (fun l a : list Z => zlen l = zlen a) [[1; 2]; []; [3]] [[4; 5]; []; [6]] /\
  is_sched (zlen (concat [[1; 2]; []; [3]]) + 2 * zlen [[1; 2]; []; [3]]) (zrange 9).
Proof. split; [discriminate|]. split; [repeat constructor|]. solve_sched. Qed.

(** Findings: the empty sequence is refused; sequences of different lengths are
    accepted when the totals agree, and then outputs move between FSTs. *)
Theorem C17_empty_refuted : forall aux sched, linear_fst_one sched [] aux = None.
Proof. intros. unfold linear_fst_one. destruct (linear_fsa sched []); reflexivity. Qed.
Print Assumptions C17_empty_refuted.
Theorem C17_batch_lengths_refuted : exists labels aux sched o a,
  is_sched (zlen (concat labels) + 2 * zlen labels) sched /\
  ~ Forall2 (fun l a => zlen l = zlen a) labels aux /\
  linear_fst_batch sched labels aux = Some (o, a) /\
  v_rs1 (vo_vec o) = [0; 4; 7] /\ (* the first FST has the arcs 0, 1, 2 *) firstn 3 a = [7; -1; 8].
Proof.
  exists [[1; 2]; [3]], [[7]; [8; 9]], (zrange 7). do 2 eexists. split; [solve_sched|]. split.
  - intros H. inversion H; subst. discriminate.
  - split; [vm_compute; reflexivity|]. split; reflexivity.
Qed.
Print Assumptions C17_batch_lengths_refuted.

(** linear_fst_with_self_loops.  [itss] gives the linear FSTs of the batch, arc
    by arc: label (0 is epsilon), output label, score.  The result maps exactly
    the sequence of non-epsilon labels to the sequence of positive outputs, with
    the sum of the scores, and every arc with label epsilon is a self-loop with
    no output and score zero.  Three kernels run, each in any order. *)
Definition kept_labels (its : list (Z * Z * Z)) : list Z := filter (fun x => 0 <? x) (map (fun it => fst (fst it)) its).
Definition kept_outputs (its : list (Z * Z * Z)) : list Z := filter (fun x => 0 <? x) (map (fun it => snd (fst it)) its).

Lemma base_size itss : Forall lin_ok itss ->
  zlen (concat (map base itss)) = zlen (concat (map kept_labels itss)) + 2 * zlen itss /\
  zlen (concat (concat (map base itss))) = zlen (concat (map kept_labels itss)) + zlen itss.
Proof.
  induction 1 as [|its l H _ (I1 & I2)]; [split; reflexivity|]. cbn [map concat]. rewrite concat_app, !zlen_app, I1, I2, zlen_cons.
  pose proof (crows_labels its H) as E. apply (f_equal zlen) in E. rewrite zlen_map, zlen_app in E. change (zlen [-1]) with 1 in E.
  unfold plab in E. rewrite base_arcs, zlen_imap. unfold base. rewrite zlen_app, zlen_imap. change (zlen [[]]) with 1.
  unfold kept_labels, il in *. lia.
Qed.

Theorem C17_fst_with_self_loops : forall itss sched1 sched2 sched3,
  itss <> [] -> Forall lin_ok itss ->
  let n := zlen (concat (map kept_labels itss)) in
  is_sched (n + 2 * zlen itss) sched1 -> is_sched (2 * n + 3 * zlen itss) sched2 -> is_sched (n + 2 * zlen itss) sched3 ->
  exists o Ts,
    linear_fst_with_self_loops sched1 sched2 sched3 (vec_of (map lin itss)) (map snd (concat (concat (map lin itss)))) =
      Some (o, map snd (concat (concat Ts))) /\
    vo_vec o = vec_of Ts /\
    Forall2 (fun its T =>
      (forall x y s, relates_l T x y s <-> x = kept_labels its /\ y = kept_outputs its /\ s = zsum (map snd its)) /\
      (forall b, In b (concat T) -> lab (fst b) = 0 -> exists k, b = (mkArc k k 0 0, []))) itss Ts.
Proof.
  intros itss s1 s2 s3 Hne HF n H1 H2 H3. destruct (base_size itss HF) as (B1 & B2).
  destruct (fst_with_loops_ok itss HF s1 s2 s3 Hne) as (o & E1 & E2 & _).
  - exact H1.
  - rewrite B1, B2. fold n. replace (n + zlen itss + (n + 2 * zlen itss)) with (2 * n + 3 * zlen itss) by lia. exact H2.
  - rewrite B1. exact H3.
  - exists o, (map with_self_loops itss). split; [exact E1|]. split; [exact E2|].
    clear -HF. induction HF as [|its l H HF IH]; cbn [map]; constructor; auto. split.
    + intros. now apply wsl_relates.
    + intros b Hb L. apply wsl_in in Hb as [(k & _ & ->)|(k & g & Hg & ->)]; [eauto|]. exfalso.
      apply rd_In in Hg. now apply (glab_nz its H) in Hg.
Qed.
Print Assumptions C17_fst_with_self_loops.
Example C17_fst_with_self_loops_ex :
  let itss := [[(0, 3, 1); (5, 0, 2); (0, 4, 3); (-1, -1, 4)]; [(-1, -1, 0)]] in
  itss <> [] /\ Forall lin_ok itss /\
  let n := zlen (concat (map kept_labels itss)) in
  is_sched (n + 2 * zlen itss) (zrange 5) /\ is_sched (2 * n + 3 * zlen itss) (rev (zrange 8)) /\ is_sched (n + 2 * zlen itss) (zrange 5).
Proof.
  cbn zeta. split; [discriminate|]. split.
  - constructor; [|constructor; [|constructor]].
    + exists [(0, 3, 1); (5, 0, 2); (0, 4, 3)], (-1), 4. split; [reflexivity|]. repeat constructor; cbv; discriminate.
    + exists [], (-1), 0. split; [reflexivity|constructor].
  - split; [solve_sched|split; solve_sched].
Qed.

(** linear_fsa_with_self_loops, for any FSAs: the result accepts the sequence of
    positive labels of the input's arcs, with score 0. *)
Theorem C17_fsa_with_self_loops : forall (fs : list nfsa) sched1 sched2 sched3,
  fs <> [] ->
  let syms := map (fun f => filter (fun x => 0 <? x) (map lab (all_arcs f))) fs in
  is_sched (zlen (concat syms) + 2 * zlen fs) sched1 -> is_sched (2 * zlen (concat syms) + 3 * zlen fs) sched2 ->
  is_sched (zlen (concat syms) + 2 * zlen fs) sched3 ->
  exists o gs, linear_fsa_with_self_loops sched1 sched2 sched3 (flat_vec fs) = Some o /\ vo_vec o = flat_vec gs /\
    Forall2 (fun w g => (forall x s, accepts_str g x s <-> x = w /\ s = 0) /\
                        forall a, In a (all_arcs g) -> lab a = 0 -> a = mkArc (src a) (src a) 0 0) syms gs.
Proof.
  intros fs s1 s2 s3 Hne syms H1 H2 H3. unfold linear_fsa_with_self_loops, labels_by_fsa, flat_vec at 1 2 3. cbn [v_rs1 v_rs2 v_arcs].
  rewrite splits_compose.
  assert (E0 : to_vec_vec (splits_of (map (@concat arc) fs)) (map lab (concat (concat fs))) = Some (map (map lab) (map (@concat arc) fs))).
  { rewrite <- (splits_of_map_map lab), <- concat_map_concat, concat_map. apply to_vec_vec_ok. }
  rewrite E0.
  assert (E1 : positive (map (map lab) (map (@concat arc) fs)) = syms).
  { unfold positive, syms. rewrite !map_map. reflexivity. }
  rewrite E1. fold (splits_of syms).
  assert (LS : zlen syms = zlen fs) by apply zlen_map.
  rewrite linear_fsas_ok by now rewrite LS. cbn [vo_vec].
  assert (POS : Forall (Forall (fun x => 0 <= x)) syms).
  { apply Forall_forall. intros l Hl. apply in_map_iff in Hl as (f & <- & _). apply Forall_forall. intros x Hx.
    apply filter_In in Hx as (_ & Hx). lia. }
  assert (SZ : zlen (concat (map linear_nested syms)) = zlen (concat syms) + 2 * zlen fs /\
               zlen (concat (concat (map linear_nested syms))) = zlen (concat syms) + zlen fs).
  { rewrite <- LS. clear. induction syms as [|l ls (I1 & I2)]; [split; reflexivity|]. cbn [map concat].
    rewrite concat_app, !zlen_app, I1, I2, zlen_linear_nested, zlen_cons. pose proof (all_arcs_linear l) as E. unfold all_arcs in E.
    rewrite E, zlen_linear_arcs. lia. }
  destruct SZ as (Z1 & Z2).
  destruct (add_eps_vec_eq (map linear_nested syms)) with (sched1 := s2) (sched2 := s3) as (rids & m & E & _).
  - apply Forall_forall. intros f Hf. apply in_map_iff in Hf as (l & <- & Hl).
    destruct (linear_valid l) as (V1 & _ & V3); [now apply (proj1 (Forall_forall _ _) POS)|]. split; auto. intros a Ha. now apply V3.
  - rewrite Z1, Z2. replace (zlen (concat syms) + zlen fs + (zlen (concat syms) + 2 * zlen fs)) with (2 * zlen (concat syms) + 3 * zlen fs) by lia. exact H2.
  - rewrite Z1. exact H3.
  - rewrite E. eexists. exists (fs' (map linear_nested syms)). split; [reflexivity|]. split; [reflexivity|].
    unfold fs'. rewrite map_map.
    assert (NZ : Forall (fun l => ~ In 0 l) syms).
    { apply Forall_forall. intros l Hl. apply in_map_iff in Hl as (f & <- & _). intros Hx. apply filter_In in Hx as (_ & Hx). lia. }
    clear -NZ. induction NZ as [|l ls H _ IH]; cbn [map]; constructor; auto. split.
    + intros x s. rewrite add_loops_language. unfold accepts_str. rewrite all_arcs_linear, final_linear.
      assert (ST : strip (l ++ [-1]) = l ++ [-1]).
      { clear -H. induction l as [|a l IH]; auto. cbn [app]. rewrite strip_pos by (intros ->; apply H; now left).
        f_equal. apply IH. intros Hi. apply H. now right. }
      split.
      * intros (p & Hp & Hl & Hs). apply (linear_path_step 0 l []) in Hp; [|simpl; tauto|lia]. subst p.
        rewrite labels_linear, ST in Hl. rewrite score_linear in Hs. apply app_inj_tail in Hl as [-> _]. auto.
      * intros [-> ->]. exists (linear_arcs 0 l). rewrite labels_linear, score_linear, ST. split; auto.
        apply (linear_path_step 0 l []); simpl; auto; try tauto; try lia.
    + intros a Ha L. unfold all_arcs, add_loops in Ha. apply in_concat in Ha as (st & Hst & Ha). apply In_rd in Hst as (i & Hi & Hst).
      rewrite rd_imap in Hst. destruct (rd (linear_nested l) i) as [st0|] eqn:E0; [|discriminate]. cbn in Hst. injection Hst as <-.
      assert (G : In a st0 -> False).
      { intros Hin. assert (Ha' : In a (all_arcs (linear_nested l))) by (apply in_concat; exists st0; split; auto; eapply rd_In; eauto).
        rewrite all_arcs_linear in Ha'. assert (Hl : In (lab a) (l ++ [-1])) by (rewrite <- (labels_linear l 0); now apply in_map).
        rewrite L in Hl. apply in_app_or in Hl as [Hl|[Hl|[]]]; [auto|discriminate]. }
      destruct (_ <? _); [destruct Ha as [<-|Ha]; [reflexivity|]|]; now apply G in Ha.
Qed.
Print Assumptions C17_fsa_with_self_loops.
Example C17_fsa_with_self_loops_ex :
  let fs := [[[mkArc 0 1 0 2]; [mkArc 1 2 7 0]; [mkArc 2 3 (-1) 1]; []]] in
  fs <> [] /\
  let syms := map (fun f => filter (fun x => 0 <? x) (map lab (all_arcs f))) fs in
  is_sched (zlen (concat syms) + 2 * zlen fs) (zrange 3) /\ is_sched (2 * zlen (concat syms) + 3 * zlen fs) (zrange 5) /\
  is_sched (zlen (concat syms) + 2 * zlen fs) [2; 1; 0] /\
  exists o, linear_fsa_with_self_loops (zrange 3) (zrange 5) [2; 1; 0] (flat_vec fs) = Some o /\
    v_arcs (vo_vec o) = [mkArc 0 0 0 0; mkArc 0 1 7 0; mkArc 1 1 0 0; mkArc 1 2 (-1) 0].
Proof.
  cbn zeta. split; [discriminate|]. split; [solve_sched|]. split; [solve_sched|]. split; [solve_sched|].
  eexists. split; [vm_compute; reflexivity|reflexivity].
Qed.

(** ** C37 *)
Lemma valid_in (T : nfst) : src_ok (fsa_of T) -> 2 <= zlen T ->
  (forall b, In b (concat T) -> 0 <= dst (fst b) < zlen T /\ -1 <= lab (fst b) /\
     (lab (fst b) = -1 <-> dst (fst b) = zlen T - 1) /\ src (fst b) <> zlen T - 1) -> valid (fsa_of T).
Proof.
  intros S N H. assert (L : zlen (fsa_of T) = zlen T) by apply zlen_map. split; auto. split; [unfold nstates; lia|].
  intros a Ha. unfold all_arcs, fsa_of in Ha. rewrite <- concat_map in Ha. apply in_map_iff in Ha as (b & <- & Hb).
  unfold nstates, final. unfold nstates. rewrite L. now apply H.
Qed.

(** C37: the standard topology exists for every max_token >= 0, is a valid FST
    with zero scores, and maps every sequence over 0..max_token to exactly its
    CTC collapse. *)
Theorem C37_ctc_topo_standard : forall M, 0 <= M ->
  exists T, ctc_topo M false = Some (flat (fsa_of T), aux_of T) /\ valid (fsa_of T) /\ nstates (fsa_of T) = M + 2 /\
    forall x y s, relates T x y s <-> Forall (fun a => 0 <= a <= M) x /\ y = collapse x /\ s = 0.
Proof.
  intros M HM. exists (std_nested M). split; [now apply std_ok|]. split; [|split].
  - apply valid_in; rewrite ?zlen_std by auto; [now apply std_src_ok|lia|].
    intros b Hb. apply std_in in Hb as (i & j & Hi & Hj & ->); auto. unfold std_arc. cbn [fst src dst lab].
    destruct (j =? M + 1) eqn:E; lia.
  - unfold nstates, fsa_of. rewrite zlen_map. now apply zlen_std.
  - intros. now apply std_relates.
Qed.
Print Assumptions C37_ctc_topo_standard.

(** ... and the modified topology relates x to y iff y is obtained by merging
    some runs of repeats and removing blanks. *)
Theorem C37_ctc_topo_modified : forall M, 0 <= M ->
  exists T, ctc_topo M true = Some (flat (fsa_of T), aux_of T) /\ valid (fsa_of T) /\ nstates (fsa_of T) = M + 2 /\
    forall x y s, relates T x y s <-> Forall (fun a => 0 <= a <= M) x /\ blocks x y /\ s = 0.
Proof.
  intros M HM. exists (mod_nested M). split; [now apply mod_ok|]. split; [|split].
  - apply valid_in; rewrite ?zlen_mod by auto; [now apply mod_src_ok|lia|].
    intros b Hb. apply mod_in in Hb as [(i & Hi & ->)|[(d & Hd & ->)|[->|(d & Hd & [->| ->])]]]; auto; cbn [fst src dst lab]; lia.
  - unfold nstates, fsa_of. rewrite zlen_map. now apply zlen_mod.
  - intros. now apply mod_relates.
Qed.
Print Assumptions C37_ctc_topo_modified.
Example C37_ex : collapse [0; 3; 3; 0; 3; 1; 1; 0] = [3; 3; 1] /\ blocks [3; 3; 0; 1] [3; 3; 1] /\ blocks [3; 3; 0; 1] [3; 1].
Proof.
  split; [reflexivity|]. split.
  - exists [(3, 1%nat); (3, 1%nat); (0, 1%nat); (1, 1%nat)]. repeat split; repeat constructor.
  - exists [(3, 2%nat); (0, 1%nat); (1, 1%nat)]. repeat split; repeat constructor.
Qed.

(** ** C39 *)
Theorem C39_trivial_graph : forall M, 0 <= M ->
  exists T, trivial_graph M = (flat (fsa_of T), aux_of T) /\ valid (fsa_of T) /\ nstates (fsa_of T) = 2 /\
    (forall b, In b (concat T) -> lab (fst b) <> 0) /\
    forall x y s, relates T x y s <-> Forall (fun a => 1 <= a <= M) x /\ y = x /\ s = 0.
Proof.
  intros M HM. exists (triv_nested M). split; [now apply triv_ok|]. split; [|split; [reflexivity|split]].
  - apply valid_in; change (zlen (triv_nested M)) with 2; [|lia|].
    + intros i st a Hi Ha. unfold fsa_of, triv_nested in Hi. cbn [map] in Hi. rewrite rd_cons in Hi. destruct (i =? 0) eqn:E.
      * injection Hi as <-. apply in_map_iff in Ha as (b & <- & Hb).
        assert (Hb' : In b (concat (triv_nested M))) by (unfold triv_nested; cbn [concat]; now rewrite !app_nil_r).
        apply triv_in in Hb' as [(j & _ & ->)| ->]; auto; cbn; lia.
      * rewrite rd_cons in Hi. destruct (i - 1 =? 0); [|now rewrite rd_nil in Hi]. injection Hi as <-. destruct Ha.
    + intros b Hb. apply triv_in in Hb as [(j & Hj & ->)| ->]; auto; cbn [fst src dst lab]; lia.
  - intros b Hb. apply triv_in in Hb as [(j & Hj & ->)| ->]; auto; cbn [fst src dst lab]; lia.
  - intros. now apply triv_relates.
Qed.
Print Assumptions C39_trivial_graph.
Example C39_ex : relates [[(mkArc 0 0 1 0, 1); (mkArc 0 0 2 0, 2); (mkArc 0 1 (-1) 0, -1)]; []] [2; 1] [2; 1] 0 /\
  trivial_graph 2 = (flat (fsa_of [[(mkArc 0 0 1 0, 1); (mkArc 0 0 2 0, 2); (mkArc 0 1 (-1) 0, -1)]; []]), [1; 2; -1]).
Proof.
  split; [|reflexivity]. exists [(mkArc 0 0 2 0, 2); (mkArc 0 0 1 0, 1); (mkArc 0 1 (-1) 0, -1)].
  repeat split. repeat (apply tpath_step; [cbn; auto|reflexivity|]). constructor.
Qed.

(** ** C38 *)
Lemma ctc_valid m syms : Forall (fun a => 1 <= a) syms -> valid (fsa_of (ctc_nested m syms)).
Proof.
  intros H. pose proof (zlen_nonneg syms). unfold ctc_nested. apply valid_tab; [lia|]. intros i b Hi Hb.
  assert (A : forall k, (-1 <= at_or syms k /\ (at_or syms k = -1 <-> ~ 0 <= k < zlen syms))).
  { intros k. unfold at_or. destruct (rd syms k) as [x|] eqn:E.
    - pose proof (rd_Some_bound _ _ _ E). rewrite Forall_forall in H. specialize (H x (rd_In _ _ _ E)). lia.
    - apply rd_None in E. lia. }
  unfold ctc_state in Hb. set (k := i / 2) in *. pose proof (A k) as (A1 & A2). pose proof (A (k + 1)) as (A3 & A4).
  assert (K : i = 2 * k + i mod 2) by (unfold k; apply Z.div_mod; lia). pose proof (mod2 i).
  destruct (i mod 2 =? 0) eqn:E.
  - destruct Hb as [<-|[<-|[]]]; cbn [fst src dst lab]; lia.
  - destruct (k =? zlen syms) eqn:E2; [destruct Hb|]. apply in_app_or in Hb as [Hb|Hb].
    + destruct Hb as [<-|[<-|[]]]; cbn [fst src dst lab]; lia.
    + destruct (_ && _); [destruct Hb|]. destruct Hb as [<-|[]]; cbn [fst src dst lab]; lia.
Qed.

(** C38: for every batch of token sequences (tokens >= 1) the builder succeeds,
    and the i-th graph is a valid FST which accepts, with score zero and output
    y, exactly the frame sequences whose collapse is y (standard), respectively
    those which y can be read off without a blank between equal symbols
    (modified). *)
Theorem C38_ctc_graph : forall modified ys, Forall (Forall (fun a => 1 <= a)) ys ->
  exists Ts, ctc_graphs (splits_of ys) (concat ys) modified = Some (vec_of Ts, map snd (concat (concat Ts))) /\
    Forall2 (fun y T => valid (fsa_of T) /\
      forall x z s, relates T x z s <-> (if modified then blocks x y else collapse x = y) /\ z = y /\ s = 0) ys Ts.
Proof.
  intros m ys H. exists (map (ctc_nested m) ys). split.
  - apply ctc_graphs_ok. intros Hin. apply in_concat in Hin as (l & Hl & Hx). rewrite Forall_forall in H. specialize (H l Hl).
    rewrite Forall_forall in H. specialize (H _ Hx). lia.
  - clear -H. induction H as [|y ys Hy _ IH]; cbn [map]; constructor; auto. split; [now apply ctc_valid|].
    intros x z s. rewrite ctc_relates by auto. destruct m; [rewrite crel_true_0|rewrite crel_false_0]; tauto.
Qed.
Print Assumptions C38_ctc_graph.
Example C38_ex : Forall (Forall (fun a => 1 <= a)) [[1; 1; 2]; []; [3]] /\
  collapse [0; 1; 0; 1; 1; 2] = [1; 1; 2] /\ collapse [1; 1; 2] <> [1; 1; 2] /\ blocks [1; 1; 2] [1; 1; 2].
Proof.
  split; [repeat constructor; cbv; discriminate|]. split; [reflexivity|]. split; [discriminate|].
  exists [(1, 1%nat); (1, 1%nat); (2, 1%nat)]. repeat split; repeat constructor.
Qed.

(** A -1 in the tokens is rejected by the standard builder only (finding). *)
Theorem C38_final_label_refuted :
  ctc_graphs (splits_of [[-1]]) (concat [[-1]]) false = None /\
  exists r, ctc_graphs (splits_of [[-1]]) (concat [[-1]]) true = Some r /\
    exists a, In a (v_arcs (fst r)) /\ lab a = -1 /\ dst a <> 3.
Proof.
  split; [vm_compute; reflexivity|]. eexists. split; [vm_compute; reflexivity|]. exists (mkArc 0 1 (-1) 0). cbn. repeat split; auto; discriminate.
Qed.
Print Assumptions C38_final_label_refuted.

(** ** C40 *)
Lemma lev_valid h d syms : Forall (fun a => 1 <= a) syms -> valid (map (map fst) (lev_nested h d syms)).
Proof.
  intros H. pose proof (zlen_nonneg syms). unfold lev_nested. apply valid_tab; [lia|]. intros i b Hi Hb.
  unfold lev_state in Hb. destruct (i =? zlen syms + 1) eqn:E1; [destruct Hb|].
  destruct Hb as [<-|Hb]; [cbn [fst src dst lab]; lia|]. destruct (i =? zlen syms) eqn:E2.
  - destruct Hb as [<-|[]]. cbn [fst src dst lab]. lia.
  - assert (A : 1 <= at_or syms i).
    { unfold at_or. destruct (rd_in_bound syms i) as (x & E); [lia|]. rewrite E. rewrite Forall_forall in H. apply H. eapply rd_In; eauto. }
    destruct Hb as [<-|[<-|[]]]; cbn [fst src dst lab]; lia.
Qed.

(** What the levenshtein graphs [G] of [ref] and [H] of [hyp] say about the
    alignment.  A joint path is a path of their intersection; its total score is
    the sum of the two scores. *)
Definition best_joint (G H : list (list (arc * (Z * Z)))) p q : Prop :=
  joint G H p q /\ forall p' q', joint G H p' q' -> tscore p' + tscore q' <= tscore p + tscore q.

Lemma lev_pair h d ref hyp : 0 <= h -> d <= 0 -> Forall (fun a => 1 <= a) ref -> Forall (fun a => 1 <= a) hyp ->
  let G := lev_nested h d ref in let H := lev_nested h d hyp in
  (forall p q, joint G H p q -> strip (aux1 p) = ref ++ [-1] /\ strip (aux1 q) = hyp ++ [-1] /\
     tscore p + tscore q <= - edit (2 * h) (h - d) ref hyp) /\
  (exists p q, joint G H p q /\ tscore p + tscore q = - edit (2 * h) (h - d) ref hyp).
Proof.
  intros Hh Hd F1 F2 G H.
  assert (R1 : forall a, In a ref -> a <> 0 /\ a <> -1).
  { intros a Ha. rewrite Forall_forall in F1. specialize (F1 a Ha). lia. }
  assert (R2 : forall a, In a hyp -> a <> 0 /\ a <> -1).
  { intros a Ha. rewrite Forall_forall in F2. specialize (F2 a Ha). lia. }
  pose proof (zlen_nonneg ref). pose proof (zlen_nonneg hyp). split.
  - intros p q (J1 & J2 & J3). unfold G, H in J1, J2. rewrite zlen_lev in J1, J2.
    destruct (joint_fwd h d ref hyp R1 R2 p q 0 0) as (ns & ni & nl & A1 & A2 & A3 & A4 & A5 & A6); auto; try lia.
    { replace (zlen ref + 1) with (zlen ref + 2 - 1) by lia. exact J1. }
    { replace (zlen hyp + 1) with (zlen hyp + 2 - 1) by lia. exact J2. }
    split; [exact A5|]. split; [exact A6|]. change (skipn (Z.to_nat 0) ref) with ref in A1.
    change (skipn (Z.to_nat 0) hyp) with hyp in A1. pose proof (edit_le (2 * h) (h - d) ltac:(lia) ltac:(lia) _ _ _ _ A1). nia.
  - destruct (edit_attained (2 * h) (h - d) ref hyp) as (ns & ni & A & E).
    destruct (joint_bwd h d ref hyp R1 R2 ref hyp ns ni A 0 0) as (p & q & P1 & P2 & P3 & P4 & _); auto; try lia.
    exists p, q. unfold joint, G, H. rewrite !zlen_lev. replace (zlen ref + 2 - 1) with (zlen ref + 1) by lia.
    replace (zlen hyp + 2 - 1) with (zlen hyp + 1) by lia. split; [auto|lia].
Qed.

(** C40, exact form: the best joint path scores minus the weighted edit distance
    with substitutions 2h and insertions/deletions h - d (h = 0.5 and d =
    ins_del_score give 1 and 0.5 - d); every joint path spells [ref] and [hyp]
    in its aux labels. *)
Theorem C40_weighted : forall h d ys, 0 <= h -> d <= 0 ->
  Forall (Forall (fun a => 1 <= a)) ys ->
  exists Gs, levenshtein_graphs h d (splits_of ys) (concat ys) = Some (vec_of Gs, map snd (concat (concat Gs))) /\
    Forall (fun G => valid (map (map fst) G)) Gs /\
    forall i j ref hyp, rd ys i = Some ref -> rd ys j = Some hyp ->
    exists G H, rd Gs i = Some G /\ rd Gs j = Some H /\
      (forall p q, joint G H p q -> strip (aux1 p) = ref ++ [-1] /\ strip (aux1 q) = hyp ++ [-1]) /\
      (exists p q, best_joint G H p q) /\
      (forall p q, best_joint G H p q -> tscore p + tscore q = - edit (2 * h) (h - d) ref hyp).
Proof.
  intros h d ys Hh Hd HF. exists (map (lev_nested h d) ys).
  assert (NI : forall a, In a (concat ys) -> 1 <= a).
  { intros a Ha. apply in_concat in Ha as (l & Hl & Hx). rewrite Forall_forall in HF. specialize (HF l Hl).
    rewrite Forall_forall in HF. now apply HF. }
  split; [apply lev_graphs_ok; intros K; apply NI in K; lia|]. split.
  { apply Forall_forall. intros G HG. apply in_map_iff in HG as (y & <- & Hy). apply lev_valid. now apply (proj1 (Forall_forall _ _) HF). }
  intros i j ref hyp Hi Hj. exists (lev_nested h d ref), (lev_nested h d hyp).
  split; [now rewrite rd_map, Hi|]. split; [now rewrite rd_map, Hj|].
  destruct (lev_pair h d ref hyp Hh Hd) as (UP & p0 & q0 & AT1 & AT2).
  { apply (proj1 (Forall_forall _ _) HF). eapply rd_In; eauto. }
  { apply (proj1 (Forall_forall _ _) HF). eapply rd_In; eauto. }
  split; [|split].
  - intros p q Hpq. destruct (UP p q Hpq) as (? & ? & _). auto.
  - exists p0, q0. split; auto. intros p' q' Hpq. rewrite AT2. now apply UP.
  - intros p q (P1 & P2). specialize (P2 _ _ AT1). destruct (UP _ _ P1) as (_ & _ & ?). lia.
Qed.
Print Assumptions C40_weighted.

Lemma lev_dist h d ref hyp : 0 < h -> d < 0 -> (forall a, In a ref -> a <> 0 /\ a <> -1) -> (forall a, In a hyp -> a <> 0 /\ a <> -1) ->
  Z.abs (d + h) * (zlen ref + zlen hyp) < 2 * h ->
  forall p q, best_joint (lev_nested h d ref) (lev_nested h d hyp) p q -> tscore p + tscore q - (offs p + offs q) = - (2 * h) * levenshtein ref hyp.
Proof.
  intros Hh Hd R1 R2 SM.
  pose proof (zlen_nonneg ref). pose proof (zlen_nonneg hyp).
  intros p q ((J1 & J2 & J3) & BEST). rewrite zlen_lev in J1, J2.
  destruct (joint_fwd h d ref hyp R1 R2 p q 0 0) as (ns & ni & nl & F1 & F2 & F3 & F4 & _); auto; try lia.
  { replace (zlen ref + 1) with (zlen ref + 2 - 1) by lia. exact J1. }
  { replace (zlen hyp + 1) with (zlen hyp + 2 - 1) by lia. exact J2. }
  change (skipn (Z.to_nat 0) ref) with ref in F1. change (skipn (Z.to_nat 0) hyp) with hyp in F1.
  destruct (edit_attained 1 1 ref hyp) as (ms & mi & A & E). fold levenshtein in E.
  pose proof (edit_le 1 1 ltac:(lia) ltac:(lia) _ _ _ _ F1) as LE. change (edit 1 1 ref hyp) with (levenshtein ref hyp) in E, LE.
  assert (B : forall ks ki, align ref hyp ks ki -> - (2 * h) * ks - (h - d) * ki <= tscore p + tscore q).
  { intros ks ki K. destruct (joint_bwd h d ref hyp R1 R2 ref hyp ks ki K 0 0) as (p' & q' & P1 & P2 & P3 & P4 & _); auto; try lia.
    rewrite <- P4. apply BEST. unfold joint. rewrite !zlen_lev. replace (zlen ref + 2 - 1) with (zlen ref + 1) by lia.
    replace (zlen hyp + 2 - 1) with (zlen hyp + 1) by lia. auto. }
  pose proof (B _ _ F1) as B1. rewrite F3 in B1. assert (NL : nl = 0) by nia. subst nl.
  pose proof (B _ _ A) as B2. destruct (align_nonneg _ _ _ _ F1) as (N1 & N2 & N3). destruct (align_nonneg _ _ _ _ A) as (N4 & N5 & N6).
  rewrite F3 in *. rewrite F4. rewrite E in *.
  assert (EQ : ns + ni = ms + mi).
  { assert (K : (d + h) * (ni - mi) <= Z.abs (d + h) * (zlen ref + zlen hyp)).
    { destruct (Z_le_gt_dec 0 (d + h)); [rewrite Z.abs_eq by lia|rewrite Z.abs_neq by lia]; nia. }
    assert ((2 * h) * (ns + ni - (ms + mi)) <= (d + h) * (ni - mi)) by lia.
    assert (2 * h * (ns + ni - (ms + mi)) < 2 * h * 1) by lia. nia. }
  replace (d + h) with (- (h - d) + 2 * h) by lia. nia.
Qed.

(** C40: after the offsets are subtracted, the score of a best joint path is
    minus the Levenshtein distance (unit 2h), provided the tie-breaking
    perturbation |d + h| times the total length is below one unit. *)
Theorem C40_levenshtein : forall h d ys, 0 < h -> d < 0 ->
  Forall (Forall (fun a => 1 <= a)) ys ->
  exists Gs, levenshtein_graphs h d (splits_of ys) (concat ys) = Some (vec_of Gs, map snd (concat (concat Gs))) /\
    forall i j ref hyp, rd ys i = Some ref -> rd ys j = Some hyp ->
    Z.abs (d + h) * (zlen ref + zlen hyp) < 2 * h ->
    exists G H, rd Gs i = Some G /\ rd Gs j = Some H /\
      forall p q, best_joint G H p q ->
        tscore p + tscore q - (offs p + offs q) = - (2 * h) * levenshtein ref hyp.
Proof.
  intros h d ys Hh Hd HF. exists (map (lev_nested h d) ys).
  assert (NI : forall a, In a (concat ys) -> 1 <= a).
  { intros a Ha. apply in_concat in Ha as (l & Hl & Hx). rewrite Forall_forall in HF. specialize (HF l Hl).
    rewrite Forall_forall in HF. now apply HF. }
  split; [apply lev_graphs_ok; intros K; apply NI in K; lia|].
  intros i j ref hyp Hi Hj SM. exists (lev_nested h d ref), (lev_nested h d hyp).
  split; [now rewrite rd_map, Hi|]. split; [now rewrite rd_map, Hj|].
  assert (R1 : forall a, In a ref -> a <> 0 /\ a <> -1).
  { intros a Ha. assert (1 <= a); [|lia]. apply NI, in_concat. exists ref. split; auto. eapply rd_In; eauto. }
  assert (R2 : forall a, In a hyp -> a <> 0 /\ a <> -1).
  { intros a Ha. assert (1 <= a); [|lia]. apply NI, in_concat. exists hyp. split; auto. eapply rd_In; eauto. }
  now apply lev_dist.
Qed.
Print Assumptions C40_levenshtein.

(** the default ins_del_score -0.501, in thousandths: exact for total length
    below 1000 *)
Example C40_default_ex : 0 < 500 /\ -501 < 0 /\ Forall (Forall (fun a => 1 <= a)) [[1; 2; 4]; [1; 3; 3; 2]] /\
  Z.abs (-501 + 500) * (zlen [1; 2; 4] + zlen [1; 3; 3; 2]) < 2 * 500 /\ levenshtein [1; 2; 4] [1; 3; 3; 2] = 3.
Proof. split; [lia|]. split; [lia|]. split; [repeat constructor; cbv; discriminate|]. split; [cbv; reflexivity|reflexivity]. Qed.

(** Without that bound the claim is false: with ins_del_score = -1.75 the best
    joint path of 123 and 231 uses three substitutions although the distance is
    two (finding). *)
Theorem C40_levenshtein_refuted : exists h d ref hyp G H p q,
  0 < h /\ d < 0 /\
  levenshtein_graphs h d (splits_of [ref; hyp]) (concat [ref; hyp]) = Some (vec_of [G; H], map snd (concat (concat [G; H]))) /\
  best_joint G H p q /\
  levenshtein ref hyp = 2 /\ tscore p + tscore q - (offs p + offs q) = - (2 * h) * 3.
Proof.
  exists 2, (-7), [1; 2; 3], [2; 3; 1], (lev_nested 2 (-7) [1; 2; 3]), (lev_nested 2 (-7) [2; 3; 1]).
  exists [sub_arc 2 0 1; sub_arc 2 1 2; sub_arc 2 2 3; fin_arc 3], [sub_arc 2 0 2; sub_arc 2 1 3; sub_arc 2 2 1; fin_arc 3].
  split; [lia|]. split; [lia|]. split; [vm_compute; reflexivity|]. split; [|split; reflexivity]. split.
  - unfold joint. split; [|split; [|reflexivity]]; change (zlen _ - 1) with 4;
      repeat (apply tpath_step; [vm_compute; tauto|reflexivity|]); constructor.
  - intros p' q' Hj. destruct (lev_pair 2 (-7) [1; 2; 3] [2; 3; 1]) as (UP & _); [lia|lia| | |].
    1,2: repeat constructor; cbv; discriminate.
    apply UP in Hj as (_ & _ & Hj). vm_compute in Hj |- *. exact Hj.
Qed.
Print Assumptions C40_levenshtein_refuted.
