(** * C65: levenshtein_alignment *)
From Coq Require Import ZArith List Lia Lra Bool Reals.
From Coq Require Import ZifyBool.
From Verif Require Import Base RaggedModel RaggedSpec RaggedProofs RaggedOpsModel RaggedOpsProofs OpsModel FsaSpec FsaLemmas PropsSpec ConnectSpec ConnectModel ConnectProofs BatchModel LogReal FsaOpsModel GraphModel FstSpec GraphProofs LevProofs GraphProps
  ScoreModel ScoreSpec PathSums ScoreProps ShortestModel ShortestSpec ComposeProps IDevModel LevAlignModel LevAlignSpec LevAlignProofs.
Import ListNotations.
Open Scope Z_scope.

(** C65.  [u] is the unit of the scores: 2h = 1 in fsa_utils.cu. *)
Theorem C65_alignment : forall (u : R) h d fuel ord lp sched lp' sched' refs hyps m sorted,
  (0 < u)%R -> 0 < h -> d < 0 ->
  Forall (Forall (fun a => 1 <= a < 2 ^ 31)) refs -> Forall (Forall (fun a => 1 <= a < 2 ^ 31)) hyps -> hyps <> [] ->
  zlen m = zlen hyps -> (forall i, In i m -> 0 <= i < zlen refs) ->
  (forall k i r y, rd m k = Some i -> rd refs i = Some r -> rd hyps k = Some y -> Z.abs (d + h) * (zlen r + zlen y) < 2 * h) ->
  table_size refs hyps m < int_max -> table_size refs hyps m + 2 <= Z.of_nat fuel ->
  fair ord -> is_sched (zlen hyps * 2 ^ Z.of_nat lp) sched -> is_sched (zlen hyps * 2 ^ Z.of_nat lp') sched' ->
  exists gr gh gh' colss,
    levenshtein_graph h d (splits_of refs) (concat refs) = Some gr /\
    levenshtein_graph h d (splits_of hyps) (concat hyps) = Some gh /\
    levenshtein_alignment u fuel ord lp sched lp' sched' gr gh m sorted =
      Some (mkAl (flat_vec (map alignment_fsa colss)) (map c_ref (concat colss)) (map c_hyp (concat colss)), gh') /\
    zlen colss = zlen hyps /\
    forall k i r y cs, rd m k = Some i -> rd refs i = Some r -> rd hyps k = Some y -> rd colss k = Some cs -> aligns_best (2 * h) r y cs.
Proof.
  intros u h d fuel ord lp sched lp' sched' refs hyps m sorted Hu Hh Hd FR FY NE Zm Bm PB SM HF FO SC SC'.
  destruct (align_run h d Hh Hd refs hyps FR FY NE m Zm Bm ord FO fuel HF SM sorted u Hu lp lp' sched sched' SC SC' PB) as (colss & E & Z1 & K).
  assert (NI : forall ys, Forall (Forall (fun a => 1 <= a < 2 ^ 31)) ys -> forall a, In a (concat ys) -> 1 <= a).
  { intros ys F a Ha. apply in_concat in Ha as (l & Hl & Hx). rewrite Forall_forall in F. specialize (F l Hl). rewrite Forall_forall in F. apply F in Hx. lia. }
  do 4 eexists. split; [|split; [|split; [exact E|split; [exact Z1|exact K]]]].
  - unfold levenshtein_graph. rewrite lev_graphs_ok by (intros I; apply (NI refs FR) in I; lia). reflexivity.
  - unfold levenshtein_graph. rewrite lev_graphs_ok by (intros I; apply (NI hyps FY) in I; lia). reflexivity.
Qed.
Print Assumptions C65_alignment.

(** *** The distance *)
Lemma al_arcs cs : all_arcs (alignment_fsa cs) = imap (fun t c => mkArc t (t + 1) (c_lab c) (c_sc c)) 0 cs.
Proof. unfold all_arcs, alignment_fsa. rewrite concat_app. cbn [concat app]. rewrite app_nil_r. generalize 0. induction cs as [|c cs IH]; intros k; [reflexivity|]. cbn. now rewrite IH. Qed.
Lemma rd_al_arcs cs j : rd (all_arcs (alignment_fsa cs)) j = option_map (fun c => mkArc j (j + 1) (c_lab c) (c_sc c)) (rd cs j).
Proof. rewrite al_arcs, rd_imap, Z.add_0_l. reflexivity. Qed.
Lemma al_zlen cs : zlen (alignment_fsa cs) = zlen cs + 1.
Proof. unfold alignment_fsa. now rewrite zlen_app, zlen_imap. Qed.
Lemma al_path cs s p t : apath (alignment_fsa cs) s p t -> zlen p = t - s /\ forall i, 0 <= i < t - s -> rd p i = Some (s + i).
Proof.
  induction 1 as [s|j a p t Ha P (I1 & I2)]; [split; [rewrite zlen_nil; lia|intros; lia]|]. rewrite rd_al_arcs in Ha. destruct (rd cs j); [|discriminate]. injection Ha as <-. cbn [src dst] in *. pose proof (zlen_nonneg p). split; [rewrite zlen_cons; lia|].
  intros i Hi. rewrite rd_cons. destruct (i =? 0) eqn:E; [f_equal; lia|]. rewrite I2 by lia. f_equal. lia.
Qed.
Lemma al_path_ex cs : forall n, 0 <= n -> forall s, 0 <= s -> s + n = zlen cs -> exists p, apath (alignment_fsa cs) s p (zlen cs).
Proof.
  intros n Hn. pattern n. apply natlike_ind; auto; clear n Hn.
  - intros s _ E. exists []. replace (zlen cs) with s by lia. constructor.
  - intros n Hn IH s Hs E. destruct (IH (s + 1) ltac:(lia) ltac:(lia)) as (p & P). destruct (rd_in_bound cs s ltac:(lia)) as (c & Hc). exists (s :: p). pose proof (rd_al_arcs cs s) as R. rewrite Hc in R. exact (ap_cons _ _ _ _ _ R P).
Qed.
Lemma al_successful cs p : successful (alignment_fsa cs) p <-> p = zrange (zlen cs).
Proof.
  pose proof (zlen_nonneg cs) as Z0. unfold successful, nstates. rewrite al_zlen. replace (zlen cs + 1 - 1) with (zlen cs) by lia.
  assert (U : forall p, apath (alignment_fsa cs) 0 p (zlen cs) -> p = zrange (zlen cs)).
  { intros q A. destruct (al_path _ _ _ _ A) as (P1 & P2). apply list_ext_rd; [rewrite zlen_zrange by lia; lia|]. intros i Hi. rewrite P2, rd_zrange by lia. f_equal. }
  split; [intros (_ & A); auto|]. intros ->. split; [lia|]. destruct (al_path_ex cs (zlen cs) Z0 0 ltac:(lia) ltac:(lia)) as (p' & A). pose proof A as A'. apply U in A'. now rewrite <- A'.
Qed.
Lemma al_wf cs : well_formed (alignment_fsa cs) /\ p_topsorted_acyclic (alignment_fsa cs).
Proof.
  assert (X : forall a, In a (all_arcs (alignment_fsa cs)) -> exists j, 0 <= j < zlen cs /\ src a = j /\ dst a = j + 1). { intros a Ha. apply In_rd in Ha as (j & Bj & Ha). rewrite rd_al_arcs in Ha. destruct (rd cs j) eqn:E; [|discriminate]. injection Ha as <-. exists j. split; [exact (rd_Some_bound _ _ _ E)|auto]. }
  split; [split|].
  - intros i st a Hi Ha. unfold alignment_fsa in Hi. pose proof (rd_Some_bound _ _ _ Hi) as B. rewrite zlen_app, zlen_imap in B. destruct (Z_lt_le_dec i (zlen cs)) as [L|L].
    + rewrite rd_app_l, rd_imap in Hi by (rewrite zlen_imap; lia). destruct (rd cs i); [|discriminate]. injection Hi as <-. destruct Ha as [<-|[]]. reflexivity.
    + rewrite rd_app_r in Hi by (rewrite zlen_imap; lia). rewrite rd_cons in Hi. destruct (_ =? 0); [injection Hi as <-; destruct Ha|rewrite rd_nil in Hi; discriminate].
  - intros a Ha. unfold nstates. rewrite al_zlen. destruct (X a Ha) as (j & ? & ? & ?). lia.
  - intros a Ha. destruct (X a Ha) as (j & ? & ? & ?). lia.
Qed.

(** C65: get_tot_scores of the alignment, in either semiring, is minus the
    Levenshtein distance. *)
Theorem C65_distance : forall (u : R) log ord lp sched h (pairs : list (list Z * list Z)) colss,
  zlen colss = zlen pairs -> (forall k r y cs, rd pairs k = Some (r, y) -> rd colss k = Some cs -> aligns_best (2 * h) r y cs) ->
  zlen (concat colss) + zlen colss < int_max -> fair ord -> is_sched (zlen colss * 2 ^ Z.of_nat lp) sched ->
  get_tot_scores log lp sched ord (flat_vec (map alignment_fsa colss)) (map (fun a => Some (u * IZR (sc a))%R) (v_arcs (flat_vec (map alignment_fsa colss)))) =
    Some (map (fun x => Some (- (u * IZR (2 * h * levenshtein (fst x) (snd x))))%R) pairs).
Proof.
  intros u log ord lp sched h pairs colss ZC AL SM FO SC. set (fs := map alignment_fsa colss). set (scores := map _ _).
  assert (ZF : zlen fs = zlen colss) by apply zlen_map.
  assert (ZS : zlen (concat fs) < int_max). { enough (zlen (concat fs) = zlen (concat colss) + zlen colss) by lia. unfold fs. clear. induction colss as [|cs l IH]; [reflexivity|]. cbn [map concat]. rewrite !zlen_app, zlen_cons, IH, al_zlen. lia. }
  destruct (C30_tot_scores log fs scores lp sched ord) as (tot & -> & ZT & K); auto.
  { apply Forall_forall. intros f Hf. apply in_map_iff in Hf as (cs & <- & _). apply al_wf. }
  { apply Forall_forall. intros f Hf. apply in_map_iff in Hf as (cs & <- & _). apply al_wf. }
  { unfold scores. now rewrite zlen_map. }
  { now rewrite ZF. }
  f_equal. apply list_ext_rd; [rewrite zlen_map; lia|]. intros k Bk. rewrite ZT, ZF in Bk. destruct (rd_in_bound colss k Bk) as (cs & Hc). assert (Bp : 0 <= k < zlen pairs) by lia. destruct (rd_in_bound pairs k Bp) as ((r & y) & Hp).
  assert (Hf : rd fs k = Some (alignment_fsa cs)) by (unfold fs; rewrite rd_map, Hc; reflexivity). destruct (K k _ Hf) as (x & X1 & X2). rewrite X1, rd_map, Hp. cbn [option_map fst snd]. do 2 f_equal.
  apply (path_sum_unique _ _ _ _ _ X2). exists [zrange (zlen cs)]. split; [repeat constructor; intros []|]. split; [intros p; rewrite al_successful; split; [intros [<-|[]]; auto|intros ->; now left]|].
  destruct (AL k r y cs Hp Hc) as (body & EB & _ & _ & _ & _ & TS).
  assert (W : forall p l, mapM (rd cs) p = Some l -> pweight (arc_score fs scores k) p = Some (u * IZR (zsum (map c_sc l)))%R).
  { induction p as [|j p IH]; intros l E; [injection E as <-; cbn; unfold lzero; f_equal; lra|]. cbn [mapM] in E. destruct (rd cs j) as [c|] eqn:Hj; [|discriminate]. destruct (mapM (rd cs) p) as [l'|] eqn:E'; [|discriminate]. injection E as <-.
    cbn [pweight fold_right]. unfold pweight in IH. rewrite (IH l' eq_refl). assert (A : arc_score fs scores k j = Some (u * IZR (c_sc c))%R).
    { unfold arc_score, scores. rewrite rd_map. change (v_arcs (flat_vec fs)) with (concat (concat fs)). change (map all_arcs fs) with (map (@concat arc) fs). rewrite (at3 fs k (alignment_fsa cs) j (mkArc j (j + 1) (c_lab c) (c_sc c)) Hf); [reflexivity|]. pose proof (rd_al_arcs cs j) as R. rewrite Hj in R. exact R. }
    rewrite A. cbn [map ladd]. rewrite zsum_cons, plus_IZR. f_equal. lra. }
  unfold ssum. cbn [map fold_right]. rewrite splus_None_r, (W _ cs).
  2:{ apply mapM_by_rd; [rewrite zlen_zrange by apply zlen_nonneg; auto|]. intros i i' Hi. pose proof (rd_Some_bound _ _ _ Hi) as Bi. rewrite zlen_zrange in Bi by apply zlen_nonneg. rewrite rd_zrange in Hi by auto. now injection Hi as <-. }
  rewrite TS. replace (- (2 * h) * levenshtein r y) with (- (2 * h * levenshtein r y)) by lia. rewrite opp_IZR. f_equal. lra.
Qed.
Print Assumptions C65_distance.

Lemma aligns_short unit r y cs : aligns_best unit r y cs -> zlen cs <= zlen r + zlen y + 1.
Proof.
  intros (body & -> & <- & <- & B & _). rewrite zlen_app. change (zlen [mkCol (-1) (-1) (-1) 0]) with 1. enough (zlen body <= zlen (strip (map c_ref body)) + zlen (strip (map c_hyp body))) by lia.
  induction body as [|c body IH]; [cbv; congruence|]. specialize (IH (fun c' H => B c' (or_intror H))). destruct (B c (or_introl eq_refl)) as (B1 & B2). cbn [map]. unfold strip in *. cbn [filter]. rewrite zlen_cons. pose proof (zlen_nonneg (filter (fun l => negb (l =? 0)) (map c_ref body))). pose proof (zlen_nonneg (filter (fun l => negb (l =? 0)) (map c_hyp body))).
  destruct (c_ref c =? 0) eqn:E1; destruct (c_hyp c =? 0) eqn:E2; cbn [negb]; rewrite ?zlen_cons; lia.
Qed.

(** C65, from the symbols to the distances *)
Theorem C65_tot_scores : forall (u : R) h d log fuel ord lp sched lp' sched' lp'' sched'' refs hyps m sorted,
  (0 < u)%R -> 0 < h -> d < 0 ->
  Forall (Forall (fun a => 1 <= a < 2 ^ 31)) refs -> Forall (Forall (fun a => 1 <= a < 2 ^ 31)) hyps -> hyps <> [] ->
  zlen m = zlen hyps -> (forall i, In i m -> 0 <= i < zlen refs) ->
  (forall k i r y, rd m k = Some i -> rd refs i = Some r -> rd hyps k = Some y -> Z.abs (d + h) * (zlen r + zlen y) < 2 * h) ->
  table_size refs hyps m < int_max -> table_size refs hyps m + 2 <= Z.of_nat fuel ->
  fair ord -> is_sched (zlen hyps * 2 ^ Z.of_nat lp) sched -> is_sched (zlen hyps * 2 ^ Z.of_nat lp') sched' -> is_sched (zlen hyps * 2 ^ Z.of_nat lp'') sched'' ->
  exists gr gh al gh' tot,
    levenshtein_graph h d (splits_of refs) (concat refs) = Some gr /\
    levenshtein_graph h d (splits_of hyps) (concat hyps) = Some gh /\
    levenshtein_alignment u fuel ord lp sched lp' sched' gr gh m sorted = Some (al, gh') /\
    get_tot_scores log lp'' sched'' ord (al_vec al) (map (fun a => Some (u * IZR (sc a))%R) (v_arcs (al_vec al))) = Some tot /\
    zlen tot = zlen hyps /\
    forall k i r y, rd m k = Some i -> rd refs i = Some r -> rd hyps k = Some y -> rd tot k = Some (Some (- (u * IZR (2 * h * levenshtein r y)))%R).
Proof.
  intros u h d log fuel ord lp sched lp' sched' lp'' sched'' refs hyps m sorted Hu Hh Hd FR FY NE Zm Bm PB SM HF FO SC SC' SC''.
  destruct (C65_alignment u h d fuel ord lp sched lp' sched' refs hyps m sorted Hu Hh Hd FR FY NE Zm Bm PB SM HF FO SC SC') as (gr & gh & gh' & colss & E1 & E2 & E3 & ZC & K).
  set (pairs := map (fun x => (match rd refs (fst x) with Some r => r | None => [] end, snd x)) (combine m hyps)).
  assert (ZP : zlen pairs = zlen hyps) by (unfold pairs; rewrite zlen_map; unfold zlen in *; rewrite combine_length; lia).
  assert (RP : forall k i r y, rd m k = Some i -> rd refs i = Some r -> rd hyps k = Some y -> rd pairs k = Some (r, y)). { intros k i r y H1 H2 H3. unfold pairs. rewrite rd_map, (rd_combine _ _ _ _ _ H1 H3). cbn [option_map fst snd]. now rewrite H2. }
  assert (PA : forall k, 0 <= k < zlen hyps -> exists i r y, rd m k = Some i /\ rd refs i = Some r /\ rd hyps k = Some y). { intros k Bk. destruct (rd_in_bound hyps k Bk) as (y & Hy). rewrite <- Zm in Bk. destruct (rd_in_bound m k Bk) as (i & Hi). destruct (rd_in_bound refs i (Bm i (rd_In _ _ _ Hi))) as (r & Hr). eauto 10. }
  assert (AL : forall k r y cs, rd pairs k = Some (r, y) -> rd colss k = Some cs -> aligns_best (2 * h) r y cs).
  { intros k r y cs Hp Hc. pose proof (rd_Some_bound _ _ _ Hc) as Bk. rewrite ZC in Bk. destruct (PA k Bk) as (i & r0 & y0 & H1 & H2 & H3). rewrite (RP _ _ _ _ H1 H2 H3) in Hp. injection Hp as <- <-. exact (K _ _ _ _ _ H1 H2 H3 Hc). }
  exists gr, gh, (mkAl (flat_vec (map alignment_fsa colss)) (map c_ref (concat colss)) (map c_hyp (concat colss))), gh'. eexists. split; [exact E1|]. split; [exact E2|]. split; [exact E3|]. cbn [al_vec].
  split; [apply (C65_distance u log ord lp'' sched'' h pairs colss); auto|].
  - lia.
  - apply Z.le_lt_trans with (table_size refs hyps m); [|exact SM]. assert (ES : zlen (concat colss) + zlen colss = zsum (map (fun cs => zlen cs + 1) colss)) by (clear; induction colss as [|cs l IH]; [reflexivity|]; cbn [map concat]; rewrite zlen_app, zlen_cons, zsum_cons; lia). rewrite ES.
    unfold table_size. apply zsum_le_rd; [rewrite !zlen_map; unfold zlen in *; rewrite combine_length; lia|]. intros k x x' Hx Hx'. rewrite rd_map in Hx. destruct (rd colss k) as [cs|] eqn:Hc; [|discriminate]. injection Hx as <-. pose proof (rd_Some_bound _ _ _ Hc) as Bk. rewrite ZC in Bk. destruct (PA k Bk) as (i & r & y & H1 & H2 & H3).
    rewrite rd_map, (rd_combine _ _ _ _ _ H1 H3) in Hx'. cbn [option_map fst snd] in Hx'. rewrite H2 in Hx'. injection Hx' as <-. pose proof (aligns_short _ _ _ _ (K _ _ _ _ _ H1 H2 H3 Hc)). pose proof (zlen_nonneg r). pose proof (zlen_nonneg y). nia.
  - now rewrite ZC.
  - split; [now rewrite zlen_map|]. intros k i r y H1 H2 H3. rewrite rd_map, (RP _ _ _ _ H1 H2 H3). reflexivity.
Qed.
Print Assumptions C65_tot_scores.

(** Calling levenshtein_alignment again with the same hyps fails: its aux_labels
    have been renamed (finding). *)
Theorem C65_second_call_refuted : forall u fuel ord lp sched lp' sched' refs hyps m sorted a hyps',
  levenshtein_alignment u fuel ord lp sched lp' sched' refs hyps m sorted = Some (a, hyps') ->
  forall u fuel ord lp sched lp' sched' refs m sorted, levenshtein_alignment u fuel ord lp sched lp' sched' refs hyps' m sorted = None.
Proof.
  intros u fuel ord lp sched lp' sched' refs hyps m sorted a hyps' E. unfold levenshtein_alignment in E.
  assert (N : g_aux hyps' = None).
  { repeat match type of E with match ?x with Some _ => _ | None => _ end = _ => destruct x; [|discriminate] | (let '(_, _) := ?x in _) = _ => destruct x | (if ?x then _ else _) = _ => destruct x; [|discriminate] end. injection E as _ <-. reflexivity. }
  intros. unfold levenshtein_alignment. rewrite N. destruct (g_aux refs0); reflexivity.
Qed.
Print Assumptions C65_second_call_refuted.

(** *** Non-triviality *)
Definition refs65 : list (list Z) := [[1; 2; 4]; [7]].
Definition hyps65 : list (list Z) := [[1; 2; 3]; [1; 3; 3; 2]; []].
Definition ord65 (n : Z) : list Z := rev (zrange n).
Example C65_ex : exists gr gh gh' colss,
  levenshtein_graph 500 (-501) (splits_of refs65) (concat refs65) = Some gr /\
  levenshtein_graph 500 (-501) (splits_of hyps65) (concat hyps65) = Some gh /\
  levenshtein_alignment (/ 1000) 100 ord65 1 (rev (zrange 6)) 2 (rev (zrange 12)) gr gh [0; 0; 1] true =
    Some (mkAl (flat_vec (map alignment_fsa colss)) (map c_ref (concat colss)) (map c_hyp (concat colss)), gh') /\
  zlen colss = 3 /\ forall k i r y cs, rd [0; 0; 1] k = Some i -> rd refs65 i = Some r -> rd hyps65 k = Some y -> rd colss k = Some cs -> aligns_best 1000 r y cs.
Proof.
  assert (RS : forall n, is_sched n (rev (zrange n))) by (intros n; unfold is_sched; rewrite <- Permutation.Permutation_rev; apply Permutation.Permutation_refl).
  assert (F : forall l, forallb (forallb (fun a => (1 <=? a) && (a <? 2 ^ 31))) l = true -> Forall (Forall (fun a => 1 <= a < 2 ^ 31)) l).
  { intros l E. apply Forall_forall. intros x Hx. rewrite forallb_forall in E. specialize (E x Hx). rewrite forallb_forall in E. apply Forall_forall. intros a Ha. specialize (E a Ha). lia. }
  apply (C65_alignment (/ 1000) 500 (-501) 100 ord65 1 (rev (zrange 6)) 2 (rev (zrange 12)) refs65 hyps65 [0; 0; 1] true).
  - lra.
  - lia.
  - lia.
  - now apply F.
  - now apply F.
  - discriminate.
  - reflexivity.
  - intros i [<-|[<-|[<-|[]]]]; cbv; split; congruence.
  - intros k i r y _ Hr Hy. assert (zlen r <= 3) by (apply rd_In in Hr; repeat (destruct Hr as [<-|Hr]; [cbv; congruence|]); destruct Hr). assert (zlen y <= 4) by (apply rd_In in Hy; repeat (destruct Hy as [<-|Hy]; [cbv; congruence|]); destruct Hy). pose proof (zlen_nonneg r). pose proof (zlen_nonneg y). change (Z.abs (-501 + 500)) with 1. lia.
  - reflexivity.
  - cbv; congruence.
  - exact RS.
  - exact (RS 6).
  - exact (RS 12).
Qed.
(** The distances of the pairs of [C65_ex] *)
Example C65_distance_ex : map (fun x => levenshtein (fst x) (snd x)) [([1; 2; 4], [1; 2; 3]); ([1; 2; 4], [1; 3; 3; 2]); ([7], [])] = [1; 3; 1].
Proof. reflexivity. Qed.
