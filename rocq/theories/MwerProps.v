(** * C66: mwer_loss *)
From Coq Require Import ZArith List Lia Lra Bool Reals.
From Coq Require Import ZifyBool.
From Verif Require Import Base RaggedModel RaggedSpec RaggedProofs FsaSpec FsaLemmas SelectProofs RaggedOpsModel RaggedOpsSpec RaggedOpsProofs RaggedCatProofs RaggedListProofs
  OpsModel FsaOpsModel GraphModel FstSpec LogReal BatchModel ConnectProofs ScoreModel ScoreSpec PathSums LinearProofs ComposeProps UniqueModel UniqueProps NbestModel NbestProps
  CtcLossModel IDevModel LevAlignModel LevAlignSpec LevAlignProofs LevAlignProps MutualInfoProofs PropsProps IDenseOut MwerModel MwerSpec.
Import ListNotations.
Open Scope Z_scope.

(** *** The word sequences of the linear FSAs *)
Lemma get_texts_ok sched (T : list nfst) : (forall n, is_sched n (sched n)) ->
  get_texts sched (flat_vec (map fsa_of T)) (concat (map aux_of T)) =
    Some (lay (map (fun t => filter (fun v => 0 <? v) (aux_of t)) T), concat (map (fun t => filter (fun v => 0 <? v) (aux_of t)) T)).
Proof.
  intros HS. unfold get_texts, flat_vec. cbn [v_rs1 v_rs2 v_arcs]. rewrite splits_rows, !row_ids_of_splits.
  destruct (remove_axis_ok (A := arc) 1 0 (map fsa_of T) ltac:(lia)) as (R & _).
  change (layers_of (A := arc) 2 (map fsa_of T)) with [mk_layer (splits_of (map fsa_of T)) (ids_of (map fsa_of T)); mk_layer (splits_of (concat (map fsa_of T))) (ids_of (concat (map fsa_of T)))] in R.
  rewrite R. clear R. change (layers_of (A := arc) 1 (flatten_axis 1 1 (map fsa_of T))) with [lay (map (@concat arc) (map fsa_of T))]. cbv beta iota.
  rewrite (lay_sizes (map (@concat arc) (map fsa_of T)) (map aux_of T)).
  2:{ rewrite !map_map. apply map_ext. intros t. unfold aux_of, fsa_of. rewrite <- concat_map, !zlen_map. reflexivity. }
  cbn [lay l_ids]. unfold ids_of at 1. rewrite zlen_ids_from, Z.eqb_refl. change (mk_layer _ _) with (lay (map aux_of T)). rewrite remove_values_ok by exact HS. rewrite map_map. reflexivity.
Qed.

(** *** normalize *)
Definition lsum (r : list R) : R := ln (rsum (map exp r)).
Lemma rsum_pos (f : R -> R) r : (forall x, 0 < f x)%R -> r <> [] -> (0 < rsum (map f r))%R.
Proof. intros F. destruct r as [|x r]; [easy|]. intros _. cbn. assert (0 <= rsum (map f r))%R. { induction r as [|y r IH]; cbn; [lra|]. pose proof (F y). unfold rsum in *. lra. } pose proof (F x). unfold rsum in *. lra. Qed.
Lemma lsum_ok r : r <> [] -> fold_left (logadd None) (map Some r) None = Some (lsum r).
Proof.
  intros NE. change (logadd None) with (splus true). rewrite fold_left_ssum, splus_None. pose proof (expo_ssum (map Some r)) as E.
  assert (X : sumf expo (map Some r) = rsum (map exp r)). { clear. induction r as [|x r IH]; [reflexivity|]. cbn. unfold sumf, rsum in *. now rewrite IH. }
  rewrite X in E. pose proof (rsum_pos exp r exp_pos NE) as P. destruct (ssum true (map Some r)) as [v|]; cbn [expo] in E; [|lra]. unfold lsum. rewrite <- E, ln_exp. reflexivity.
Qed.
Lemma normalize_ok (rows : list (list R)) : normalize_log (lay rows) (concat rows) = Some (concat (map (fun r => map (fun x => x - lsum r)%R r) rows)).
Proof.
  unfold normalize_log. cbn [lay l_rs l_ids]. rewrite to_vec_vec_ok. cbv zeta.
  assert (Z0 : zlen (concat (map (fun r => map (fun x => x - lsum r)%R r) rows)) = zlen (concat rows)). { clear. induction rows as [|r rows IH]; [reflexivity|]. cbn [map concat]. now rewrite !zlen_app, zlen_map, IH. }
  apply mapM_by_rd; [rewrite zlen_zrange by apply zlen_nonneg; exact Z0|]. intros i i' Hi. pose proof (rd_Some_bound _ _ _ Hi) as B. rewrite zlen_zrange in B by apply zlen_nonneg. rewrite rd_zrange in Hi by exact B. injection Hi as <-.
  destruct (rd_in_bound (concat rows) i B) as (x & Hx). destruct (rd_concat_inv _ _ _ Hx) as (k & r & j & H1 & H2 & H3 & H4). rewrite H4, rd_map, H1. cbn [option_map]. rewrite lsum_ok, Hx by (intros ->; rewrite rd_nil in H2; discriminate).
  assert (HR : rd (map (fun r => map (fun x => x - lsum r)%R r) rows) k = Some (map (fun x => x - lsum r)%R r)) by (rewrite rd_map, H1; reflexivity).
  assert (HJ : rd (map (fun x => x - lsum r)%R r) j = Some (x - lsum r)%R) by (rewrite rd_map, H2; reflexivity).
  destruct (rd_concat_off _ _ _ _ _ HR HJ) as (E & _). rewrite H3. rewrite <- E. f_equal. f_equal. symmetry. apply PropsProps.map_zlen_rd. rewrite map_map. apply map_ext. intros; now rewrite zlen_map.
Qed.

(** *** Flattening *)
Definition flat_of {P B} (g : list Z -> list P -> P -> B) (refs : list (list Z)) (K : list (list P)) : list B :=
  concat (map (fun x => map (g (fst x) (snd x)) (snd x)) (combine refs K)).
Lemma zlen_comb {A B} (l : list A) (m : list B) : zlen l = zlen m -> zlen (combine l m) = zlen m.
Proof. unfold zlen. intros H. rewrite combine_length. lia. Qed.
Lemma rd_comb {A B} (l : list A) (m : list B) i : rd (combine l m) i = match rd l i, rd m i with Some x, Some y => Some (x, y) | _, _ => None end.
Proof. unfold rd. destruct (i <? 0); [reflexivity|]. generalize (Z.to_nat i) as n. clear i. revert m. induction l as [|x l IH]; intros [|y m] [|n]; cbn; auto. now destruct (nth_error l n). Qed.
Lemma flat_sizes {P B} (g : list Z -> list P -> P -> B) refs K : zlen refs = zlen K ->
  map zlen (map (fun x => map (g (fst x) (snd x)) (snd x)) (combine refs K)) = map zlen K.
Proof.
  intros E. apply list_ext_rd; [rewrite !zlen_map; now apply zlen_comb|]. intros k Bk. rewrite !rd_map, rd_comb. rewrite !zlen_map, zlen_comb in Bk by exact E.
  destruct (rd_in_bound K k Bk) as (row & ->). rewrite <- E in Bk. destruct (rd_in_bound refs k Bk) as (r & ->). cbn. now rewrite zlen_map.
Qed.
Lemma flat_len {P B} (g : list Z -> list P -> P -> B) refs K : zlen refs = zlen K -> zlen (flat_of g refs K) = zlen (concat K).
Proof.
  intros E. unfold flat_of. pose proof (flat_sizes g refs K E) as F. revert F. generalize (map (fun x => map (g (fst x) (snd x)) (snd x)) (combine refs K)). clear. intros L. revert K. induction L as [|l L IH]; intros [|r K] F; try discriminate; [reflexivity|]. injection F as F1 F2. cbn [concat]. rewrite !zlen_app, F1, (IH K F2). reflexivity.
Qed.
Lemma flat_at {P B} (g : list Z -> list P -> P -> B) refs K i p : zlen refs = zlen K -> rd (concat K) i = Some p ->
  exists k r row, rd (ids_of K) i = Some k /\ rd refs k = Some r /\ rd K k = Some row /\ In p row /\ rd (flat_of g refs K) i = Some (g r row p).
Proof.
  intros E H. destruct (rd_concat_inv _ _ _ H) as (k & row & j & H1 & H2 & H3 & H4). assert (Bk := rd_Some_bound _ _ _ H1). rewrite <- E in Bk. destruct (rd_in_bound refs k Bk) as (r & Hr).
  exists k, r, row. split; [exact H4|]. split; [exact Hr|]. split; [exact H1|]. split; [exact (rd_In _ _ _ H2)|].
  assert (X1 : rd (map (fun x => map (g (fst x) (snd x)) (snd x)) (combine refs K)) k = Some (map (g r row) row)) by (rewrite rd_map, rd_comb, Hr, H1; reflexivity).
  assert (X2 : rd (map (g r row) row) j = Some (g r row p)) by (rewrite rd_map, H2; reflexivity).
  destruct (rd_concat_off _ _ _ _ _ X1 X2) as (X & _). unfold flat_of. rewrite <- X. f_equal. rewrite H3. f_equal. symmetry. apply PropsProps.map_zlen_rd. now apply flat_sizes.
Qed.

(** *** Sizes *)
Lemma zsum_incl {P} (f : P -> Z) (k : list P) : forall l, (forall p, 0 <= f p) -> NoDup k -> incl k l -> zsum (map f k) <= zsum (map f l).
Proof.
  intros l F N. revert l. induction N as [|p k NI N IH]; intros l I.
  - cbn. apply zsum_nonneg. apply Forall_forall. intros z Hz. apply in_map_iff in Hz as (q & <- & _). auto.
  - destruct (in_split p l (I p (or_introl eq_refl))) as (a & b & ->). specialize (IH (a ++ b)). rewrite map_app, zsum_app in *. cbn [map]. rewrite !zsum_cons. enough (zsum (map f k) <= zsum (map f a) + zsum (map f b)) by lia. apply IH.
    intros q Hq. specialize (I q (or_intror Hq)). apply in_app_iff in I as [I|[<-|I]]; [apply in_app_iff; now left|contradiction|apply in_app_iff; now right].
Qed.
Lemma NoDup_unmap {A B} (f : A -> B) l : NoDup (map f l) -> NoDup l.
Proof. induction l as [|a l IH]; [constructor|]. cbn. inversion 1; subst. constructor; auto. intros I. apply (in_map f) in I. contradiction. Qed.
Lemma size_mono aux refs x K : one_per_word_seq aux x K -> zlen refs = zlen x -> mwer_size (words aux) refs K <= mwer_size (words aux) refs x.
Proof.
  intros (Z1 & H) E. unfold mwer_size. apply zsum_le_rd; [rewrite !zlen_map, !zlen_comb by congruence; exact Z1|]. intros k a b Ha Hb. rewrite rd_map, rd_comb in Ha, Hb.
  destruct (rd refs k) as [r|]; [|discriminate]. destruct (rd x k) as [row|] eqn:Hx; [|discriminate]. destruct (H k row Hx) as (krow & HK & I & N & _). rewrite HK in Ha. injection Ha as <-. injection Hb as <-. cbn [fst snd].
  apply zsum_incl; auto; [|exact (NoDup_unmap _ _ N)]. intros p. pose proof (zlen_nonneg r). pose proof (zlen_nonneg (words aux p)). nia.
Qed.
Lemma table_flat {P} (ws : P -> list Z) refs K : zlen refs = zlen K -> table_size refs (map ws (concat K)) (ids_of K) = mwer_size ws refs K.
Proof.
  intros E. unfold table_size, mwer_size. transitivity (zsum (flat_of (fun r _ p => (zlen r + 2) * (zlen (ws p) + 2)) refs K)).
  - f_equal. assert (ZI : zlen (ids_of K) = zlen (map ws (concat K))) by (unfold ids_of; now rewrite zlen_ids_from, zlen_map).
    apply list_ext_rd; [rewrite zlen_map, zlen_comb, flat_len, zlen_map by auto; reflexivity|]. intros i Bi. rewrite zlen_map, zlen_comb, zlen_map in Bi by auto. destruct (rd_in_bound _ _ Bi) as (p & Hp).
    destruct (flat_at (fun r (_ : list P) p => (zlen r + 2) * (zlen (ws p) + 2)) refs K i p E Hp) as (k & r & row & H1 & H2 & H3 & _ & ->). rewrite rd_map, rd_comb, H1, rd_map, Hp. cbn [option_map fst snd]. now rewrite H2.
  - unfold flat_of. rewrite <- (map_id (concat _)), zsum_concat_map, map_map. f_equal. apply map_ext. intros y. now rewrite map_id.
Qed.

(** *** The loss *)
(** The score of a path: the sum of the scores of its arcs, [w] being their unit *)
Definition path_score (w : R) (lat : NbestModel.lattice) (p : list Z) : R := (w * IZR (zsum (map (attr_at (la_scores lat)) p)))%R.

Lemma exp_norm x r : r <> [] -> exp (x - lsum r) = (exp x / rsum (map exp r))%R.
Proof. intros NE. unfold Rminus. rewrite exp_plus, exp_Ropp. unfold lsum. rewrite exp_ln by (apply rsum_pos; auto; apply exp_pos). reflexivity. Qed.

Lemma lev_rows h d ys g : levenshtein_graph h d (splits_of ys) (concat ys) = Some g -> (forall a, In a (concat ys) -> 1 <= a) -> zlen (v_rs1 (g_vec g)) - 1 = zlen ys.
Proof. intros E N. unfold levenshtein_graph in E. rewrite LevProofs.lev_graphs_ok in E by (intros I; apply N in I; lia). injection E as <-. cbn [g_vec]. unfold vec_of. cbn. rewrite splits_rows. now rewrite !zlen_map. Qed.

Lemma aux_lin its : aux_of (lin its) = map (fun it => snd (fst it)) its.
Proof. unfold aux_of. rewrite concat_lin. generalize 0. induction its as [|it its IH]; intros k; [reflexivity|]. cbn [lin_arcs map snd]. now rewrite IH. Qed.
Lemma sc_lin its : map sc (concat (fsa_of (lin its))) = map snd its.
Proof. unfold fsa_of. rewrite <- concat_map, concat_lin, map_map. generalize 0. induction its as [|it its IH]; intros k; [reflexivity|]. cbn [lin_arcs map fst sc]. now rewrite IH. Qed.

(** C66.  [u] is the unit of the scores of the Levenshtein graphs (2 halves of
    fsa_utils.cu are 1), [w] that of the lattice's scores; [x]: the sampled paths. *)
Theorem C66_mwer_loss : forall sched scale random_paths h d (u w : R) fuel ord lp lp' lp'' (temperature : R) red lat refs (x : list (list (list Z))),
  (forall n, is_sched n (sched n)) -> fair ord ->
  zlen (la_aux lat) = zlen (la_labels lat) -> zlen (la_scores lat) = zlen (la_labels lat) ->
  random_paths (map scale (la_scores lat)) = Some (lay x, lay (concat x), concat (concat x)) ->
  (forall k row p, rd x k = Some row -> In p row -> sampled lat p) ->
  (forall k row, rd x k = Some row -> no_collision (map (words (la_aux lat)) row)) ->
  (u * IZR (2 * h) = 1)%R -> 0 < h -> d < 0 -> (temperature <> 0)%R ->
  Forall (fun a => a < 2 ^ 31) (la_aux lat) -> Forall (Forall (fun a => 1 <= a < 2 ^ 31)) refs ->
  zlen refs = zlen x -> concat x <> [] ->
  (forall k r row p, rd refs k = Some r -> rd x k = Some row -> In p row -> Z.abs (d + h) * (zlen r + zlen (words (la_aux lat) p)) < 2 * h) ->
  mwer_size (words (la_aux lat)) refs x < int_max -> mwer_size (words (la_aux lat)) refs x + 2 <= Z.of_nat fuel ->
  exists K, one_per_word_seq (la_aux lat) x K /\
    let losses := path_losses (path_score w lat) temperature (words (la_aux lat)) refs K in
    mwer_loss sched scale random_paths h d u w fuel ord lp lp' lp'' temperature red lat (splits_of refs, concat refs) =
      (la_scores lat,
       Some match red with
            | red_none => ragged (lay losses) (concat losses)
            | red_sum => scalar (rsum (concat losses))
            | red_mean => scalar (rsum (concat losses) / IZR (zlen (concat K)))%R
            end).
Proof.
  intros sched scale rp h d u w fuel ord lp lp' lp'' tp red lat refs x HS FO LA LS HR HP NC HU Hh Hd _ FA FR ZX NE PB SM HF.
  destruct (C49_from_lattice sched scale rp lat x HS LA LS HR HP NC) as (K & HK & E). exists K. split; [exact HK|]. cbv zeta in *. set (aux := la_aux lat) in *.
  assert (ZK : zlen refs = zlen K) by (destruct HK; congruence).
  assert (KX : forall k row p, rd K k = Some row -> In p row -> exists xrow, rd x k = Some xrow /\ In p xrow).
  { intros k row p H1 H2. pose proof (rd_Some_bound _ _ _ H1) as Bk. rewrite <- ZK, ZX in Bk. destruct (rd_in_bound x k Bk) as (xrow & Hx). exists xrow. split; [exact Hx|]. destruct HK as (_ & HK). destruct (HK k xrow Hx) as (kr & H3 & I & _). rewrite H1 in H3. injection H3 as <-. auto. }
  unfold mwer_loss. rewrite E. clear E. cbn [fst snd nb_path nb_shape nb_fsa nb_aux]. f_equal. unfold build_levenshtein_graphs. cbn [nb_fsa nb_aux]. rewrite get_texts_ok by exact HS. cbn [fst snd].
  set (T := map (fun p => lin (items lat p)) (concat K)). set (hyps := map (words aux) (concat K)).
  assert (EW : map (fun t => filter (fun v => 0 <? v) (aux_of t)) T = hyps). { unfold T, hyps. rewrite map_map. apply map_ext. intros p. rewrite aux_lin. unfold items. rewrite map_map. reflexivity. }
  rewrite EW. change (l_rs (lay hyps)) with (splits_of hyps).
  assert (UP : (0 < u)%R). { assert (0 < IZR (2 * h))%R by (apply (IZR_lt 0); lia). destruct (Rlt_le_dec 0 u) as [L|L]; auto. exfalso. assert (u * IZR (2 * h) <= 0)%R; [|lra]. rewrite <- (Rmult_0_l (IZR (2 * h))). apply Rmult_le_compat_r; lra. }
  assert (FY : Forall (Forall (fun a => 1 <= a < 2 ^ 31)) hyps).
  { apply Forall_forall. intros y Hy. apply in_map_iff in Hy as (p & <- & _). apply Forall_forall. intros a Ha. apply filter_In in Ha as (Ha & P). split; [lia|]. apply in_map_iff in Ha as (i & <- & _). unfold attr_at in *. destruct (rd aux i) as [v|] eqn:Hv; [|lia]. rewrite Forall_forall in FA. apply FA. exact (rd_In _ _ _ Hv). }
  assert (NH : hyps <> []).
  { destruct (concat x) as [|p0 ps] eqn:EX; [easy|]. assert (I : In p0 (concat x)) by (rewrite EX; now left). apply in_concat in I as (row & Hr & Hp). apply In_rd in Hr as (k & _ & Hk). destruct HK as (_ & HK). destruct (HK k row Hk) as (kr & H3 & _ & _ & Q). destruct (Q p0 Hp) as (p' & Hp' & _).
    assert (I : In p' (concat K)) by (apply in_concat; exists kr; split; auto; exact (rd_In _ _ _ H3)). unfold hyps. destruct (concat K); [destruct I|discriminate]. }
  assert (ZI : zlen (ids_of K) = zlen hyps) by (unfold hyps, ids_of; now rewrite zlen_ids_from, zlen_map).
  assert (AT : forall i j r y, rd (ids_of K) i = Some j -> rd refs j = Some r -> rd hyps i = Some y -> exists p row, rd (concat K) i = Some p /\ y = words aux p /\ rd K j = Some row /\ In p row).
  { intros i j r y H1 H2 H3. unfold hyps in H3. rewrite rd_map in H3. destruct (rd (concat K) i) as [p|] eqn:Hp; [|discriminate]. injection H3 as <-. destruct (rd_concat_inv _ _ _ Hp) as (k & row & jj & G1 & G2 & _ & G4). rewrite H1 in G4. injection G4 as <-. exists p, row. repeat split; auto. exact (rd_In _ _ _ G2). }
  assert (TS : table_size refs hyps (ids_of K) <= mwer_size (words aux) refs x) by (unfold hyps; rewrite table_flat by exact ZK; now apply size_mono).
  destruct (C65_tot_scores u h d false fuel ord lp (sched (zlen hyps * 2 ^ Z.of_nat lp)) lp' (sched (zlen hyps * 2 ^ Z.of_nat lp')) lp'' (sched (zlen hyps * 2 ^ Z.of_nat lp'')) refs hyps (ids_of K) true) as (gr & gh & al & gh' & tot & G1 & G2 & G3 & G4 & ZT & G5); auto.
  { intros i Hi. apply In_rd in Hi as (j & Bj & Hi). rewrite ZI in Bj. unfold hyps in Bj. rewrite zlen_map in Bj. destruct (rd_in_bound _ _ Bj) as (p & Hp). destruct (rd_concat_inv _ _ _ Hp) as (k & row & jj & F1 & _ & _ & F4). rewrite Hi in F4. injection F4 as <-. rewrite ZK. exact (rd_Some_bound _ _ _ F1). }
  { intros i j r y H1 H2 H3. destruct (AT i j r y H1 H2 H3) as (p & row & A1 & -> & A3 & A4). destruct (KX _ _ _ A3 A4) as (xrow & X1 & X2). exact (PB j r xrow p H2 X1 X2). }
  { clear - TS SM; lia. }
  { clear - TS HF; lia. }
  rewrite G2, G1. rewrite (lev_rows h d hyps gh G2).
  2:{ intros a Ha. apply in_concat in Ha as (y & Hy & Ha). rewrite Forall_forall in FY. specialize (FY y Hy). rewrite Forall_forall in FY. apply (FY a Ha). }
  cbn [lay l_ids l_rs]. rewrite G3. cbv beta iota. cbn [fst]. rewrite G4.
  (* word errors *)
  set (wers := flat_of (fun r (_ : list (list Z)) p => IZR (levenshtein r (words aux p))) refs K).
  assert (WE : mapM (option_map Ropp) tot = Some wers).
  { assert (ZH : zlen hyps = zlen (concat K)) by (unfold hyps; apply zlen_map). apply mapM_by_rd; [unfold wers; rewrite flat_len by exact ZK; lia|]. intros i t Ht. pose proof (rd_Some_bound _ _ _ Ht) as Bi. rewrite ZT, ZH in Bi. destruct (rd_in_bound _ _ Bi) as (p & Hp).
    destruct (flat_at (fun r (_ : list (list Z)) p => IZR (levenshtein r (words aux p))) refs K i p ZK Hp) as (k & r & row & F1 & F2 & F3 & F4 & F5). unfold wers. rewrite F5.
    assert (HY : rd hyps i = Some (words aux p)) by (unfold hyps; rewrite rd_map, Hp; reflexivity). rewrite (G5 i k r _ F1 F2 HY) in Ht. injection Ht as <-. cbn [option_map]. f_equal. rewrite mult_IZR, <- Rmult_assoc, HU. lra. }
  rewrite WE.
  (* scores *)
  assert (ES : map sc (v_arcs (flat_vec (map fsa_of T))) = concat (map (map (attr_at (la_scores lat))) (concat K))).
  { unfold flat_vec, T. cbn [v_arcs]. rewrite !map_map. generalize (concat K). intros L. induction L as [|p L IH]; [reflexivity|]. cbn [map concat]. rewrite concat_app, map_app, IH, sc_lin. f_equal. unfold items. rewrite map_map. reflexivity. }
  rewrite ES. assert (ZE : zlen (ids_of (concat K)) = zlen (concat (map (map (attr_at (la_scores lat))) (concat K)))) by (unfold ids_of; rewrite zlen_ids_from, <- concat_map, zlen_map; reflexivity). rewrite ZE, Z.eqb_refl.
  unfold sum_per_sublist. rewrite <- (OpsProofs.splits_of_map (attr_at (la_scores lat)) (concat K)), to_vec_vec_ok. rewrite !map_map.
  set (lg := fun p => (path_score w lat p / tp)%R). change (map (fun p => (w * IZR (zsum (map (attr_at (la_scores lat)) p)) / tp)%R) (concat K)) with (map lg (concat K)). rewrite zlen_map.
  assert (ZC : zlen (ids_of K) = zlen (concat K)) by (unfold ids_of; now rewrite zlen_ids_from). rewrite ZC, Z.eqb_refl.
  replace (lay K) with (lay (map (map lg) K)) by (apply lay_sizes; rewrite map_map; apply map_ext; intros; apply zlen_map). rewrite (concat_map lg K).
  rewrite normalize_ok. rewrite map_map.
  set (norm := concat _).
  assert (EN : norm = flat_of (fun (_ : list Z) row p => (lg p - lsum (map lg row))%R) refs K).
  { unfold norm, flat_of. f_equal. apply list_ext_rd; [rewrite !zlen_map, zlen_comb; auto|]. intros k Bk. rewrite zlen_map in Bk. destruct (rd_in_bound K k Bk) as (row & Hk). rewrite <- ZK in Bk. destruct (rd_in_bound refs k Bk) as (r & Hr). rewrite !rd_map, rd_comb, Hk, Hr. cbn [option_map fst snd]. rewrite map_map. reflexivity. }
  assert (ZN : zlen norm = zlen (concat K)) by (rewrite EN; now apply flat_len). assert (ZW : zlen wers = zlen (concat K)) by (unfold wers; now apply flat_len). rewrite ZN, ZW, Z.eqb_refl.
  set (losses := path_losses (path_score w lat) tp (words aux) refs K). set (values := map _ (combine norm wers)).
  assert (EV : values = concat losses).
  { change (concat losses) with (flat_of (fun r row p => (path_prob (path_score w lat) tp row p * IZR (levenshtein r (words aux p)))%R) refs K).
    assert (ZV : zlen values = zlen (concat K)) by (unfold values; rewrite zlen_map, zlen_comb; lia). apply list_ext_rd; [rewrite flat_len; auto|]. intros i Bi. rewrite ZV in Bi. destruct (rd_in_bound _ _ Bi) as (p & Hp).
    destruct (flat_at (fun r row p => (path_prob (path_score w lat) tp row p * IZR (levenshtein r (words aux p)))%R) refs K i p ZK Hp) as (k & r & row & F1 & F2 & F3 & F4 & ->).
    destruct (flat_at (fun (_ : list Z) row p => (lg p - lsum (map lg row))%R) refs K i p ZK Hp) as (k1 & r1 & row1 & H1 & H2 & H3 & _ & H5). destruct (flat_at (fun r (_ : list (list Z)) p => IZR (levenshtein r (words aux p))) refs K i p ZK Hp) as (k2 & r2 & row2 & I1 & I2 & I3 & _ & I5).
    rewrite F1 in H1, I1. injection H1 as <-. injection I1 as <-. rewrite F2 in H2, I2. rewrite F3 in H3, I3. injection H2 as <-. injection H3 as <-. injection I2 as <-. injection I3 as <-.
    unfold values. rewrite rd_map, rd_comb, EN, H5. unfold wers. rewrite I5. cbn [option_map fst snd]. f_equal. f_equal. rewrite exp_norm by (destruct row; [destruct F4|discriminate]). unfold path_prob. rewrite map_map. reflexivity. }
  assert (ZV : zlen values = zlen (concat K)) by (unfold values; rewrite zlen_map, zlen_comb; lia). rewrite ZV, EV.
  destruct red; [|reflexivity|reflexivity].
  assert (SL : lay (map (map lg) K) = lay losses). { apply lay_sizes. transitivity (map zlen K); [rewrite map_map; apply map_ext; intros; apply zlen_map|]. symmetry. exact (flat_sizes (fun r row p => (path_prob (path_score w lat) tp row p * IZR (levenshtein r (words aux p)))%R) refs K ZK). }
  rewrite SL.
  rewrite Z.eqb_refl. reflexivity.
Qed.
Print Assumptions C66_mwer_loss.

Lemma rsum_scale {P} (f : P -> R) c l : rsum (map (fun p => f p / c)%R l) = (rsum (map f l) / c)%R.
Proof. induction l as [|p l IH]; cbn; [lra|]. unfold rsum in *. rewrite IH. lra. Qed.
Lemma rsum_le {P} (f g : P -> R) l : (forall p, In p l -> (f p <= g p)%R) -> (rsum (map f l) <= rsum (map g l))%R.
Proof. induction l as [|p l IH]; intros H; cbn; [lra|]. pose proof (H p (or_introl eq_refl)). pose proof (IH (fun q Hq => H q (or_intror Hq))). unfold rsum in *. lra. Qed.
Lemma rsum_mult {P} (f : P -> R) c l : rsum (map (fun p => f p * c)%R l) = (rsum (map f l) * c)%R.
Proof. induction l as [|p l IH]; cbn; [lra|]. unfold rsum in *. rewrite IH. lra. Qed.
Lemma rsum_exp_pos {P} (g : P -> R) row : row <> [] -> (0 < rsum (map (fun q => exp (g q)) row))%R.
Proof. intros NE. rewrite <- (map_map g exp). apply rsum_pos; [apply exp_pos|]. destruct row; [easy|discriminate]. Qed.

(** C66: the probabilities of the paths of an utterance are positive and sum to 1
    ... *)
Theorem C66_probabilities : forall (P : Type) (score : P -> R) temperature (row : list P), row <> [] ->
  rsum (map (path_prob score temperature row) row) = 1%R /\ forall p, (0 < path_prob score temperature row p)%R.
Proof.
  intros P score tp row NE. pose proof (rsum_exp_pos (fun q => score q / tp)%R row NE) as H. split.
  - unfold path_prob. rewrite rsum_scale. apply Rinv_r. lra.
  - intros p. unfold path_prob. apply Rdiv_lt_0_compat; [apply exp_pos|exact H].
Qed.
Print Assumptions C66_probabilities.
(** ... so the loss of an utterance (its row summed) is an expected number of word
    errors: between the least and the greatest number among its paths, and 0 only if
    every path is right. *)
Theorem C66_expected_errors : forall (P : Type) (score : P -> R) temperature (ws : P -> list Z) refs (K : list (list P)) k r row lo hi,
  rd refs k = Some r -> rd K k = Some row -> row <> [] -> (forall p, In p row -> lo <= levenshtein r (ws p) <= hi) ->
  exists ls, rd (path_losses score temperature ws refs K) k = Some ls /\ (IZR lo <= rsum ls <= IZR hi)%R /\
    (rsum ls = 0%R -> 0 <= lo -> forall p, In p row -> levenshtein r (ws p) = 0).
Proof.
  intros P score tp ws refs K k r row lo hi Hr HK NE B. destruct (C66_probabilities P score tp row NE) as (S1 & PP).
  eexists. split; [unfold path_losses; rewrite rd_map, rd_comb, Hr, HK; reflexivity|]. cbn [fst snd]. split; [split|].
  - rewrite <- (Rmult_1_l (IZR lo)), <- S1, <- rsum_mult. apply rsum_le. intros p Hp. apply Rmult_le_compat_l; [apply Rlt_le, PP|]. apply IZR_le. apply B; auto.
  - rewrite <- (Rmult_1_l (IZR hi)), <- S1, <- rsum_mult. apply rsum_le. intros p Hp. apply Rmult_le_compat_l; [apply Rlt_le, PP|]. apply IZR_le. apply B; auto.
  - intros E L. revert E. assert (N : forall p, In p row -> (0 <= path_prob score tp row p * IZR (levenshtein r (ws p)))%R). { intros p Hp. apply Rmult_le_pos; [apply Rlt_le, PP|]. apply (IZR_le 0). specialize (B p Hp). lia. }
    assert (G : forall l : list P, incl l row -> rsum (map (fun p => (path_prob score tp row p * IZR (levenshtein r (ws p)))%R) l) = 0%R -> forall p, In p l -> levenshtein r (ws p) = 0).
    { induction l as [|q l IH]; intros I E p Hp; [destruct Hp|]. cbn in E. assert (N2 : (0 <= rsum (map (fun p => (path_prob score tp row p * IZR (levenshtein r (ws p)))%R) l))%R).
      { clear - I N. induction l as [|a l IH]; cbn; [lra|]. pose proof (N a (I a (or_intror (or_introl eq_refl)))). assert (incl (q :: l) row) by (intros z [<-|Hz]; apply I; [now left|right; now right]). unfold rsum in *. specialize (IH H0). lra. }
      pose proof (N q (I q (or_introl eq_refl))) as N1. unfold rsum in *. destruct Hp as [<-|Hp]; [|apply IH; auto; [intros z Hz; apply I; now right|lra]].
      assert (E0 : (path_prob score tp row q * IZR (levenshtein r (ws q)) = 0)%R) by lra. apply Rmult_integral in E0 as [E0|E0]; [pose proof (PP q); lra|]. now apply eq_IZR in E0. }
    intros E. now apply G.
Qed.
Print Assumptions C66_expected_errors.

(** *** Non-triviality: the lattice and paths of C49_ex *)
Definition refs66 : list (list Z) := [[7]; [3]; [7; 8]].
Example C66_ex : exists K, one_per_word_seq (la_aux exlat) expaths K /\
  mwer_loss (fun n => rev (zrange n)) (fun s => s * 3) (fun _ => Some (lay expaths, lay (concat expaths), concat (concat expaths)))
    500 (-501) (/ 1000) (/ 8) 200 ord65 1 2 0 2 red_sum exlat (splits_of refs66, concat refs66) =
  ([10; 20; 30; 40; 50], Some (scalar (rsum (concat (path_losses (path_score (/ 8) exlat) 2 (words (la_aux exlat)) refs66 K))))).
Proof.
  assert (RS : forall n, is_sched n (rev (zrange n))) by (intros n; unfold is_sched; rewrite <- Permutation.Permutation_rev; apply Permutation.Permutation_refl).
  assert (W : forall row p, In row expaths -> In p row -> zlen (words (la_aux exlat) p) <= 1).
  { intros row p Hr Hp. destruct Hr as [<-|[<-|[<-|[]]]]; simpl in Hp; repeat match goal with H : _ \/ _ |- _ => destruct H end; subst; try contradiction; cbv; congruence. }
  apply (C66_mwer_loss (fun n => rev (zrange n)) (fun s => s * 3) (fun _ => Some (lay expaths, lay (concat expaths), concat (concat expaths))) 500 (-501) (/ 1000) (/ 8) 200 ord65 1 2 0 2 red_sum exlat refs66 expaths).
  - exact RS.
  - exact RS.
  - reflexivity.
  - reflexivity.
  - reflexivity.
  - apply C49_ex.
  - apply C49_ex.
  - change (2 * 500) with 1000. lra.
  - lia.
  - lia.
  - lra.
  - repeat constructor.
  - repeat constructor; lia.
  - reflexivity.
  - discriminate.
  - intros k r row p Hr Hx Hp. pose proof (W row p (rd_In _ _ _ Hx) Hp). assert (zlen r <= 2) by (apply rd_In in Hr; repeat (destruct Hr as [<-|Hr]; [cbv; congruence|]); destruct Hr). change (Z.abs (-501 + 500)) with 1. lia.
  - reflexivity.
  - cbv; congruence.
Qed.
(** the numbers of word errors of its paths *)
Example C66_errors_ex : map (fun x => map (fun p => levenshtein (fst x) (words (la_aux exlat) p)) (snd x)) (combine refs66 expaths) = [[0; 0; 1]; []; [1]].
Proof. reflexivity. Qed.
