(** * FormatOutput *)
From Coq Require Import ZArith List Lia Bool.
From Verif Require Import Base RaggedModel RaggedSpec RaggedProofs FsaSpec FsaLemmas RaggedOpsProofs OpsModel ReverseProofs IntersectSpec IDenseModel IDenseSpec IDensePaths IDenseRes IDenseInit IDenseSteps.
From Verif Require GraphProofs RaggedListProofs.
Import ListNotations.
Open Scope Z_scope.

(** ** lists *)
Lemma filter_map_in {X Y} (p : Y -> bool) (q : X -> bool) (h : X -> Y) l : (forall x, In x l -> p (h x) = q x) -> filter p (map h l) = map h (filter q l).
Proof.
  induction l as [|x l IH]; intros H; [reflexivity|]. cbn. rewrite (H x) by apply in_eq. rewrite IH by (intros; apply H; now apply in_cons). destruct (q x); reflexivity.
Qed.
Lemma filter_concat {X} (p : X -> bool) ll : filter p (concat ll) = concat (map (filter p) ll).
Proof. induction ll as [|l ll IH]; [reflexivity|]. cbn. now rewrite filter_app, IH. Qed.
Lemma count_filter {X} (p : X -> bool) l : zsum (map b2z (map p l)) = zlen (filter p l).
Proof. induction l as [|x l IH]; [reflexivity|]. cbn [map filter]. unfold zsum in *. cbn [fold_right]. rewrite IH. destruct (p x); cbn [b2z]; rewrite ?zlen_cons; lia. Qed.
Lemma kept_mapM {X Y} (p : X -> bool) (h : X -> Y) body l : forall off,
  (forall i x, rd l i = Some x -> p x = true -> body (off + i) = Some (h x)) -> mapM body (kept_from off (map p l)) = Some (map h (filter p l)).
Proof.
  induction l as [|x l IH]; intros off H; [reflexivity|].
  assert (IH' : mapM body (kept_from (off + 1) (map p l)) = Some (map h (filter p l))).
  { apply IH. intros i y Hy Hp. pose proof (rd_Some_bound _ _ _ Hy). rewrite <- (H (i + 1) y); [f_equal; lia| |exact Hp]. rewrite rd_cons_S by lia. exact Hy. }
  cbn [map kept_from filter]. destruct (p x) eqn:E; [|exact IH'].
  cbn [app mapM]. pose proof (H 0 x eq_refl E) as H0. rewrite Z.add_0_r in H0. rewrite H0, IH'. reflexivity.
Qed.
Lemma ids_tags {X} (h : X -> Z) ll : (forall i l y, rd ll i = Some l -> In y l -> h y = i) -> map h (concat ll) = ids_of ll.
Proof.
  intros H. apply list_ext_rd; [rewrite zlen_map; unfold ids_of; now rewrite zlen_ids_from|]. intros i Hi. rewrite zlen_map in Hi. destruct (rd_in_bound _ _ Hi) as (x & Hx).
  rewrite rd_map, Hx. cbn [option_map]. apply rd_concat_inv in Hx as (r & l & j & H1 & H2 & H3 & H4). rewrite H4. f_equal. exact (H r l x H1 (rd_In _ _ _ H2)).
Qed.
Lemma ids_filter {X} (p : X -> bool) ll : mapM (rd (ids_of ll)) (kept_from 0 (map p (concat ll))) = Some (ids_of (map (filter p) ll)).
Proof.
  set (tl := imap (fun n (l : list X) => map (fun y => (n, y)) l) 0 ll).
  assert (E1 : map p (concat ll) = map (fun z => p (snd z)) (concat tl)).
  { rewrite !concat_map. f_equal. unfold tl. rewrite map_imap. rewrite <- (imap_const (map p) ll 0). apply imap_ext. intros i l _. rewrite map_map. reflexivity. }
  assert (EL : map zlen tl = map zlen ll).
  { unfold tl. rewrite map_imap. rewrite <- (imap_const zlen ll 0). apply imap_ext. intros. apply zlen_map. }
  rewrite E1. rewrite (kept_mapM (fun z => p (snd z)) fst).
  - f_equal. rewrite filter_concat.
    replace (ids_of (map (filter p) ll)) with (ids_of (map (filter (fun z : Z * X => p (snd z))) tl)).
    + apply ids_tags. intros i l y Hl Hy. rewrite rd_map in Hl. unfold tl in Hl. rewrite rd_imap in Hl. destruct (rd ll i); [|discriminate]. cbn in Hl. injection Hl as <-. apply filter_In in Hy as (Hy & _). apply in_map_iff in Hy as (u & <- & _). cbn. lia.
    + unfold ids_of. rewrite <- !ids_sizes_ids_from. f_equal. unfold tl. rewrite !map_map, map_imap. rewrite <- (imap_const (fun l => zlen (filter p l)) ll 0). apply imap_ext. intros i l _. rewrite (filter_map_in _ p) by reflexivity. apply zlen_map.
  - intros i z Hz _. rewrite Z.add_0_l. apply rd_concat_inv in Hz as (r & l & j & H1 & H2 & -> & _).
    pose proof H1 as H1'. unfold tl in H1'. rewrite rd_imap in H1'. destruct (rd ll r) as [l'|] eqn:El; [|discriminate]. cbn in H1'. injection H1' as <-.
    rewrite rd_map in H2. destruct (rd l' j) as [u|] eqn:Eu; [|discriminate]. cbn in H2. injection H2 as <-. cbn [fst].
    rewrite (off1_same tl ll _ EL). exact (proj2 (rd_concat_off ll r l' j u El Eu)).
Qed.
Lemma off1_concat_all {A} (LLL : list (list (list A))) k : 0 <= k <= zlen LLL -> rd (splits_of (concat LLL)) (off1 LLL k) = Some (off1 (map (@concat A) LLL) k).
Proof.
  intros Hj. pose proof (off1_bound LLL k). pose proof (off1_nonneg LLL k). rewrite rd_splits_off by lia. f_equal.
  rewrite off1_map_concat. unfold off1. f_equal. f_equal.
  rewrite <- (firstn_skipn (Z.to_nat k) LLL) at 2. rewrite concat_app. unfold zlen. rewrite Nat2Z.id, firstn_app, firstn_all, Nat.sub_diag, firstn_O, app_nil_r. reflexivity.
Qed.
Lemma copies_split f n n' : 0 <= n <= n' -> exists rest, copies f n' = copies f n ++ rest /\ forall x, In x rest -> n <= fst x.
Proof.
  intros H. unfold copies. replace n' with (n + (n' - n)) by lia. rewrite zrange_app by lia. rewrite map_app, concat_app. eexists. split; [reflexivity|].
  intros x Hx. apply in_concat in Hx as (l & Hl & Hx). apply in_map_iff in Hl as (t & <- & Ht). apply in_map_iff in Ht as (u & <- & Hu). apply in_zrange in Hu. apply in_map_iff in Hx as (s & <- & _). cbn. lia.
Qed.
Lemma zsum_const {X} c (l : list X) : zsum (map (fun _ => c) l) = c * zlen l.
Proof. induction l as [|x l IH]; [change (zlen (@nil X)) with 0; cbn; lia|]. cbn [map]. rewrite zlen_cons. unfold zsum in *. cbn [fold_right]. rewrite IH. lia. Qed.
Lemma zsum_concat_map {X} (h : X -> Z) ll : zsum (map h (concat ll)) = zsum (map (fun l => zsum (map h l)) ll).
Proof. induction ll as [|l ll IH]; [reflexivity|]. cbn [concat map]. rewrite map_app, zsum_app, IH. reflexivity. Qed.
Lemma zsum_le {X} (h g : X -> Z) l : (forall x, In x l -> h x <= g x) -> zsum (map h l) <= zsum (map g l).
Proof. induction l as [|x l IH]; intros H; [cbn; lia|]. cbn [map]. unfold zsum in *. cbn [fold_right]. specialize (IH (fun y Hy => H y (in_cons _ _ _ Hy))). pose proof (H x (in_eq _ _)). lia. Qed.
Lemma zsum_filter {X} (p : X -> bool) (h : X -> Z) l : zsum (map h (filter p l)) = zsum (map (fun x => b2z (p x) * h x) l).
Proof. induction l as [|x l IH]; [reflexivity|]. cbn [map filter]. unfold zsum in *. destruct (p x); cbn [map fold_right b2z]; rewrite IH; lia. Qed.
Lemma zlen_filter_le {X} (p : X -> bool) l : zlen (filter p l) <= zlen l.
Proof. induction l as [|x l IH]; [cbn; lia|]. cbn [filter]. destruct (p x); rewrite ?zlen_cons; lia. Qed.

Section Out.
Variable V : list nfsa.
Variable seqs : list frames.
Variable m : list Z.
Variables cols stride : Z.
Variable ord : Z -> list Z.
Hypothesis Ho : forall n, is_sched n (ord n).
Hypothesis HV : Forall src_ok V.
Hypothesis HD : Forall (fun f : nfsa => forall a, In a (all_arcs f) -> 0 <= dst a < nstates f) V.
Hypothesis Hlab : forall f a, In f V -> In a (all_arcs f) -> 0 <= lab a + 1 < cols.
Hypothesis Hcols : cols <= stride /\ cols <= 65536.
Hypothesis Hns : forall f, In f V -> zlen f < 65536.
Hypothesis Hn : 0 < zlen V < 65536.
Hypothesis Hrows : forall r, In r (concat seqs) -> zlen r = stride.
Hypothesis HT : forall s, In s seqs -> zlen s < 65536.
Hypothesis Hsort : nonincreasing (map zlen seqs) = true.
Hypothesis Hm : nondecreasing m = true.
Hypothesis Hml : zlen m = zlen V.
Hypothesis Hmr : forall j, In j m -> 0 <= j < zlen seqs.

Notation VR := (VR V seqs m).
Notation ao k := (first_arc V k).
Notation soff := (soff seqs m stride).
Notation infos := (infos V seqs m stride).
Notation steps := (steps V seqs m).
Notation SS := (SS V seqs m).
Notation Tmax := (Tmax V seqs m).
Notation nft := (nft V seqs m).
Notation g0 := (g0 V seqs m cols stride).
Notation VR_rd := (VR_rd V seqs m cols ord 0 Ho Hlab Hns HT Hsort Hm Hml Hmr).
Notation VR_at := (VR_at V seqs m cols ord 0 Ho Hlab Hns HT Hsort Hm Hml Hmr).
Notation Tmax_ge := (Tmax_ge V seqs m cols ord 0 Ho Hlab Hns HT Hsort Hm Hml Hmr).
Notation nft_ok := (nft_ok V seqs m cols ord 0 Ho Hlab Hns HT Hsort Hm Hml Hmr).
Notation rd_SS := (rd_SS V seqs m cols ord 0 Ho Hlab Hns HT Hsort Hm Hml Hmr).
Notation rd_mem := (rd_mem V seqs m cols stride ord 0 Ho Hlab Hcols Hns Hrows HT Hsort Hm Hml Hmr).
Notation rd_infos := (rd_infos V seqs m stride).
Notation T1 := (Tmax + 1).

Lemma rd_rs' k f s : rd V k = Some f -> 0 <= s <= zlen f -> rd (splits_of (concat V)) (off1 V k + s) = Some (ao k + off1 f s).
Proof. apply (rd_rs V Hns). intros g a Hg Ha. pose proof (Hlab g a Hg Ha). lia. Qed.
Lemma Tmax_nonneg : 0 <= Tmax.
Proof. destruct (VR_at 0 ltac:(lia)) as (f & rows & E & _). pose proof (Tmax_ge 0 f rows E). pose proof (zlen_nonneg rows). lia. Qed.
Lemma zlen_VR' : zlen VR = zlen V.
Proof. unfold IDenseSteps.VR. rewrite <- (zlen_map fst). rewrite combine_fst; [reflexivity|]. rewrite map_length. unfold zlen in *. lia. Qed.
Lemma VR_fst' : map fst VR = V.
Proof. apply combine_fst. rewrite map_length. unfold zlen in *. lia. Qed.

Definition cutk (b : Z) (x : nfsa * frames) : option Z := oadd (Fw (fst x) (snd x) (Z.to_nat (zlen (snd x))) (zlen (fst x) - 1)) (Some (- b)).
Lemma rd_steps t : 0 <= t <= Tmax -> rd steps t = Some (SS (Z.to_nat t) (nft t)).
Proof. intros H. unfold IDenseSteps.steps. rewrite rd_map, rd_zrange by lia. reflexivity. Qed.
Lemma cutoffs_ok nf b : mapM (score_cutoff (g0 nf) steps b) (zrange (zlen infos)) = Some (map (cutk b) VR).
Proof.
  replace (zlen infos) with (zlen (map (cutk b) VR)) by (unfold IDenseSteps.infos; now rewrite zlen_imap, zlen_map).
  apply GraphProofs.mapM_zrange. intros k y Hy. rewrite rd_map in Hy. destruct (rd VR k) as [(f & rows)|] eqn:E; [|discriminate]. injection Hy as <-.
  unfold score_cutoff. cbn [IDenseSteps.g0 g_info]. rewrite (rd_infos k f rows E). cbn [i_T i_ns i_st]. destruct (VR_rd k f rows E) as (Hf & _).
  pose proof (Tmax_ge k f rows E). pose proof (zlen_nonneg rows). rewrite rd_steps by lia. unfold cutk. cbn [fst snd]. pose proof (zlen_nonneg f).
  destruct (zlen f =? 0) eqn:E0.
  - apply Z.eqb_eq in E0. apply zlen_0_nil in E0 as ->. cbv zeta iota. cbn [fst snd ogt]. f_equal. f_equal.
    destruct (Z.to_nat (zlen rows)); reflexivity.
  - apply Z.eqb_neq in E0. pose proof (proj2 (nft_ok (zlen rows) k f rows E) ltac:(lia)) as Hc.
    replace (2 * off1 V k) with (2 * off1 V k + 0) at 1 by lia. rewrite (proj1 (rd_SS _ _ k f rows 0 E Hc ltac:(lia))).
    replace (2 * off1 V k + 2 * zlen f - 1) with (2 * off1 V k + zlen f + (zlen f - 1)) by lia. rewrite (proj2 (rd_SS _ _ k f rows (zlen f - 1) E Hc ltac:(lia))).
    cbv zeta. cbn [fst snd]. rewrite <- (Fw_Bw f rows (V_s V HV k f Hf)) by lia. destruct (ogt _ _); reflexivity.
Qed.

(** ** copies of all the states *)
Definition tag {X} (k : Z) (l : list X) : list (Z * X) := map (fun y => (k, y)) l.
Definition COL : list (list (Z * (Z * Z))) := imap (fun k x => tag k (copies (fst x) T1)) 0 VR.
Notation CO := (concat COL).
Definition gr (k : Z) : nfsa * frames := match rd VR k with Some x => x | None => ([], []) end.
Lemma gr_at k x : rd VR k = Some x -> gr k = x.
Proof. unfold gr. now intros ->. Qed.
Lemma off1_COL k : off1 COL k = T1 * off1 V k.
Proof.
  pose proof Tmax_nonneg. rewrite (off1_same COL (map (fun x => copies (fst x) T1) VR)).
  - replace (off1 V k) with (off1 (map fst VR) k) by (now rewrite VR_fst'). apply off1_scale. intros x _. rewrite zlen_copies by lia. reflexivity.
  - unfold COL. rewrite map_imap, map_map. rewrite <- (imap_const (fun x => zlen (copies (fst x) T1)) VR 0). apply imap_ext. intros i x _. apply zlen_map.
Qed.
Lemma rd_COL k f rows : rd VR k = Some (f, rows) -> rd COL k = Some (tag k (copies f T1)).
Proof. intros H. unfold COL. rewrite rd_imap, H. cbn. now rewrite Z.add_0_l. Qed.
Lemma rd_CO k f rows t s : rd VR k = Some (f, rows) -> 0 <= t < T1 -> 0 <= s < zlen f -> rd CO (T1 * off1 V k + (t * zlen f + s)) = Some (k, (t, s)).
Proof.
  intros Hk Ht Hs. rewrite <- off1_COL. refine (proj1 (rd_concat_off COL k _ _ _ (rd_COL k f rows Hk) _)). unfold tag. rewrite rd_map, rd_copies by lia. reflexivity.
Qed.
Lemma CO_inv i y : rd CO i = Some y -> exists k f rows t s, rd VR k = Some (f, rows) /\ y = (k, (t, s)) /\ 0 <= t < T1 /\ 0 <= s < zlen f /\ i = T1 * off1 V k + (t * zlen f + s).
Proof.
  intros H. apply rd_concat_inv in H as (k & l & j & H1 & H2 & -> & _). pose proof Tmax_nonneg. rewrite off1_COL.
  assert (E : exists f rows, rd VR k = Some (f, rows)) by (unfold COL in H1; rewrite rd_imap in H1; destruct (rd VR k) as [(f & rows)|]; [eauto|discriminate]).
  destruct E as (f & rows & E). rewrite (rd_COL k f rows E) in H1. injection H1 as <-. unfold tag in H2. rewrite rd_map in H2. destruct (rd (copies f T1) j) as [x|] eqn:Ex; [|discriminate]. injection H2 as <-.
  apply copies_inv in Ex as (t & s & -> & Ht & Hs & ->); [|lia]. exists k, f, rows, t, s. auto.
Qed.
Lemma zlen_CO : zlen CO = T1 * zlen (concat V).
Proof. rewrite <- !off1_all. rewrite off1_COL. unfold COL. rewrite zlen_imap, zlen_VR'. reflexivity. Qed.
Lemma CO_fsa k f rows t s : rd VR k = Some (f, rows) -> 0 <= t < T1 -> 0 <= s < zlen f -> rd (ids_of V) ((T1 * off1 V k + (t * zlen f + s)) / T1) = Some k.
Proof.
  intros Hk Ht Hs. destruct (VR_rd k f rows Hk) as (Hf & _). rewrite Z.mul_comm, Z.div_add_l by lia.
  assert (B : 0 <= (t * zlen f + s) / T1 < zlen f) by (split; [apply Z.div_pos; nia|apply Z.div_lt_upper_bound; nia]).
  destruct (rd_in_bound f _ B) as (st & Hst). exact (proj2 (rd_concat_off V k f _ st Hf Hst)).
Qed.
Lemma CO_dec k f rows t s : rd VR k = Some (f, rows) -> 0 <= t < T1 -> 0 <= s < zlen f -> 
  (T1 * off1 V k + (t * zlen f + s) - T1 * off1 V k) / zlen f = t /\ (T1 * off1 V k + (t * zlen f + s) - T1 * off1 V k) mod zlen f = s.
Proof.
  intros Hk Ht Hs. replace (T1 * off1 V k + (t * zlen f + s) - T1 * off1 V k) with (s + t * zlen f) by lia. rewrite Z.div_add, Z.mod_add by lia. rewrite Z.div_small, Z.mod_small by lia. lia.
Qed.

Definition narcs (y : Z * (Z * Z)) : Z := match rd (fst (gr (fst y))) (snd (snd y)) with Some st => zlen st | None => 0 end.
Definition kq (b : Z) (y : Z * (Z * Z)) : bool := kp (fst (gr (fst y))) (snd (gr (fst y))) (cutk b (gr (fst y))) (snd y).
Lemma keep_ok nf b : mapM (keep_state (g0 nf) steps (map (cutk b) VR)) (zrange (T1 * zlen (concat V))) = Some (map (fun y => (kq b y, b2z (kq b y) * narcs y)) CO).
Proof.
  rewrite <- zlen_CO. rewrite <- (zlen_map (fun y => (kq b y, b2z (kq b y) * narcs y))). apply GraphProofs.mapM_zrange. intros i y Hy. rewrite rd_map in Hy.
  destruct (rd CO i) as [y'|] eqn:Ey; [|discriminate]. injection Hy as <-. apply CO_inv in Ey as (k & f & rows & t & s & Hk & -> & Ht & Hs & ->).
  destruct (VR_rd k f rows Hk) as (Hf & _). destruct (rd_in_bound f s Hs) as (st & Hst).
  unfold keep_state. cbn [IDenseSteps.g0 g_ids1 g_T g_info g_v flat_vec v_rs2]. rewrite (CO_fsa k f rows t s Hk Ht Hs). rewrite (rd_infos k f rows Hk). rewrite rd_map, Hk. cbn [option_map i_st i_ns i_T].
  destruct (CO_dec k f rows t s Hk Ht Hs) as (D1 & D2). cbv zeta. rewrite D1, D2.
  rewrite (rd_rs' k f s Hf) by lia. rewrite <- (Z.add_assoc (off1 V k) s 1). rewrite (rd_rs' k f (s + 1) Hf) by lia. rewrite (off1_next f s st Hst).
  unfold narcs, kq, kp, keepS. cbn [fst snd]. rewrite (gr_at k _ Hk). cbn [fst snd]. rewrite Hst. replace (ao k + (off1 f s + zlen st) - (ao k + off1 f s)) with (zlen st) by lia.
  destruct (t <=? zlen rows) eqn:E; [|reflexivity]. apply Z.leb_le in E. pose proof (Tmax_ge k f rows Hk). rewrite !rd_steps by lia.
  replace (2 * off1 V k + s + zlen f) with (2 * off1 V k + zlen f + s) by lia.
  rewrite (proj2 (rd_SS _ _ k f rows s Hk (proj2 (nft_ok t k f rows Hk) E) Hs)). rewrite (proj1 (rd_SS _ _ k f rows s Hk (proj2 (nft_ok (zlen rows - t) k f rows Hk) ltac:(lia)) Hs)).
  reflexivity.
Qed.

(** ** the kept states *)
Section Beam.
Variable b : Z.
Notation cut x := (cutk b x).
Notation Nk x := (N (fst x) (snd x) (cut x)).
Definition NKL : list (list (Z * (Z * Z))) := imap (fun k x => tag k (Nk x)) 0 VR.
Notation NN := (concat NKL).
Lemma kq_at k x y : rd VR k = Some x -> kq b (k, y) = kp (fst x) (snd x) (cut x) y.
Proof. intros H. unfold kq. cbn [fst snd]. now rewrite (gr_at k x H). Qed.
Lemma NKL_filter : NKL = map (filter (kq b)) COL.
Proof.
  unfold NKL, COL. rewrite map_imap. apply imap_ext. intros k x Hx. rewrite Z.add_0_l. unfold tag. rewrite (filter_map_in _ (kp (fst x) (snd x) (cut x))) by (intros; now apply kq_at). f_equal.
  destruct x as (f & rows). pose proof (Tmax_ge k f rows Hx). pose proof (zlen_nonneg rows). unfold N. cbn [fst snd].
  destruct (copies_split f (zlen rows + 1) T1 ltac:(lia)) as (rest & -> & R). rewrite filter_app. rewrite (filter_none _ rest); [now rewrite app_nil_r|].
  intros y Hy. specialize (R y Hy). unfold kp, keepS. replace (fst y <=? zlen rows) with false; [reflexivity|]. symmetry. apply Z.leb_gt. lia.
Qed.
Lemma NN_filter : NN = filter (kq b) CO.
Proof. now rewrite filter_concat, NKL_filter. Qed.
Lemma rd_NKL k f rows : rd VR k = Some (f, rows) -> rd NKL k = Some (tag k (N f rows (cut (f, rows)))).
Proof. intros H. unfold NKL. rewrite rd_imap, H. cbn. now rewrite Z.add_0_l. Qed.
Lemma NN_inv n y : rd NN n = Some y -> exists k f rows t s, rd VR k = Some (f, rows) /\ y = (k, (t, s)) /\ n = off1 NKL k + pos f rows (cut (f, rows)) t s /\ 0 <= t <= zlen rows /\ 0 <= s < zlen f /\ keepS f rows (cut (f, rows)) t s = true.
Proof.
  intros H. apply rd_concat_inv in H as (k & l & j & H1 & H2 & -> & _).
  assert (E : exists f rows, rd VR k = Some (f, rows)) by (unfold NKL in H1; rewrite rd_imap in H1; destruct (rd VR k) as [(f & rows)|]; [eauto|discriminate]).
  destruct E as (f & rows & E). rewrite (rd_NKL k f rows E) in H1. injection H1 as <-. unfold tag in H2. rewrite rd_map in H2. destruct (rd (N f rows (cut (f, rows))) j) as [x|] eqn:Ex; [|discriminate]. injection H2 as <-.
  apply N_inv in Ex as (t & s & -> & -> & Ht & Hs & HK). exists k, f, rows, t, s. auto 8.
Qed.
Lemma cnt_CO k f rows t s : rd VR k = Some (f, rows) -> 0 <= t <= zlen rows -> 0 <= s < zlen f ->
  zlen (filter (kq b) (firstn (Z.to_nat (T1 * off1 V k + (t * zlen f + s))) CO)) = off1 NKL k + pos f rows (cut (f, rows)) t s.
Proof.
  intros Hk Ht Hs. rewrite <- off1_COL. pose proof (Tmax_ge k f rows Hk) as HTm. pose proof (zlen_nonneg rows). unfold off1 at 1.
  rewrite (firstn_concat COL k _ _ (rd_COL k f rows Hk)).
  2:{ unfold tag. rewrite zlen_map, zlen_copies by lia. nia. }
  rewrite filter_app, zlen_app. f_equal.
  - unfold off1. rewrite filter_concat, NKL_filter, firstn_map. reflexivity.
  - unfold tag. rewrite firstn_map. rewrite (filter_map_in _ (kp f rows (cut (f, rows)))) by (intros; now apply (kq_at k (f, rows))). rewrite zlen_map. unfold pos. f_equal. f_equal.
    destruct (copies_split f (zlen rows + 1) T1 ltac:(lia)) as (rest & -> & R). rewrite firstn_app.
    replace (Z.to_nat (t * zlen f + s) - length (copies f (zlen rows + 1)))%nat with 0%nat; [now rewrite firstn_O, app_nil_r|].
    pose proof (zlen_copies f (zlen rows + 1) ltac:(lia)) as ZC. unfold zlen in ZC at 1. nia.
Qed.
Lemma o2n_at k f rows t s : rd VR k = Some (f, rows) -> 0 <= t <= zlen rows -> 0 <= s < zlen f ->
  rd (old2new (map (kq b) CO)) (T1 * off1 V k + (t * zlen f + s)) = Some (off1 NKL k + pos f rows (cut (f, rows)) t s) /\
  rd (old2new (map (kq b) CO)) (T1 * off1 V k + (t * zlen f + s) + 1) = Some (off1 NKL k + pos f rows (cut (f, rows)) t s + b2z (keepS f rows (cut (f, rows)) t s)).
Proof.
  intros Hk Ht Hs. pose proof (Tmax_ge k f rows Hk). pose proof (rd_CO k f rows t s Hk ltac:(lia) Hs) as R. pose proof (rd_Some_bound _ _ _ R) as B.
  rewrite !rd_old2new by (rewrite zlen_map; lia). rewrite (count_step (map (kq b) CO) _ (keepS f rows (cut (f, rows)) t s)).
  2:{ rewrite rd_map, R. cbn [option_map]. rewrite (kq_at k _ _ Hk). reflexivity. }
  rewrite firstn_map, count_filter, (cnt_CO k f rows t s Hk Ht Hs). auto.
Qed.

(** ** states of the result *)
Definition TT : list (list Z) := map (fun x => zrange (zlen (snd x) + 1)) VR.
Definition NTk (k : Z) (x : nfsa * frames) : list (list (Z * (Z * Z))) :=
  map (fun t => map (fun s => (k, (t, s))) (filter (keepS (fst x) (snd x) (cut x) t) (zrange (zlen (fst x))))) (zrange (zlen (snd x) + 1)).
Definition NTL := imap NTk 0 VR.
Lemma NTL_concat : map (@concat _) NTL = NKL.
Proof.
  unfold NTL, NKL. rewrite map_imap. apply imap_ext. intros k x _. rewrite Z.add_0_l. unfold NTk, tag, N, copies. rewrite filter_concat, concat_map, !map_map. f_equal. apply map_ext. intros t.
  rewrite (filter_map_in _ (keepS (fst x) (snd x) (cut x) t)) by reflexivity. rewrite map_map. reflexivity.
Qed.
Lemma off1_NTL k : off1 NTL k = off1 TT k.
Proof. apply off1_same. unfold NTL, TT. rewrite map_imap, map_map. rewrite <- (imap_const (fun x => zlen (zrange (zlen (snd x) + 1))) VR 0). apply imap_ext. intros i x _. unfold NTk. apply zlen_map. Qed.
Lemma zlen_NT : zlen (concat NTL) = zlen (concat TT).
Proof. rewrite <- !off1_all, off1_NTL. unfold NTL, TT. now rewrite zlen_imap, zlen_map. Qed.
Lemma ids2_ok : map (fun y : Z * (Z * Z) => off1 TT (fst y) + fst (snd y)) NN = ids_of (concat NTL).
Proof.
  rewrite <- NTL_concat, concat_map_concat. apply ids_tags. intros i l y Hl Hy. apply rd_concat_inv in Hl as (k & x & t & H1 & H2 & -> & _). rewrite off1_NTL.
  unfold NTL in H1. rewrite rd_imap in H1. destruct (rd VR k) as [x'|] eqn:Ex; [|discriminate]. cbn [option_map] in H1. rewrite Z.add_0_l in H1. injection H1 as <-. unfold NTk in H2. rewrite rd_map in H2.
  pose proof (rd_Some_bound (zrange (zlen (snd x') + 1)) t) as Bt. destruct (rd (zrange (zlen (snd x') + 1)) t) as [u|] eqn:Eu; [|discriminate]. injection H2 as <-. specialize (Bt u eq_refl). pose proof (zlen_nonneg (snd x')). rewrite zlen_zrange in Bt by lia.
  rewrite rd_zrange in Eu by lia. injection Eu as <-. apply in_map_iff in Hy as (s & <- & _). reflexivity.
Qed.
Lemma rs1_ok : exsum (map (fun info => i_T info + 1) infos) = splits_of TT.
Proof.
  unfold splits_of, TT, IDenseSteps.infos. rewrite map_imap, map_map. f_equal. rewrite <- (imap_const (fun x => zlen (zrange (zlen (snd x) + 1))) VR 0). apply imap_ext. intros i x _. cbn [i_T]. rewrite zlen_zrange; [reflexivity|]. pose proof (zlen_nonneg (snd x)). lia.
Qed.
Lemma rs1_final : mapM (rd (splits_of (concat NTL))) (splits_of TT) = Some (splits_of NKL).
Proof.
  assert (E1 : zlen TT = zlen VR) by (unfold TT; apply zlen_map). assert (E2 : zlen NKL = zlen VR) by (unfold NKL; apply zlen_imap). assert (E3 : zlen NTL = zlen VR) by (unfold NTL; apply zlen_imap).
  apply mapM_by_rd; [rewrite !zlen_splits_of; lia|]. intros k x Hx. pose proof (rd_Some_bound _ _ _ Hx) as B. rewrite zlen_splits_of in B. rewrite rd_splits_off in Hx by lia. injection Hx as <-.
  rewrite <- off1_NTL. rewrite off1_concat_all by lia. rewrite NTL_concat, rd_splits_off by lia. reflexivity.
Qed.
Lemma rs2_at k : 0 <= k <= zlen V -> rd (splits_of (concat NTL)) (off1 TT k) = Some (off1 NKL k).
Proof. intros H. rewrite <- off1_NTL, off1_concat_all, NTL_concat by (unfold NTL; rewrite zlen_imap, zlen_VR'; lia). reflexivity. Qed.

Definition lv (y : Z * (Z * Z)) : list (Z * (Z * Z * Z)) := tag (fst y) (leaves (fst (gr (fst y))) (snd (gr (fst y))) (snd y)).
Definition os_of (y : Z * (Z * Z)) : Z * Z * Z := (off1 TT (fst y) + fst (snd y), off1 V (fst y) + snd (snd y), zlen (lv y)).
Lemma rs1_at k : 0 <= k <= zlen V -> rd (splits_of TT) k = Some (off1 TT k).
Proof. intros H. apply rd_splits_off. unfold TT. rewrite zlen_map, zlen_VR'. lia. Qed.
Lemma os_ok nf : mapM (out_state (g0 nf) (splits_of TT)) (kept_from 0 (map (kq b) CO)) = Some (map os_of NN).
Proof.
  rewrite NN_filter. apply kept_mapM. intros i y Hy Hq. rewrite Z.add_0_l. apply CO_inv in Hy as (k & f & rows & t & s & Hk & -> & Ht & Hs & ->).
  destruct (VR_rd k f rows Hk) as (Hf & _). destruct (rd_in_bound f s Hs) as (st & Hst). pose proof (rd_Some_bound _ _ _ Hf) as Bk.
  unfold out_state. cbn [IDenseSteps.g0 g_ids1 g_T g_info g_v flat_vec v_rs2]. rewrite (CO_fsa k f rows t s Hk Ht Hs). rewrite (rd_infos k f rows Hk). cbn [i_st i_ns i_T].
  destruct (CO_dec k f rows t s Hk Ht Hs) as (D1 & D2). cbv zeta. rewrite D1, D2. rewrite rs1_at by lia.
  rewrite (rd_rs' k f s Hf) by lia. rewrite <- (Z.add_assoc (off1 V k) s 1). rewrite (rd_rs' k f (s + 1) Hf) by lia. rewrite (off1_next f s st Hst).
  unfold os_of, lv, tag, leaves. cbn [fst snd]. rewrite (gr_at k _ Hk). cbn [fst snd]. rewrite Hst, zlen_map. destruct (t =? zlen rows).
  - reflexivity.
  - rewrite zlen_map, zlen_zrange by apply zlen_nonneg. repeat f_equal. lia.
Qed.

(** ** arcs *)
Definition LL : list (list (Z * (Z * Z * Z))) := map lv NN.
Lemma leaf_at i z : rd (concat LL) i = Some z -> exists k f rows t s j st a n,
  rd VR k = Some (f, rows) /\ rd V k = Some f /\ z = (k, ((t, s), j)) /\ rd f s = Some st /\ rd st j = Some a /\ larc f ((t, s), j) = a /\
  0 <= t < zlen rows /\ 0 <= s < zlen f /\ keepS f rows (cut (f, rows)) t s = true /\ i = off1 LL n + j /\ rd (ids_of LL) i = Some n /\ n = off1 NKL k + pos f rows (cut (f, rows)) t s /\ rd NN n = Some (k, (t, s)) /\ 0 <= n < zlen LL.
Proof.
  intros H. apply rd_concat_inv in H as (n & l & j & H1 & H2 & H3 & H4). pose proof (rd_Some_bound _ _ _ H1) as Bn. unfold LL in H1. rewrite rd_map in H1. destruct (rd NN n) as [y|] eqn:Ey; [|discriminate]. injection H1 as <-.
  destruct (NN_inv n y Ey) as (k & f & rows & t & s & Hk & -> & En & Ht & Hs & HK). destruct (VR_rd k f rows Hk) as (Hf & _).
  unfold lv, tag, leaves in H2. cbn [fst snd] in H2. rewrite (gr_at k _ Hk) in H2. cbn [fst snd] in H2. rewrite rd_map in H2.
  destruct (t =? zlen rows) eqn:Et; [rewrite rd_nil in H2; discriminate|]. apply Z.eqb_neq in Et. destruct (rd_in_bound f s Hs) as (st & Hst). rewrite Hst, rd_map in H2.
  destruct (rd (zrange (zlen st)) j) as [u|] eqn:Eu; [|discriminate]. pose proof (rd_Some_bound _ _ _ Eu) as Bj. rewrite zlen_zrange in Bj by apply zlen_nonneg. rewrite rd_zrange in Eu by lia. injection Eu as <-. cbn in H2. injection H2 as <-.
  destruct (rd_in_bound st j Bj) as (a & Ha). exists k, f, rows, t, s, j, st, a, n. unfold larc. cbn [fst snd]. rewrite Hst, Ha. repeat split; try assumption; lia.
Qed.

Definition kq2 (z : Z * (Z * Z * Z)) : bool := kl (fst (gr (fst z))) (snd (gr (fst z))) (cut (gr (fst z))) (snd z).
Notation o2n := (old2new (map (kq b) CO)).
Notation ids2 := (map (fun x => fst (fst x)) (map os_of NN)).
Notation st01s := (map (fun x => snd (fst x)) (map os_of NN)).
Lemma arc_ok nf i k f rows t s j st a n :
  rd VR k = Some (f, rows) -> rd V k = Some f -> rd f s = Some st -> rd st j = Some a ->
  0 <= t < zlen rows -> 0 <= s < zlen f -> i = off1 LL n + j -> n = off1 NKL k + pos f rows (cut (f, rows)) t s -> rd NN n = Some (k, (t, s)) ->
  let K := keepS f rows (cut (f, rows)) (t + 1) (dst a) in
  out_arc (g0 nf) steps o2n (splits_of TT) (ids_of TT) ids2 st01s (splits_of LL) i n =
  Some (ao k + apos f ((t, s), j), soff k + stride * t + (lab a + 1), mkCarc (src a) (dst a) (lab a + 1) k (cin V k f (off1 f s + j)) (sc a), wt rows t a,
        off1 NKL k + pos f rows (cut (f, rows)) (t + 1) (dst a), K,
        if K then oadd (oadd (Fw f rows (Z.to_nat t) s) (wt rows t a)) (Bw f rows (Z.to_nat (zlen rows - (t + 1))) (dst a)) else None, k).
Proof.
  intros Hk Hf Hst Ha Ht Hs -> En Hy. cbv zeta. pose proof (rd_Some_bound _ _ _ Hy) as Bn. pose proof (rd_Some_bound _ _ _ Hf) as Bk. pose proof (Tmax_ge k f rows Hk) as HTm.
  assert (Hi : rd (concat f) (off1 f s + j) = Some a) by exact (proj1 (rd_concat_off f s st j a Hst Ha)).
  assert (Hin : In a (all_arcs f)) by exact (rd_In _ _ _ Hi).
  assert (Hsa : src a = s) by (apply (in_row f (V_s V HV k f Hf) s st a Hst); exact (rd_In _ _ _ Ha)).
  pose proof (V_d V HD k f Hf a Hin) as Bd.
  unfold out_arc. rewrite rd_splits_off by (unfold LL; rewrite zlen_map; lia). rewrite !map_map, !rd_map, Hy. cbn [option_map os_of fst snd].
  assert (HTT : rd TT k = Some (zrange (zlen rows + 1))) by (unfold TT; rewrite rd_map, Hk; reflexivity).
  rewrite (proj2 (rd_concat_off TT k _ t t HTT ltac:(apply rd_zrange; lia))). rewrite rs1_at by lia. cbv zeta.
  cbn [IDenseSteps.g0 g_ids1 g_T g_info g_v flat_vec v_rs2 g_carcs g_b flat_dense b_stride b_data]. rewrite (rd_infos k f rows Hk). cbn [i_st i_ns i_T i_soff].
  rewrite (rd_rs' k f s Hf) by lia. replace (ao k + off1 f s + (off1 LL n + j - off1 LL n)) with (ao k + (off1 f s + j)) by lia.
  rewrite (rd_carcs V k f _ a Hf Hi). cbn [c_src c_dst c_lab1 c_sc]. replace (off1 V k + s - off1 V k) with s by lia. rewrite Hsa, Z.eqb_refl. cbv iota.
  replace (off1 TT k + t - off1 TT k) with t by lia. pose proof (Hlab f a (rd_In _ _ _ Hf) Hin) as Bl. rewrite (rd_mem k f rows t (lab a) Hk Ht Bl).
  replace (off1 V k * T1 + t * zlen f + s) with (T1 * off1 V k + (t * zlen f + s)) by lia. rewrite (proj1 (o2n_at k f rows t s Hk ltac:(lia) Hs)). rewrite <- En, Z.eqb_refl. cbv iota.
  replace (t <? zlen rows) with true by (symmetry; apply Z.ltb_lt; lia). cbv iota.
  replace (off1 V k * T1 + (t + 1) * zlen f + dst a) with (T1 * off1 V k + ((t + 1) * zlen f + dst a)) by lia.
  destruct (o2n_at k f rows (t + 1) (dst a) Hk ltac:(lia) Bd) as (O1 & O2). rewrite O1, O2. clear O1 O2.
  rewrite !rd_steps by lia.
  assert (EK : (off1 NKL k + pos f rows (cut (f, rows)) (t + 1) (dst a) <? off1 NKL k + pos f rows (cut (f, rows)) (t + 1) (dst a) + b2z (keepS f rows (cut (f, rows)) (t + 1) (dst a))) = keepS f rows (cut (f, rows)) (t + 1) (dst a)).
  { destruct (keepS f rows (cut (f, rows)) (t + 1) (dst a)); cbn [b2z]; [apply Z.ltb_lt|apply Z.ltb_ge]; lia. }
  rewrite EK. unfold apos. cbn [fst snd].
  destruct (keepS f rows (cut (f, rows)) (t + 1) (dst a)); [|reflexivity].
  rewrite (proj2 (rd_SS _ _ k f rows s Hk (proj2 (nft_ok t k f rows Hk) ltac:(lia)) Hs)).
  rewrite (proj1 (rd_SS _ _ k f rows (dst a) Hk (proj2 (nft_ok (zlen rows - (t + 1)) k f rows Hk) ltac:(lia)) Bd)). reflexivity.
Qed.

Notation oa nf := (fun i => st <- rd (ids_of LL) i;; out_arc (g0 nf) steps o2n (splits_of TT) (ids_of TT) ids2 st01s (splits_of LL) i st).
Lemma ka_ok nf : mapM (fun i => r <- oa nf i;; let '(_, _, _, _, _, kept, s, k) := r in
                       cutoff <- rd (map (cutk b) VR) k;; Some (kept && ogt s cutoff)) (zrange (zlen (concat LL))) = Some (map kq2 (concat LL)).
Proof.
  rewrite <- (zlen_map kq2). apply GraphProofs.mapM_zrange. intros i y Hy. rewrite rd_map in Hy. destruct (rd (concat LL) i) as [z|] eqn:Ez; [|discriminate]. injection Hy as <-.
  apply leaf_at in Ez as (k & f & rows & t & s & j & st & a & n & Hk & Hf & -> & Hst & Ha & Hla & Ht & Hs & HK & Hi & Hid & En & Hy & _). rewrite Hid.
  rewrite (arc_ok nf i k f rows t s j st a n) by assumption. cbv zeta beta iota. rewrite rd_map, Hk. cbn [option_map].
  assert (Hsa : src a = s) by (apply (in_row f (V_s V HV k f Hf) s st a Hst); exact (rd_In _ _ _ Ha)).
  unfold kq2, kl, keepA. cbn [fst snd]. rewrite (gr_at k _ Hk). cbn [fst snd]. rewrite Hla, Hsa. destruct (keepS f rows (cut (f, rows)) (t + 1) (dst a)); reflexivity.
Qed.
Definition outz (z : Z * (Z * Z * Z)) : (Z * Z * Z * option Z) * (Z * Z) :=
  let x := gr (fst z) in let o := oarc (fst x) (snd x) (cut x) (snd z) in
  ((src o, dst o, lab o, Some (sc o)), (ao (fst z) + apos (fst x) (snd z), soff (fst z) + stride * fst (fst (snd z)) + (lab (larc (fst x) (snd z)) + 1))).
Lemma out_ok nf : mapM (fun i =>
           r <- oa nf i;; let '(a, si, c, score, d, kept, s, k) := r in
           check kept;;
           cutoff <- rd (map (cutk b) VR) k;; check (negb (ogt cutoff s));;
           st <- rd (ids_of LL) i;;
           idx0x <- rd (splits_of TT) k;; idx0xx <- rd (splits_of (concat NTL)) idx0x;;
           Some ((st - idx0xx, d - idx0xx, c_lab1 c - 1, score), (a, si))) (kept_from 0 (map kq2 (concat LL))) = Some (map outz (filter kq2 (concat LL))).
Proof.
  apply kept_mapM. intros i z Ez Hq. rewrite Z.add_0_l.
  apply leaf_at in Ez as (k & f & rows & t & s & j & st & a & n & Hk & Hf & -> & Hst & Ha & Hla & Ht & Hs & HK & Hi & Hid & En & Hy & _). rewrite Hid.
  rewrite (arc_ok nf i k f rows t s j st a n) by assumption. cbv zeta beta iota. rewrite rd_map, Hk. cbn [option_map].
  assert (Hsa : src a = s) by (apply (in_row f (V_s V HV k f Hf) s st a Hst); exact (rd_In _ _ _ Ha)).
  unfold kq2, kl, keepA in Hq. cbn [fst snd] in Hq. rewrite (gr_at k _ Hk) in Hq. cbn [fst snd] in Hq. rewrite Hla, Hsa in Hq. apply andb_prop in Hq as (Q1 & Q2). rewrite Q1.
  assert (Q3 : ogt (cut (f, rows)) (oadd (oadd (Fw f rows (Z.to_nat t) s) (wt rows t a)) (Bw f rows (Z.to_nat (zlen rows - (t + 1))) (dst a))) = false).
  { destruct (oadd _ (Bw _ _ _ _)) as [u|]; [|discriminate]. destruct (cut (f, rows)) as [c|]; [|reflexivity]. cbn in *. apply Z.ltb_lt in Q2. apply Z.ltb_ge. lia. }
  rewrite Q3. cbn [negb]. pose proof (rd_Some_bound _ _ _ Hf) as Bk. rewrite rs1_at by lia. rewrite rs2_at by lia. cbn [c_lab1].
  unfold outz, oarc. cbn [fst snd src dst lab sc]. rewrite (gr_at k _ Hk). cbn [fst snd]. rewrite Hla.
  assert (EW : wt rows t a = Some (wz rows t a)).
  { unfold wz. destruct (wt rows t a); [reflexivity|]. destruct (Fw f rows (Z.to_nat t) s); discriminate. }
  rewrite EW. rewrite En. replace (off1 NKL k + pos f rows (cut (f, rows)) t s - off1 NKL k) with (pos f rows (cut (f, rows)) t s) by lia.
  replace (off1 NKL k + pos f rows (cut (f, rows)) (t + 1) (dst a) - off1 NKL k) with (pos f rows (cut (f, rows)) (t + 1) (dst a)) by lia.
  replace (lab a + 1 - 1) with (lab a) by lia. reflexivity.
Qed.

(** ** the result *)
Definition gs : list nfsa := map (fun x => G (fst x) (snd x) (cut x)) VR.
Definition LKL : list (list (list (Z * (Z * Z * Z)))) := imap (fun k x => map (tag k) (L (fst x) (snd x) (cut x))) 0 VR.
Lemma LKL_ok : map (filter kq2) LL = concat LKL.
Proof.
  unfold LL, LKL, NKL. rewrite map_map, concat_map, map_imap. f_equal. apply imap_ext. intros k x Hx. rewrite Z.add_0_l.
  unfold tag at 1, L, L0. rewrite !map_map. apply map_ext. intros y. unfold lv, tag. cbn [fst snd]. rewrite (gr_at k x Hx).
  apply filter_map_in. intros u _. unfold kq2. cbn [fst snd]. now rewrite (gr_at k x Hx).
Qed.
Definition W : list (list (Z * (Z * Z * Z))) := imap (fun k x => tag k (concat (L (fst x) (snd x) (cut x)))) 0 VR.
Lemma W_ok : filter kq2 (concat LL) = concat W.
Proof.
  rewrite filter_concat, LKL_ok, <- concat_map_concat. f_equal. unfold LKL, W. rewrite map_imap. apply imap_ext. intros k x _. unfold tag. now rewrite <- concat_map.
Qed.
Lemma off1_W k : off1 W k = first_arc gs k.
Proof.
  apply off1_same. unfold W, gs. rewrite map_imap, !map_map. rewrite <- (imap_const (fun x => zlen (all_arcs (G (fst x) (snd x) (cut x)))) VR 0). apply imap_ext. intros i x _. unfold tag. now rewrite G_arcs, !zlen_map.
Qed.
Lemma splits_gs1 : splits_of NKL = splits_of gs.
Proof.
  unfold splits_of, NKL, gs. f_equal. rewrite map_imap, map_map. rewrite <- (imap_const (fun x => zlen (G (fst x) (snd x) (cut x))) VR 0). apply imap_ext. intros i x _. unfold tag. now rewrite zlen_G, zlen_map.
Qed.
Lemma splits_gs2 : splits_of (concat LKL) = splits_of (concat gs).
Proof.
  unfold splits_of. f_equal. rewrite !concat_map. f_equal. unfold LKL, gs. rewrite map_imap, map_map. rewrite <- (imap_const (fun x => map zlen (G (fst x) (snd x) (cut x))) VR 0). apply imap_ext. intros i x _. unfold G. rewrite !map_map. apply map_ext. intros l. unfold tag. now rewrite !zlen_map.
Qed.
Definition qarc (a : arc) : Z * Z * Z * option Z := (src a, dst a, lab a, Some (sc a)).
Lemma arcs_gs : map (fun z => fst (outz z)) (concat W) = map qarc (concat (concat gs)).
Proof.
  rewrite <- concat_map_concat, !concat_map. f_equal. unfold W, gs. rewrite map_imap, !map_map. rewrite <- (imap_const (fun x => map qarc (concat (G (fst x) (snd x) (cut x)))) VR 0). apply imap_ext. intros k x Hx. rewrite Z.add_0_l.
  change (concat (G (fst x) (snd x) (cut x))) with (all_arcs (G (fst x) (snd x) (cut x))). rewrite G_arcs. unfold tag. rewrite !map_map. apply map_ext. intros y. unfold outz, qarc. cbn [fst snd]. rewrite (gr_at k x Hx). reflexivity.
Qed.
Definition mapa : list Z := map (fun z => fst (snd (outz z))) (concat W).
Definition mapb : list Z := map (fun z => snd (snd (outz z))) (concat W).
Lemma maps_at k f rows j a : rd VR k = Some (f, rows) -> rd (all_arcs (G f rows (cut (f, rows)))) j = Some a ->
  rd mapa (first_arc gs k + j) = Some (ao k + apos f (lf f rows (cut (f, rows)) j)) /\
  rd mapb (first_arc gs k + j) = Some (soff k + stride * fst (fst (lf f rows (cut (f, rows)) j)) + (lab (larc f (lf f rows (cut (f, rows)) j)) + 1)).
Proof.
  intros Hk Hj. rewrite G_arcs, rd_map in Hj. destruct (rd (concat (L f rows (cut (f, rows)))) j) as [y|] eqn:Ey; [|discriminate].
  assert (R : rd (concat W) (first_arc gs k + j) = Some (k, y)).
  { rewrite <- off1_W. refine (proj1 (rd_concat_off W k (tag k (concat (L f rows (cut (f, rows))))) j _ _ _)).
    - unfold W. rewrite rd_imap, Hk. cbn. now rewrite Z.add_0_l.
    - unfold tag. now rewrite rd_map, Ey. }
  unfold lf. rewrite Ey. unfold mapa, mapb. rewrite !rd_map, R. cbn [option_map]. unfold outz. cbn [fst snd]. rewrite (gr_at k _ Hk). auto.
Qed.
End Beam.

Lemma NN_count b : zsum (map b2z (map fst (map (fun y => (kq b y, b2z (kq b y) * narcs y)) CO))) = zlen (concat (gs b)).
Proof.
  replace (map fst (map (fun y => (kq b y, b2z (kq b y) * narcs y)) CO)) with (map (kq b) CO) by (rewrite map_map; reflexivity). rewrite count_filter. rewrite <- NN_filter. rewrite <- !off1_all.
  transitivity (off1 (gs b) (zlen (NKL b))); [apply off1_same|f_equal; unfold NKL, gs; now rewrite zlen_imap, zlen_map].
  pose proof (splits_gs1 b) as E. unfold NKL, gs. rewrite map_imap, map_map. rewrite <- (imap_const (fun x => zlen (G (fst x) (snd x) (cutk b x))) VR 0). apply imap_ext. intros i x _. unfold tag. now rewrite zlen_G, zlen_map.
Qed.
Lemma arcs_count b : zlen (concat (concat (gs b))) <= zsum (map snd (map (fun y => (kq b y, b2z (kq b y) * narcs y)) CO)).
Proof.
  rewrite <- (zlen_map qarc), <- (arcs_gs b), zlen_map, <- W_ok. eapply Z.le_trans; [apply zlen_filter_le|]. rewrite <- zsum_zlen_concat. unfold LL. rewrite NN_filter, !map_map. cbn [snd]. rewrite <- (zsum_filter (kq b) narcs).
  apply zsum_le. intros y _. unfold lv, tag, leaves, narcs. rewrite zlen_map. destruct (_ =? _); [change (zlen (@nil (Z * Z * Z))) with 0; destruct (rd _ _); [apply zlen_nonneg|lia]|].
  rewrite zlen_map. destruct (rd _ _) as [st|]; [rewrite zlen_zrange by apply zlen_nonneg; lia|rewrite zlen_zrange by lia; lia].
Qed.
Lemma all_arcs_count : zsum (map narcs CO) = T1 * zlen (concat (concat V)).
Proof.
  rewrite zsum_concat_map. unfold COL. rewrite map_imap. pose proof Tmax_nonneg as TN.
  assert (E : imap (fun k x => zsum (map narcs (tag k (copies (fst x) T1)))) 0 VR = map (fun x => T1 * zlen (concat (fst x))) VR).
  { rewrite <- (imap_const (fun x => T1 * zlen (concat (fst x))) VR 0). apply imap_ext. intros k x Hx. rewrite Z.add_0_l. unfold tag, copies. rewrite map_map, zsum_concat_map, map_map.
    rewrite (map_ext _ (fun _ => zlen (concat (fst x)))).
    - rewrite zsum_const, zlen_zrange by lia. lia.
    - intros t. rewrite map_map. rewrite <- zsum_zlen_concat. f_equal. apply list_ext_rd; [rewrite !zlen_map, zlen_zrange by apply zlen_nonneg; reflexivity|].
      intros i Hi. rewrite zlen_map, zlen_zrange in Hi by apply zlen_nonneg. rewrite !rd_map, rd_zrange by lia. cbn [option_map]. unfold narcs. cbn [fst snd]. rewrite (gr_at k x Hx). destruct (rd_in_bound (fst x) i Hi) as (st & ->). reflexivity. }
  rewrite E. replace (zlen (concat (concat V))) with (zsum (map (fun x : nfsa * frames => zlen (concat (fst x))) VR)).
  - clear E. induction VR as [|x l IH]; [cbn; lia|]. cbn [map]. unfold zsum in *. cbn [fold_right]. rewrite IH. lia.
  - rewrite <- concat_map_concat, <- zsum_zlen_concat, map_map. rewrite <- VR_fst' at 2. rewrite map_map. reflexivity.
Qed.

Lemma prune_ok nf dec ms ma fuel : forall b r, (forall x l t, 0 < x -> 0 < dec x l t) -> 0 < b -> prune_states fuel dec (g0 nf) steps ms ma b = Some r ->
  exists b', 0 < b' /\ r = (b', map (cutk b') VR, map (kq b') CO) /\ zlen (concat (gs b')) <= ms /\ zlen (concat (concat (gs b'))) <= ma.
Proof.
  induction fuel as [|fuel IH]; intros b r Hdec Hb H; [discriminate|]. cbn [prune_states] in H. cbn [IDenseSteps.g0 g_info g_T g_v flat_vec v_rs2] in H. rewrite cutoffs_ok in H. rewrite zlen_splits_of in H.
  replace (zlen (concat V) + 1 - 1) with (zlen (concat V)) in H by lia. rewrite keep_ok in H. cbv zeta in H. rewrite NN_count in H.
  destruct (ms <? zlen (concat (gs b))) eqn:E1; [exact (IH _ r Hdec (Hdec _ _ _ Hb) H)|]. destruct (ma <? _) eqn:E2; [exact (IH _ r Hdec (Hdec _ _ _ Hb) H)|].
  injection H as <-. exists b. split; [exact Hb|]. split; [rewrite map_map; reflexivity|]. apply Z.ltb_ge in E1, E2. split; [exact E1|]. eapply Z.le_trans; [apply arcs_count|exact E2].
Qed.
Lemma prune_none nf dec ms ma fuel b : T1 * zlen (concat V) <= ms -> T1 * zlen (concat (concat V)) <= ma ->
  prune_states (S fuel) dec (g0 nf) steps ms ma b = Some (b, map (cutk b) VR, map (kq b) CO).
Proof.
  intros H1 H2. cbn [prune_states]. cbn [IDenseSteps.g0 g_info g_T g_v flat_vec v_rs2]. rewrite cutoffs_ok, zlen_splits_of. replace (zlen (concat V) + 1 - 1) with (zlen (concat V)) by lia. rewrite keep_ok. cbv zeta.
  replace (ms <? _) with false; [|symmetry; apply Z.ltb_ge; replace (map fst (map (fun y => (kq b y, b2z (kq b y) * narcs y)) CO)) with (map (kq b) CO) by (rewrite map_map; reflexivity); rewrite count_filter; pose proof (zlen_filter_le (kq b) CO) as X; rewrite zlen_CO in X; lia].
  replace (ma <? _) with false; [rewrite map_map; reflexivity|]. symmetry. apply Z.ltb_ge. rewrite map_map. cbn [snd]. rewrite <- (zsum_filter (kq b) narcs), zsum_filter.
  eapply Z.le_trans; [|rewrite <- all_arcs_count in H2; exact H2]. apply zsum_le. intros y _. assert (0 <= narcs y) by (unfold narcs; destruct (rd _ _); [apply zlen_nonneg|lia]). destruct (kq b y); cbn [b2z]; lia.
Qed.

Theorem format_ok nf dec ms ma fuel b b' : prune_states fuel dec (g0 nf) steps ms ma b = Some (b', map (cutk b') VR, map (kq b') CO) ->
  format_output ord fuel dec (g0 nf) steps ms ma b = Some (splits_of (gs b'), splits_of (concat (gs b')), map qarc (concat (concat (gs b'))), mapa b', mapb b', b').
Proof.
  intros H. unfold format_output. rewrite H. cbv beta iota zeta. rewrite new2old_kept by apply Ho. cbn [IDenseSteps.g0 g_info]. rewrite rs1_ok.
  assert (ZI : zlen infos = zlen V) by (unfold IDenseSteps.infos; rewrite zlen_imap, zlen_VR'; reflexivity).
  rewrite ZI, (rs1_at b' (zlen V)) by lia. replace (off1 TT (zlen V)) with (zlen (concat TT)) by (rewrite <- off1_all; unfold TT; rewrite zlen_map, zlen_VR'; reflexivity). rewrite row_ids_of_splits.
  change (mkMgdi _ _ _ _ _ _ _ _ _) with (g0 nf).
  rewrite os_ok.
  replace (map (fun x : Z * Z * Z => fst (fst x)) (map os_of (concat (NKL b')))) with (ids_of (concat (NTL b'))) by (rewrite <- ids2_ok, map_map; reflexivity).
  replace (zlen (ids_of TT)) with (zlen (concat (NTL b'))) by (unfold ids_of; rewrite zlen_ids_from; apply zlen_NT). rewrite splits_of_row_ids.
  replace (exsum (map snd (map os_of (concat (NKL b'))))) with (splits_of (LL b')) by (unfold splits_of, LL; rewrite !map_map; reflexivity).
  replace (zlen (map os_of (concat (NKL b')))) with (zlen (LL b')) by (unfold LL; rewrite !zlen_map; reflexivity). rewrite rd_splits_off by (pose proof (zlen_nonneg (LL b')); lia).
  rewrite off1_all, row_ids_of_splits.
  replace (ids_of (concat (NTL b'))) with (map (fun x : Z * Z * Z => fst (fst x)) (map os_of (concat (NKL b')))) by (rewrite <- ids2_ok, map_map; reflexivity).
  rewrite (ka_ok b' nf). rewrite new2old_kept by apply Ho. rewrite ids_filter. rewrite (out_ok b' nf).
  replace (zlen (LL b')) with (zlen (map (filter (kq2 b')) (LL b'))) by apply zlen_map. rewrite splits_of_row_ids. rewrite rs1_final, splits_gs1. rewrite LKL_ok, splits_gs2, W_ok, !map_map. rewrite arcs_gs. reflexivity. Unshelve. exact 0.
Qed.
End Out.
