(** * C71: the lattice of the kept alignments (pruned_ranges_to_lattice) *)
From Coq Require Import ZArith List Lia Bool.
From Coq Require Import ZifyBool.
From Verif Require Import Base RaggedModel RaggedSpec RaggedProofs FsaSpec FsaLemmas FstSpec GraphModel GraphProofs RnntModel RnntSpec ExtractProofs
  PrunedLatticeModel PrunedLatticeSpec PrunedLatticeProofs.
Import ListNotations.
Open Scope Z_scope.

Definition nb (frames : list Z) (b : Z) : Z := z0 (rd frames b).
Definition wb (ranges : list (list (list Z))) (b t : Z) : Z := z0 (rd3 ranges b t 0).
Definition yb (ys : list (list Z)) (b : Z) : list Z := match rd ys b with Some y => y | None => [] end.
Definition lat (ranges : list (list (list Z))) (r : Z) (frames : list Z) (ys : list (list Z)) (lg : tensor4) (b : Z) : nfst :=
  l_nested (nb frames b) r b (wb ranges b) (yb ys b) lg.

Section Call.
Variables (ranges : list (list (list Z))) (T r C : Z) (frames : list Z) (symbols ys : list (list Z)) (lg : tensor4).
Hypothesis HI : lattice_input ranges T r C frames symbols ys lg.

Lemma in_facts b : 0 <= b < zlen ranges -> let n := nb frames b in let w := wb ranges b in let y := yb ys b in
  rd frames b = Some n /\ rd ys b = Some y /\ (exists pad, rd symbols b = Some (y ++ pad)) /\ 1 <= n <= T /\
  (exists rows, rd ranges b = Some rows /\
     zlen (firstn (Z.to_nat n) rows) = n /\
     (forall t, 0 <= t < n -> rd (firstn (Z.to_nat n) rows) t = Some (map (fun j => w t + j) (zrange r))) /\
     (forall t, 0 <= t < n -> rd rows t = Some (map (fun j => w t + j) (zrange r)))) /\
  (forall t, 0 <= t < n -> 0 <= w t /\ w t + r - 1 <= zlen y) /\ w 0 = 0 /\
  (forall t, 0 <= t -> t + 1 < n -> w t <= w (t + 1) <= w t + (r - 1)) /\
  Forall (fun v => 1 <= v < C) y /\
  (forall t k c, 0 <= t < n -> 0 <= k < r -> 0 <= c < C -> exists x, element lg b t k c = Some x).
Proof.
  intros Hb n w y. destruct HI as (Hr & HC & Hs & Hm & H). destruct (rd_in_bound ranges b Hb) as (rows & Eb).
  destruct (H b rows Eb) as (n' & y' & pad & E1 & E2 & E3 & Hn & (w' & W1 & W2 & W3 & W4 & W5) & Hv).
  assert (n = n') by (unfold n, nb; now rewrite E1). assert (y = y') by (unfold y, yb; now rewrite E2). subst n' y'. clearbody n y.
  assert (R : forall t, 0 <= t < n -> rd rows t = Some (map (fun j => w' t + j) (zrange r))).
  { intros t Ht. rewrite <- (rd_firstn rows n t) by lia. now apply W2. }
  assert (EW : forall t, 0 <= t < n -> w t = w' t).
  { intros t Ht. unfold w, wb, rd3, rd2. rewrite Eb, R by auto. rewrite rd_map, rd_zrange by lia. cbn. lia. }
  split; auto. split; auto. split; [eauto|]. split; [lia|]. split.
  { exists rows. split; auto. split; auto. split; intros t Ht; rewrite EW by auto; auto. }
  split; [intros t Ht; rewrite EW by auto; auto|]. split; [rewrite EW by lia; auto|].
  split; [intros t H0 H1; rewrite !EW by lia; auto|]. split; auto.
  intros t k c Ht Hk Hc. destruct (rd_in_bound (t4_mem lg) (place lg b t k c)) as (x & Ex); [apply Hm; lia|].
  exists x. unfold element. rewrite Hs. cbv beta iota zeta. rewrite Ex.
  replace (_ && _ && _ && _) with true; auto. lia.
Qed.

Lemma lattice_ok : let ts := tab (zlen ranges) (lat ranges r frames ys lg) in
  pruned_ranges_to_lattice ranges T r frames symbols lg = Some (vec_of ts, map snd (concat (concat ts))).
Proof.
  intros ts. assert (Hr : 1 <= r) by (destruct HI; lia). unfold pruned_ranges_to_lattice. pose proof (zlen_nonneg ranges).
  assert (Lts : zlen ts = zlen ranges) by (unfold ts; now rewrite zlen_tab).
  assert (E : mapM (fun b => n <- rd frames b;; check (n <=? T);; Some (n * r + 1)) (zrange (zlen ranges)) = Some (map zlen ts)).
  { rewrite <- Lts, <- (zlen_map zlen ts). apply mapM_zrange. intros b x Hx. rewrite rd_map in Hx.
    destruct (rd ts b) as [t|] eqn:Et; [|discriminate]. injection Hx as <-. apply rd_tab_Some in Et as (Hb & ->).
    destruct (in_facts b Hb) as (E1 & _ & _ & Hn & _). rewrite E1. replace (nb frames b <=? T) with true by lia.
    unfold lat. rewrite (zlen_l_nested (nb frames b) r b (wb ranges b) (yb ys b) lg Hr (proj1 Hn)). reflexivity. }
  rewrite E. fold (splits_of ts).
  assert (Get : forall b tt s1 st, rd ts b = Some tt -> rd tt s1 = Some st -> 0 <= b < zlen ranges /\ 0 <= s1 < nb frames b * r + 1 /\
     st = l_state (nb frames b) r b (wb ranges b) (yb ys b) lg s1).
  { intros b tt s1 st Hb Hs. apply rd_tab_Some in Hb as (Hb & ->). unfold lat, l_nested in Hs. apply rd_tab_Some in Hs as (Hs & ->). auto. }
  assert (Rg : forall b t k, 0 <= b < zlen ranges -> 0 <= t < nb frames b -> 0 <= k < r -> rd3 ranges b t k = Some (wb ranges b t + k)).
  { intros b t k Hb Ht Hk. destruct (in_facts b Hb) as (_ & _ & _ & _ & (rows & R1 & _ & _ & R2) & _). unfold rd3, rd2. rewrite R1, R2 by auto.
    rewrite rd_map, rd_zrange by lia. reflexivity. }
  apply (build_vec_ok ts).
  - intros b tt s1 st Hb Hs. destruct (pos_facts ts b tt s1 st Hb Hs) as (P1 & P2 & P3 & P4 & P5).
    destruct (Get b tt s1 st Hb Hs) as (Bb & Bs & ->). destruct (in_facts b Bb) as (E1 & E2 & _ & Hn & _ & Hi & _ & Hw & _ & _).
    unfold pl_num_arcs. rewrite P1, P2, E1. replace (off1 ts b + s1 - off1 ts b) with s1 by lia.
    set (n := nb frames b) in *. unfold l_state.
    assert (Z.div s1 r <= n) by (apply Z.lt_succ_r, Z.div_lt_upper_bound; nia). replace (s1 / r <=? n) with true by lia.
    destruct (Z.eqb_spec s1 (n * r)); [reflexivity|]. destruct (s_split (n := n) s1 Hr) as (t & k & Ht & Hk & ->); [lia|].
    destruct (divmod r t k Hk) as (-> & ->). pose proof (s_last t k Ht Hk) as Hl.
    destruct (Z.ltb_spec t (n - 1)) as [Ht1|Ht1].
    + rewrite !Rg by lia. replace (t * r + k =? n * r - 1) with false by lia. rewrite Z.add_0_r. f_equal.
      destruct (Z.ltb_spec k (r - 1)).
      * replace (k =? r - 1) with false by lia. cbn [negb andb]. destruct (wb ranges b (t + 1) <=? wb ranges b t + k); reflexivity.
      * replace (k =? r - 1) with true by lia. reflexivity.
    + rewrite andb_false_r. destruct (Z.eqb_spec (t * r + k) (n * r - 1)); [reflexivity|].
      replace (k <? r - 1) with true by lia. reflexivity.
  - intros b tt s1 st j x Hb Hs Hj HId. destruct (pos_facts ts b tt s1 st Hb Hs) as (P1 & P2 & P3 & P4 & P5).
    destruct (Get b tt s1 st Hb Hs) as (Bb & Bs & ->). destruct (in_facts b Bb) as (E1 & E2 & (pad & E3) & Hn & (rows & _ & _ & Rrow & _) & Hi & _ & Hw & Hv & Hlg).
    unfold pl_arc. change t4_at with element. change t4_index with place. rewrite HId, P1, P2, P4, E1. replace (off1 ts b + s1 - off1 ts b) with s1 by lia.
    set (o := off1 (concat ts) (off1 ts b + s1)). replace (o + j - o) with j by lia.
    pose proof (rd_Some_bound _ _ _ Hj) as Bj. set (n := nb frames b) in *. set (w := wb ranges b) in *. set (y := yb ys b) in *.
    assert (HC : 1 <= C) by (destruct HI; lia).
    unfold l_state in Hj, Bj. destruct (Z.eqb_spec s1 (n * r)); [change (zlen (@nil tarc)) with 0 in Bj; lia|].
    destruct (s_split (n := n) s1 Hr) as (t & k & Ht & Hk & ->); [lia|].
    destruct (divmod r t k Hk) as (D1 & D2). rewrite D1, D2 in *. pose proof (s_last t k Ht Hk) as Hl.
    destruct (Z.eqb_spec (t * r + k) (n * r - 1)).
    { change (zlen [_]) with 1 in Bj. replace j with 0 in Hj by lia. injection Hj as <-. reflexivity. }
    rewrite Rg by lia. fold w. destruct (Z.ltb_spec k (r - 1)).
    + destruct (sym_slot n r b w y lg Hw (zlen y) C _ Rrow Hi eq_refl Hv Hlg t k) as (v & sv & X1 & X2 & X3); [lia|lia|].
      assert (ES : rd2 symbols b (w t + k) = Some v).
      { unfold rd2. rewrite E3. rewrite rd_app_l; auto. exact (proj2 (rd_Some_bound _ _ _ X1)). }
      rewrite ES. unfold l_ver, l_hor in Hj. rewrite X1 in Hj. cbn [z0] in Hj. rewrite X3 in Hj. cbn [z0] in Hj.
      destruct (Z.eqb_spec j 0) as [->|].
      { injection Hj as <-. rewrite X3. reflexivity. }
      destruct ((t <? n - 1) && (w (t + 1) <=? w t + k)) eqn:Eh; [|change (zlen [_]) with 1 in Bj; lia].
      change (zlen [_; _]) with 2 in Bj. assert (j = 1) by lia. subst j. injection Hj as <-. rewrite Rg by lia. fold w. rewrite Z.add_0_r.
      replace (0 <=? w t + k - w (t + 1)) with true by lia. destruct (Hlg t k 0) as (x & Ex); auto; try lia. rewrite Ex. reflexivity.
    + change (zlen [_]) with 1 in Bj. assert (j = 0) by lia. subst j. injection Hj as <-. rewrite Rg by lia. fold w. rewrite Z.add_0_r.
      destruct (Hlg t k 0) as (x & Ex); auto; try lia. unfold l_hor. rewrite Ex. reflexivity.
Qed.
End Call.

(** C71: for windows which advance by less than their size the call succeeds, and
    the lattice of utterance b is a valid, top-sorted FSA without duplicate arcs.
    What is read along its successful paths, labels, scores and entries of arc_map,
    is what the alignments read which visit kept positions only and end at the
    last one: every such alignment is a path and every path such an alignment, and
    a path is determined by its labels, as is an alignment. *)
Theorem C71_lattice : forall ranges T r C frames symbols ys logits, lattice_input ranges T r C frames symbols ys logits ->
  exists Ms, pruned_ranges_to_lattice ranges T r frames symbols logits = Some (vec_of Ms, map snd (concat (concat Ms))) /\
    zlen Ms = zlen ranges /\
    forall b M rows n y, rd Ms b = Some M -> rd ranges b = Some rows -> rd frames b = Some n -> rd ys b = Some y ->
      let kept := kept_alignment (firstn (Z.to_nat n) rows) y logits b n 0 0 in
      valid (fsa_of M) /\ (forall a, In a (concat M) -> src (fst a) < dst (fst a)) /\ NoDup (concat M) /\
      (forall tr, (exists p, lattice_path M p /\ seen p = tr) <-> exists l, kept l tr) /\
      (forall p q, lattice_path M p -> lattice_path M q -> ilabels p = ilabels q -> p = q) /\
      (forall l l' tr tr', kept l tr -> kept l' tr' -> map (fun x => fst (fst x)) tr = map (fun x => fst (fst x)) tr' -> l = l').
Proof.
  intros ranges T r C frames symbols ys lg HI. eexists. split; [exact (lattice_ok ranges T r C frames symbols ys lg HI)|].
  pose proof (zlen_nonneg ranges). split; [now apply zlen_tab|].
  intros b M rows n y HM Hrows Hnb Hyb kept. apply rd_tab_Some in HM as (Hb & ->).
  destruct (in_facts ranges T r C frames symbols ys lg HI b Hb) as (E1 & E2 & _ & Hn & (rows' & R1 & R2 & R3 & R4) & Hin & Hw0 & Hw & Hv & Hlg).
  assert (Hr : 1 <= r) by (destruct HI; lia). assert (HC : 1 <= C) by (destruct HI; lia).
  rewrite E1 in Hnb. injection Hnb as Hnb. rewrite E2 in Hyb. injection Hyb as Hyb. rewrite R1 in Hrows. injection Hrows as ->.
  unfold lat. rewrite Hnb, Hyb in *. set (w := wb ranges b) in *.
  assert (Hv1 : Forall (fun v => 1 <= v) y) by (eapply Forall_impl; [|exact Hv]; cbn; lia).
  assert (LA := lat_arc n r b w y lg Hr Hw (zlen y) C _ R3 Hin eq_refl Hv HC Hlg).
  assert (LN := zlen_l_nested n r b w y lg Hr (proj1 Hn)).
  assert (SB : forall s1 st a, rd (l_nested n r b w y lg) s1 = Some st -> In a st -> src (fst a) = s1).
  { intros s1 st a Hs Ha. apply rd_tab_Some in Hs as (Hs & ->). destruct (Z.eq_dec s1 (n * r)) as [->|]; [rewrite l_state_end in Ha; destruct Ha|].
    destruct (s_split (n := n) (r := r) s1) as (t & k & Ht & Hk & ->); [lia|lia|]. eapply l_src; eauto; lia. }
  split; [|split; [|split; [|split; [|split]]]].
  - split; [|split].
    + intros s1 st a Hs Ha. unfold fsa_of in Hs. rewrite rd_map in Hs. destruct (rd (l_nested n r b w y lg) s1) as [st'|] eqn:Es; [|discriminate].
      injection Hs as <-. apply in_map_iff in Ha as (a' & <- & Ha). eapply SB; eauto.
    + unfold nstates, fsa_of. rewrite zlen_map, LN. nia.
    + intros a Ha. unfold all_arcs, fsa_of in Ha. rewrite <- concat_map in Ha. apply in_map_iff in Ha as (a' & <- & Ha).
      apply LA in Ha. unfold nstates, final, fsa_of. rewrite zlen_map, LN. lia.
  - intros a Ha. apply LA in Ha. lia.
  - apply (nodup_concat (fun a => src (fst a))). intros s1 st Hs. split; [|intros a Ha; eapply SB; eauto].
    apply rd_tab_Some in Hs as (Hs & ->). unfold l_state.
    destruct (Z.eqb_spec s1 (n * r)); [constructor|]. destruct (s1 =? n * r - 1); [repeat constructor; intros []|].
    destruct (s_split (n := n) (r := r) s1) as (t & k & Ht & Hk & ->); [lia|lia|]. destruct (divmod r t k Hk) as (-> & ->).
    destruct (Z.ltb_spec k (r - 1)); [|repeat constructor; intros []].
    destruct ((t <? n - 1) && (w (t + 1) <=? w t + k)); [|repeat constructor; intros []].
    destruct (sym_slot n r b w y lg Hw (zlen y) C _ R3 Hin eq_refl Hv Hlg t k) as (v & sv & X1 & X2 & X3); [lia|lia|].
    constructor; [|repeat constructor; intros []]. intros [E|[]]. apply (f_equal (fun a => lab (fst a))) in E. unfold l_ver in E. rewrite X1 in E. cbn in E. lia.
  - unfold lattice_path. rewrite LN. replace (n * r + 1 - 1) with (n * r) by lia. intros tr. split.
    + intros (p & Hp & <-). replace 0 with (0 * r + 0) in Hp by lia.
      destruct (lat_fwd n r b w y lg Hr (proj1 Hn) Hw (zlen y) C _ R2 R3 Hin eq_refl Hv HC Hlg p 0 0) as (l & Hl); [lia|lia|exact Hp|].
      rewrite Hw0, Z.add_0_l in Hl. exists l. exact Hl.
    + intros (l & Hl). destruct (lat_bwd n r b w y lg Hr (proj1 Hn) Hw (zlen y) C _ R2 R3 Hin Hlg 0 0 l tr Hl) as (p & Hp & <-).
      rewrite Hw0 in Hp. exists p. split; auto.
  - unfold lattice_path. rewrite LN. replace (n * r + 1 - 1) with (n * r) by lia. intros p q Hp Hq E.
    replace 0 with (0 * r + 0) in Hp, Hq by lia.
    apply (lat_det n r b w y lg Hr Hw (zlen y) C _ R3 Hin eq_refl Hv Hlg p q 0 0); auto; lia.
  - intros l l' tr tr' H1 H2 E. apply ka_det in H1; auto. apply ka_det in H2; auto. congruence.
Qed.
Print Assumptions C71_lattice.

(** Every path reads the transcript up to the last position kept on the last
    frame, [e]; it has one blank for every frame but the last: the blank that
    would end the last frame is not in the lattice. *)
Theorem C71_transcript : forall ranges T r C frames symbols ys logits, lattice_input ranges T r C frames symbols ys logits ->
  exists Ms, pruned_ranges_to_lattice ranges T r frames symbols logits = Some (vec_of Ms, map snd (concat (concat Ms))) /\
    zlen Ms = zlen ranges /\
    forall b M rows n y row e, rd Ms b = Some M -> rd ranges b = Some rows -> rd frames b = Some n -> rd ys b = Some y ->
      rd rows (n - 1) = Some row -> rd row (r - 1) = Some e ->
      forall p, lattice_path M p ->
        strip (ilabels p) = firstn (Z.to_nat e) y ++ [-1] /\ zlen (filter (fun l => l =? 0) (ilabels p)) = n - 1 /\ zlen p = e + n.
Proof.
  intros ranges T r C frames symbols ys lg HI. destruct (C71_lattice _ _ _ _ _ _ _ _ HI) as (Ms & E & L & H). exists Ms. split; auto. split; auto.
  intros b M rows n y row e HM Hrows Hnb Hyb Hrow He p Hp. destruct (H b M rows n y HM Hrows Hnb Hyb) as (_ & _ & _ & H4 & _ & _). cbv zeta in H4.
  destruct (proj1 (H4 (seen p))) as (l & Hl); [eauto|]. pose proof (rd_Some_bound _ _ _ Hrows) as Hb.
  destruct (in_facts ranges T r C frames symbols ys lg HI b Hb) as (E1 & E2 & _ & Hn & (rows' & R1 & R2 & R3 & R4) & Hin & Hw0 & Hw & Hv & Hlg).
  rewrite E1 in Hnb. injection Hnb as Hnb. rewrite E2 in Hyb. injection Hyb as Hyb. rewrite R1 in Hrows. injection Hrows as ->.
  rewrite Hnb, Hyb in *. assert (Hr : 1 <= r) by (destruct HI; lia).
  apply ka_labels in Hl; [|eapply Forall_impl; [|exact Hv]; cbn; lia|lia].
  destruct Hl as (e' & row' & K1 & K2 & K3 & K4 & K5 & K6). rewrite R4 in Hrow by lia. rewrite R3 in K1 by lia. rewrite Hrow in K1. injection K1 as <-.
  assert (ZR : zlen row = r) by (injection Hrow as <-; rewrite zlen_map, zlen_zrange; lia). rewrite ZR, He in K2. injection K2 as <-.
  assert (EL : map (fun x => fst (fst x)) (seen p) = ilabels p) by (unfold seen, ilabels; rewrite map_map; reflexivity).
  rewrite EL in K4. rewrite Z.sub_0_r in K4, K5. split; [exact K4|]. split.
  - rewrite <- K5. clear. unfold ilabels, seen. induction p as [|a p IH]; [reflexivity|]. cbn [map filter fst].
    destruct (lab (fst a) =? 0); [rewrite !zlen_cons; lia|exact IH].
  - unfold seen in K6. rewrite zlen_map in K6. lia.
Qed.
Print Assumptions C71_transcript.

(** arc_map: an arc into the final state has score 0 and entry -1; the score of
    any other is the element of logits that its entry points at in memory. *)
Theorem C71_arc_map : forall ranges T r C frames symbols ys logits v m i a x, lattice_input ranges T r C frames symbols ys logits ->
  pruned_ranges_to_lattice ranges T r frames symbols logits = Some (v, m) ->
  zlen m = zlen (v_arcs v) /\
  (rd (v_arcs v) i = Some a -> rd m i = Some x ->
   (lab a = -1 -> sc a = 0 /\ x = -1) /\ (lab a <> -1 -> rd (t4_mem logits) x = Some (sc a))).
Proof.
  intros ranges T r C frames symbols ys lg v m i a x HI E. pose proof (zlen_nonneg ranges).
  rewrite (lattice_ok ranges T r C frames symbols ys lg HI) in E. injection E as <- <-. rewrite vec_of_eq. cbn [v_arcs].
  set (ts := tab (zlen ranges) (lat ranges r frames ys lg)). split; [now rewrite !zlen_map|].
  rewrite !rd_map. intros H1 H2. destruct (rd (concat (concat ts)) i) as [z|] eqn:Ez; [|discriminate].
  injection H1 as <-. injection H2 as <-. apply rd_In in Ez. apply in_concat in Ez as (st & Hst & Hz). apply in_concat in Hst as (M & HM & Hst).
  unfold ts, tab in HM. apply in_map_iff in HM as (b & <- & Hb). apply in_zrange in Hb.
  destruct (in_facts ranges T r C frames symbols ys lg HI b Hb) as (E1 & E2 & _ & Hn & (rows' & R1 & R2 & R3 & R4) & Hin & Hw0 & Hw & Hv & Hlg).
  assert (Hr : 1 <= r) by (destruct HI; lia). assert (HC : 1 <= C) by (destruct HI; lia).
  assert (LA := lat_arc _ r b _ _ lg Hr Hw _ C _ R3 Hin eq_refl Hv HC Hlg z).
  destruct LA as (_ & _ & _ & _ & [(L1 & L2 & L3)|(L1 & L2)]); [apply in_concat; eauto|lia|]. split; [lia|auto].
Qed.
Print Assumptions C71_arc_map.

(** An utterance with more frames than [ranges] has is refused. *)
Theorem C71_too_long : forall ranges T r frames symbols logits b n, 0 <= b < zlen ranges -> rd frames b = Some n -> T < n ->
  pruned_ranges_to_lattice ranges T r frames symbols logits = None.
Proof.
  intros ranges T r frames symbols lg b n Hb Hn HT. unfold pruned_ranges_to_lattice.
  destruct (mapM _ (zrange (zlen ranges))) as [ns|] eqn:E; auto. exfalso.
  assert (In b (zrange (zlen ranges))) as Hi by now apply in_zrange.
  revert ns E. induction (zrange (zlen ranges)) as [|c l IH]; [destruct Hi|]. intros ns E. cbn [mapM] in E. destruct Hi as [->|Hi].
  - rewrite Hn in E. replace (n <=? T) with false in E by lia. discriminate.
  - destruct (rd frames c) as [nc|]; [|discriminate]. destruct (nc <=? T); [|discriminate].
    destruct (mapM _ l) as [ns'|] eqn:E'; [|discriminate]. eapply IH; eauto.
Qed.
Print Assumptions C71_too_long.

(** Two utterances, windows of two positions, three classes: the first moves its
    window by one, the second has a single frame and a padded transcript. *)
Example C71_ex :
  let ranges := [[[0; 1]; [1; 2]]; [[0; 1]; [7; 7]]] in
  let frames := [2; 1] in let symbols := [[2; 1]; [1; 0]] in let ys := [[2; 1]; [1]] in
  let logits := mkT4 (2, 2, 2, 3) (12, 6, 3, 1) (map (fun i => 100 + i) (zrange 24)) in
  lattice_input ranges 2 2 3 frames symbols ys logits /\
  pruned_ranges_to_lattice ranges 2 2 frames symbols logits =
  Some (mkVec [0; 5; 8] [0; 1; 2; 3; 4; 4; 5; 6; 6]
         [mkArc 0 1 2 102; mkArc 1 2 0 103; mkArc 2 3 1 107; mkArc 3 4 (-1) 0; mkArc 0 1 1 113; mkArc 1 2 (-1) 0],
        [2; 3; 7; -1; 13; -1]).
Proof.
  cbv zeta. split; [|vm_compute; reflexivity].
  split; [lia|]. split; [lia|]. split; [reflexivity|]. split.
  { intros b t k c. change (zlen [[[0; 1]; [1; 2]]; [[0; 1]; [7; 7]]]) with 2. unfold place. cbn [t4_stride t4_mem].
    rewrite zlen_map, zlen_zrange by lia. lia. }
  intros b rows Hb. pose proof (rd_Some_bound _ _ _ Hb) as B. change (zlen [[[0; 1]; [1; 2]]; [[0; 1]; [7; 7]]]) with 2 in B.
  assert (b = 0 \/ b = 1) as [->| ->] by lia; injection Hb as <-.
  - exists 2, [2; 1], []. repeat (split; [first [reflexivity|lia]|]). split; [|repeat constructor; lia].
    exists (fun t => t). split; [reflexivity|]. split; [|change (zlen [2; 1]) with 2; repeat split; intros; lia].
    intros t Ht. assert (t = 0 \/ t = 1) as [->| ->] by lia; reflexivity.
  - exists 1, [1], [0]. repeat (split; [first [reflexivity|lia]|]). split; [|repeat constructor; lia].
    exists (fun t => 0). split; [reflexivity|]. split; [|change (zlen [1]) with 1; repeat split; intros; lia].
    intros t Ht. assert (t = 0) as -> by lia; reflexivity.
Qed.

(** Windows that advance by their whole size are not refused: there the arc that
    should leave the last position of a frame is a self-loop, and the lattice is
    cyclic. *)
Theorem C71_jump_refuted : exists rows symbols logits v m, windows 3 2 2 2 rows /\
  pruned_ranges_to_lattice [rows] 2 2 [2] symbols logits = Some (v, m) /\ exists a, In a (v_arcs v) /\ src a = dst a.
Proof.
  exists [[0; 1]; [2; 3]], [[1; 1; 1]], (mkT4 (1, 2, 2, 2) (8, 4, 2, 1) [0; 1; 2; 3; 4; 5; 6; 7]). eexists _, _.
  split; [|split; [vm_compute; reflexivity|]].
  - exists (fun t => 2 * t). split; [reflexivity|]. split; [|repeat split; intros; lia].
    intros t Ht. assert (t = 0 \/ t = 1) as [->| ->] by lia; reflexivity.
  - exists (mkArc 1 1 0 2). split; [cbn; tauto|reflexivity].
Qed.
Print Assumptions C71_jump_refuted.
