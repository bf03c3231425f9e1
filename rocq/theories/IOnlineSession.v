(** * Decoding streams in turns *)
From Coq Require Import ZArith List Lia Bool QArith Permutation Lqa.
From Coq Require Import ZifyBool ZifyNat.
From Verif Require Import Base RaggedModel RaggedSpec RaggedProofs FsaSpec FsaLemmas RaggedOpsModel OpsModel RaggedOpsProofs ConnectProofs ScoreSpec ScorePaths ShortestSpec IDenseModel IDenseSpec IPrunedModel IPrunedNest IPrunedCut IPrunedMerge IPrunedFwd IPrunedCol IPrunedInv IPrunedPrune IPrunedAlive IPrunedRun IPrunedSpec IPrunedOut IPrunedOne IPrunedAll IDevModel IOnlineModel IOnlineSpec IOnlineCol IOnlinePr IOnlineFin IOnlineBatch IOnlineStart IOnlineEnd.
Import ListNotations.
Open Scope Z_scope.

Definition farc (a : arc) : Z * Z * Z * option Z := (src a, dst a, lab a, Some (sc a)).

Section Session.
Context (f : nfsa) (n cols stride sb ob mina maxa : Z) (partial : bool).
Hypothesis Vf : valid f.
Hypothesis Lf : forall a, In a (all_arcs f) -> lab a < cols - 1.
Hypothesis Hcs : cols <= stride.
Hypothesis Hsb : 0 < sb.
Hypothesis Hob : 0 < ob.
Hypothesis Hmm : 0 <= mina < maxa.
Hypothesis Hn : 0 < n.
Context (ord : Z -> list Z) (Ho : fair ord).
Notation cf := (cf f cols stride sb ob mina maxa partial).
Notation stok := (stok f cols stride sb ob mina maxa partial).
Definition C0 : cfg := mkCfg (flat_vec [f]) (ids_of [f]) (mkDmat [] [] 0 0) n sb ob mina maxa partial 0 (zlen (concat [f])) 32 true.

Lemma o_construct_ok : n * zlen f + 1 < 2 ^ 32 -> o_construct (flat_vec [f]) n sb ob mina maxa partial = Some C0.
Proof.
  intros HB. unfold o_construct, p_make. cbn [flat_vec v_rs1 v_rs2]. rewrite !zlen_splits_of. change (zlen [f]) with 1. replace (zlen (concat [f]) + 1 - 1) with (zlen (concat [f])) by lia.
  replace (0 <? sb) with true by lia. replace (0 <? ob) with true by lia. replace (0 <=? mina) with true by lia. replace (mina <? maxa) with true by lia. replace (1 <=? n) with true by lia. rewrite orb_true_r. rewrite row_ids_of_splits. cbv zeta. change (1 + 1 - 1 =? 1) with true. cbn [orb].
  assert (K : 2 ^ 32 <= 2 ^ 40) by (apply Z.pow_le_mono_r; lia). assert (Ec : zlen (concat [f]) = zlen f) by (cbn; now rewrite app_nil_r). remember (2 ^ 40) as P40. remember (2 ^ 32) as P32. replace (_ <? P40) with true by lia. replace (_ <? P32) with true by lia. reflexivity.
Qed.

Lemma o_decode_ok seqs real sts h : zlen seqs = n -> zlen sts = n -> (exists len, forall rows, In rows seqs -> zlen rows = len) ->
  (forall k, 0 <= k < n -> 0 < zlen (rw seqs k) /\ dense_rows (real k ++ rw seqs k) /\ wide stride (real k ++ rw seqs k) /\ keeps_going f (real k ++ rw seqs k)) ->
  (forall q, hfind h q = None) -> (forall k o, rd sts k = Some o -> match o with Some st => stok (real k) st | None => real k = [] end) ->
  exists gs mapa sts' h', o_decode ord C0 (flat_dense cols stride seqs) sts h = Some ((splits_of gs, splits_of (concat gs), map farc (concat (concat gs)), mapa), sts', h') /\
    zlen gs = n /\ zlen mapa = zlen (concat (concat gs)) /\ (forall k, 0 <= k < n -> exists g bm, rd gs k = Some g /\ is_pruned_intersection f (real k ++ rw seqs k) sb ob maxa partial (fun t l => t * cols + (l + 1)) g (fun i => at0 mapa (arcs_before gs k + i)) bm) /\
    zlen sts' = n /\ (forall k st, rd sts' k = Some st -> stok (real k ++ removelast (rw seqs k)) st) /\ (forall q, hfind h' q = None).
Proof.
  intros Zq Zs (len & HL) HR Hh HS. set (sts1 := map (fun s => match s with Some s => s | None => new_stream C0 end) sts). assert (Z1 : zlen sts1 = zlen seqs) by (unfold sts1; rewrite zlen_map; lia).
  assert (HS1 : forall k st, rd sts1 k = Some st -> stok (real k) st). { intros k st Hst. unfold sts1 in Hst. rewrite rd_map in Hst. destruct (rd sts k) as [o|] eqn:E; [|discriminate]. injection Hst as <-. specialize (HS _ _ E). destruct o; [exact HS|]. rewrite HS. now apply stok_new. }
  set (chunk := len - 1). assert (Hlen : forall k, 0 <= k < zlen seqs -> zlen (rw seqs k) = chunk + 1). { intros k Hk. unfold rw. destruct (rd_in_bound seqs k Hk) as (r & Hr). rewrite Hr. unfold chunk. rewrite (HL r) by eauto using rd_In. lia. }
  assert (Hch : 0 <= chunk). { destruct (HR 0 ltac:(lia)) as (X & _). rewrite Hlen in X by lia. lia. }
  set (T0 := zlen (stack_streams sts1) - 1).
  assert (HD : forall k, 0 <= k < zlen seqs -> dense_rows (real k ++ rw seqs k)) by (intros k Hk; apply HR; lia). assert (HW : forall k, 0 <= k < zlen seqs -> wide stride (real k ++ rw seqs k)) by (intros k Hk; apply HR; lia). assert (HK : forall k, 0 <= k < zlen seqs -> keeps_going f (real k ++ rw seqs k)) by (intros k Hk; apply HR; lia).
  assert (Hn' : 0 < zlen seqs) by lia.
  assert (Hreal : forall k, 0 <= k < zlen seqs -> zlen (real k) <= T0) by (intros k Hk; apply (stack_bound f cols stride sb ob mina maxa partial seqs real sts1 h Z1 HS1 Hh k Hk)).
  destruct (start_batch f cols stride sb ob mina maxa partial seqs real sts1 h Hn' Z1 HS1 Hh chunk Hch) as (Ns0 & B0). fold T0 in B0.
  destruct (fwd_chunk f cols stride sb ob mina maxa partial Vf Lf Hcs Hsb Hmm ord Ho seqs real chunk T0 Hch Hlen Hreal HD HW HK _ _ _ _ Hn' B0) as (fs1 & Ns1 & beams & h' & E1 & B1).
  assert (exists fs2 Ns2, (if 0 <? chunk then prune_range ord (cf true seqs) (Z.max 0 (T0 - 2)) (T0 + chunk) fs1 else Some fs1) = Some fs2 /\ binv f cols stride sb ob mina maxa partial seqs real chunk T0 (fun k => zlen (real k) + chunk) chunk fs2 Ns2 beams h') as (fs2 & Ns2 & E2 & B2).
  { destruct (Z.ltb_spec 0 chunk) as [D|D].
    - apply (prune_step f cols stride sb ob mina maxa partial Vf Lf Hcs Hob ord Ho seqs real chunk T0 Hch Hlen Hreal HD HW HK _ _ _ _ Hn' D B1).
    - exists fs1, Ns1. split; [reflexivity|]. assert (chunk = 0) as Ec by lia. destruct B1 as [A1 A2 A3 A4 A5 A6 A7 A8]. split; auto. intros k beam Hb. destruct (A8 _ _ Hb) as (H & X1 & X2 & X3). exists H. split; [exact X1|]. split; [|exact X3]. rewrite Ec in X2 |- *. rewrite Z.add_0_r. exact X2. }
  pose proof (Hreal 0 ltac:(lia)) as R0. pose proof (zlen_nonneg (real 0)) as R1.
  destruct (rd_in_bound fs2 (zlen fs2 - 1)) as (cur & Hcur); [destruct B2; lia|]. destruct (rd_in_bound Ns2 (zlen Ns2 - 1)) as (NL & HNL); [destruct B2; lia|].
  destruct (get_final_ok f cols stride sb ob mina maxa partial Vf Lf Hcs seqs real chunk T0 Hch Hlen Hreal HD HW HK Hn' fs2 Ns2 beams h' B2 cur NL Hcur HNL) as (ff & nf & E3 & AF & FF).
  pose proof (out_ok f cols stride sb ob mina maxa partial Vf Lf Hcs Hsb Hmm seqs real chunk T0 Hch Hlen Hreal HD HW HK Hn' fs2 Ns2 beams h' B2 cur NL Hcur HNL ff nf AF FF) as E4.
  pose proof (streams_ok f cols stride sb ob mina maxa partial Vf Lf Hcs Hsb Hmm seqs real chunk T0 Hch Hlen Hreal HD HW HK Hn' fs2 Ns2 beams h' B2 cur NL Hcur HNL) as E5.
  destruct (store_ok f cols stride sb ob mina maxa partial seqs real chunk T0 Hch Hlen Hreal HD HW HK Hn' fs2 Ns2 beams h' B2 cur NL Hcur HNL ff nf AF) as (sts' & E6 & E7 & E8).
  match type of E4 with _ = Some (splits_of ?g, _, _, ?a, ?b) => set (gs := g) in *; set (mapa := a) in *; set (mapb := b) in * end.
  exists gs, mapa, sts', h'.
  assert (EC : set_b C0 (flat_dense cols stride seqs) = cf true seqs) by (unfold set_b, C0, IOnlineCol.cf; cbn; now rewrite Zq).
  assert (EM : max_T (cf true seqs) = Some (chunk + 1)).
  { unfold max_T. cbn [IOnlineCol.cf c_n]. rewrite (mapM_Some_map _ (fun k => chunk + 1)).
    - f_equal. rewrite map_const. assert (X : forall d, fold_right Z.max 0 (repeat (chunk + 1) (S d)) = chunk + 1) by (induction d as [|d IH]; [cbn; lia|]; cbn [repeat fold_right] in *; lia). assert (Y : zlen (zrange (zlen seqs)) = zlen seqs) by (apply zlen_zrange; lia). destruct (length (zrange (zlen seqs))) as [|d] eqn:El; [unfold zlen in Y at 1; lia|]. apply X.
    - intros k Hk. apply in_zrange in Hk. destruct (final_at [f] seqs cols stride (cf true seqs) (SUb f cols stride sb ob mina maxa partial Vf Lf Hcs seqs real HW) k Hk) as (X & _). rewrite X, Hlen by exact Hk. reflexivity. }
  split; [|split; [|split; [|split; [|split; [|split]]]]].
  - unfold o_decode. cbn [flat_dense b_rs]. rewrite zlen_splits_of. replace (zlen seqs + 1 - 1) with (zlen seqs) by lia. replace (zlen seqs =? zlen sts) with true by lia. cbn [C0 c_v c_n flat_vec v_rs1]. fold C0. rewrite zlen_splits_of. change (zlen [f] + 1 - 1 =? 1) with true. replace (n =? zlen seqs) with true by lia. cbv zeta. fold sts1.
    change (mkDmat (splits_of seqs) (concat (concat seqs)) stride cols) with (flat_dense cols stride seqs). rewrite EC, EM. replace (chunk + 1 - 1) with chunk by lia. rewrite zlen_map. fold T0. rewrite E1, E2. rewrite Hcur. rewrite E3. cbn [fst snd]. rewrite E4, E6. reflexivity.
  - unfold gs. rewrite zlen_map, zlen_zrange; lia.
  - unfold mapa, gs. rewrite zlen_map. rewrite <- (map_map _ (map (map fst))), <- (concat_map (map fst)), <- concat_map, zlen_map. reflexivity.
  - intros k Hk. apply E5. lia.
  - lia.
  - intros k st Hst. assert (Hk : 0 <= k < zlen seqs) by (apply rd_Some_bound in Hst; lia). replace (removelast (rw seqs k)) with (firstn (Z.to_nat chunk) (rw seqs k)); [apply (E8 _ _ Hst)|]. rewrite removelast_firstn_len. f_equal. pose proof (Hlen k Hk). unfold zlen in *. lia.
  - destruct B2. assumption.
Qed.

(** storing the new streams *)
Lemma foldM_wr {X} (ids : list Z) (vs : list X) tab : zlen ids = zlen vs -> NoDup ids -> (forall i, In i ids -> 0 <= i < zlen tab) ->
  exists tab', foldM (fun tab p => wr tab (fst p) (snd p)) (combine ids vs) tab = Some tab' /\ zlen tab' = zlen tab /\
    (forall k i v, rd ids k = Some i -> rd vs k = Some v -> rd tab' i = Some v) /\ (forall i, ~ In i ids -> rd tab' i = rd tab i).
Proof.
  revert vs tab. induction ids as [|i0 ids IH]; intros vs tab HZ ND HB.
  - exists tab. split; [reflexivity|]. split; [reflexivity|]. split; [intros k i v Hk; rewrite rd_nil in Hk; discriminate|auto].
  - destruct vs as [|v0 vs]; [rewrite zlen_cons, zlen_nil in HZ; pose proof (zlen_nonneg ids); lia|]. rewrite !zlen_cons in HZ. inversion ND as [|? ? N1 N2]. subst. destruct (wr_Some tab i0 v0) as (t1 & W1 & W2 & W3); [apply HB; now left|].
    destruct (IH vs t1 ltac:(lia) N2) as (t2 & F1 & F2 & F3 & F4); [intros i Hi; rewrite W2; apply HB; now right|]. exists t2. split; [cbn [combine foldM fst snd]; rewrite W1; exact F1|]. split; [lia|]. split.
    + intros k i v Hk Hv. pose proof (rd_Some_bound _ _ _ Hk) as Bk. destruct (Z.eq_dec k 0) as [->|].
      * rewrite rd_cons_0 in Hk. rewrite rd_cons_0 in Hv. injection Hk as <-. injection Hv as <-. rewrite F4 by exact N1. rewrite W3, Z.eqb_refl. reflexivity.
      * replace k with ((k - 1) + 1) in Hk, Hv by lia. rewrite rd_cons_S in Hk by lia. rewrite rd_cons_S in Hv by lia. eauto.
    + intros i Hi. rewrite F4 by (intros Y; apply Hi; now right). rewrite W3. destruct (Z.eqb_spec i i0) as [->|]; [exfalso; apply Hi; now left|reflexivity].
Qed.

(** what a call gives to a stream *)
Lemma given_in ids seqs : zlen ids = zlen seqs -> NoDup ids -> forall k i rows, rd ids k = Some i -> rd seqs k = Some rows -> given (ids, seqs) i = removelast rows.
Proof.
  unfold given. cbn [fst snd]. revert seqs. induction ids as [|i0 ids IH]; intros seqs HZ ND k i rows Hk Hr; [rewrite rd_nil in Hk; discriminate|]. destruct seqs as [|r0 seqs]; [rewrite rd_nil in Hr; discriminate|]. rewrite !zlen_cons in HZ. inversion ND as [|? ? N1 N2]. subst. cbn [combine map concat fst snd]. pose proof (rd_Some_bound _ _ _ Hk) as Bk.
  assert (NI : forall ids seqs, ~ In i ids -> concat (map (fun p : Z * frames => if fst p =? i then removelast (snd p) else []) (combine ids seqs)) = []). { clear. induction ids as [|j ids IH]; intros seqs HI; [reflexivity|]. destruct seqs as [|r seqs]; [reflexivity|]. cbn [combine map concat fst snd]. destruct (Z.eqb_spec j i) as [->|]; [exfalso; apply HI; now left|]. cbn. apply IH. intros X. apply HI. now right. }
  destruct (Z.eq_dec k 0) as [->|].
  - rewrite rd_cons_0 in Hk. rewrite rd_cons_0 in Hr. injection Hk as ->. injection Hr as ->. rewrite Z.eqb_refl, NI by exact N1. apply app_nil_r.
  - replace k with ((k - 1) + 1) in Hk, Hr by lia. rewrite rd_cons_S in Hk by lia. rewrite rd_cons_S in Hr by lia. destruct (Z.eqb_spec i0 i) as [->|]; [exfalso; apply N1; eauto using rd_In|]. cbn. eapply IH; eauto. lia.
Qed.
Lemma given_out ids seqs i : ~ In i ids -> given (ids, seqs) i = [].
Proof.
  unfold given. cbn [fst snd]. revert seqs. induction ids as [|j ids IH]; intros seqs HI; [reflexivity|]. destruct seqs as [|r seqs]; [reflexivity|]. cbn [combine map concat fst snd]. destruct (Z.eqb_spec j i) as [->|]; [exfalso; apply HI; now left|]. cbn. apply IH. intros X. apply HI. now right.
Qed.
Lemma heard_snoc before call i : heard (before ++ [call]) i = heard before i ++ given call i.
Proof. unfold heard. rewrite map_app, concat_app. cbn. now rewrite app_nil_r. Qed.

(** frames that are not the last of a chunk *)
Definition inner (R : frames) : Prop := wide stride R /\ forall t, frame R t (-1) = None.
Lemma inner_dense R rows : inner R -> dense_rows rows -> wide stride rows -> dense_rows (R ++ rows) /\ wide stride (R ++ rows).
Proof.
  intros (I1 & I2) (D1 & D2 & D3) W. pose proof (zlen_nonneg R). split; [|intros r Hr; apply in_app_or in Hr as [Hr|Hr]; auto]. unfold dense_rows. rewrite zlen_app. split; [lia|]. split.
  - intros t Ht. destruct (Z_lt_le_dec t (zlen R)) as [D|D]; [rewrite (frame_rd _ R t t); [apply I2|apply rd_app_l; lia]|]. rewrite (frame_rd _ rows t (t - zlen R)); [apply D2; lia|apply rd_app_r; lia].
  - intros l Hl. rewrite (frame_rd _ rows _ (zlen rows - 1)); [apply D3; exact Hl|]. rewrite rd_app_r by lia. f_equal. lia.
Qed.
Lemma inner_more R rows : inner R -> dense_rows rows -> wide stride rows -> inner (R ++ removelast rows).
Proof.
  intros (I1 & I2) (D1 & D2 & D3) W. assert (ZR : zlen (removelast rows) = zlen rows - 1) by (apply zlen_removelast; lia). split.
  - intros r Hr. apply in_app_or in Hr as [Hr|Hr]; [auto|]. apply W. destruct (rd_last rows) as (x & _ & ->); [intros ->; rewrite zlen_nil in D1; lia|]. apply in_or_app. now left.
  - intros t. pose proof (zlen_nonneg R). destruct (Z_lt_le_dec t (zlen R)) as [D|D].
    + rewrite (frame_rd _ R t t); [apply I2|]. rewrite rd_app. now replace (t <? zlen R) with true by lia.
    + destruct (Z_lt_le_dec (t - zlen R) (zlen rows - 1)) as [D'|D']; [rewrite (frame_rd _ rows t (t - zlen R)); [apply D2; lia|rewrite rd_app_r by lia; apply rd_removelast; lia]|]. unfold frame. rewrite rd_ge; [reflexivity|]. rewrite zlen_app. lia.
Qed.

Context (m : Z).
Definition good_calls (calls : list dcall) : Prop := forall before ids seqs after, calls = before ++ (ids, seqs) :: after ->
    zlen ids = n /\ zlen seqs = n /\ NoDup ids /\ (forall i, In i ids -> 0 <= i < m) /\
    (exists len, forall rows, In rows seqs -> zlen rows = len) /\
    forall k i rows, rd ids k = Some i -> rd seqs k = Some rows ->
      dense_rows rows /\ (forall r, In r rows -> zlen r = stride) /\ keeps_going f (heard before i ++ rows).
Definition tab_ok (before : list dcall) (tab : list (option stream)) : Prop :=
  zlen tab = m /\ (forall i, inner (heard before i)) /\
  forall i o, rd tab i = Some o -> match o with Some st => stok (heard before i) st | None => heard before i = [] end.
Definition flat_call (call : dcall) : list Z * dmat := (fst call, flat_dense cols stride (snd call)).

Lemma call_ok before ids seqs after tab h : good_calls (before ++ (ids, seqs) :: after) -> tab_ok before tab -> (forall q, hfind h q = None) ->
  exists gs mapa tab' h', decode_call ord C0 (tab, h) (flat_call (ids, seqs)) = Some ((splits_of gs, splits_of (concat gs), map farc (concat (concat gs)), mapa), (tab', h')) /\
    online_batch f cols sb ob maxa partial before ids seqs gs mapa /\ tab_ok (before ++ [(ids, seqs)]) tab' /\ (forall q, hfind h' q = None).
Proof.
  intros GC (T1 & T2 & T3) Hh. destruct (GC before ids seqs after eq_refl) as (G1 & G2 & G3 & G4 & G5 & G6). unfold decode_call, flat_call. cbn [fst snd].
  set (sts := map (fun i => match rd tab i with Some o => o | None => None end) ids). assert (ES : mapM (rd tab) ids = Some sts). { apply mapM_Some_map. intros i Hi. destruct (rd_in_bound tab i) as (o & Ho'); [specialize (G4 i Hi); lia|]. now rewrite Ho'. }
  rewrite ES. set (real := fun k => match rd ids k with Some i => heard before i | None => [] end).
  assert (GR : forall k, 0 <= k < n -> exists i rows, rd ids k = Some i /\ rd seqs k = Some rows /\ rw seqs k = rows /\ real k = heard before i). { intros k Hk. destruct (rd_in_bound ids k) as (i & Hi); [lia|]. destruct (rd_in_bound seqs k) as (rows & Hr); [lia|]. exists i, rows. unfold rw, real. rewrite Hi, Hr. auto. }
  destruct (o_decode_ok seqs real sts h G2) as (gs & mapa & sts' & h' & E1 & E2 & E3 & E4 & E5 & E6 & E7); auto.
  - unfold sts. rewrite zlen_map. exact G1.
  - intros k Hk. destruct (GR k Hk) as (i & rows & R1 & R2 & -> & ->). destruct (G6 _ _ _ R1 R2) as (D1 & D2 & D3). destruct (inner_dense _ _ (T2 i) D1 D2). destruct D1. auto.
  - intros k o Hko. unfold sts in Hko. rewrite rd_map in Hko. unfold real. destruct (rd ids k) as [i|] eqn:Ei; [|discriminate]. injection Hko as <-. destruct (rd_in_bound tab i) as (o & Ho'); [specialize (G4 i (rd_In _ _ _ Ei)); lia|]. rewrite Ho'. apply T3. exact Ho'.
  - rewrite E1. destruct (foldM_wr ids (map Some sts') tab) as (tab' & F1 & F2 & F3 & F4); [rewrite zlen_map; lia|exact G3|intros i Hi; rewrite T1; auto|].
    assert (EF : foldM (fun tab p => wr tab (fst p) (Some (snd p))) (combine ids sts') tab = Some tab'). { rewrite <- F1. clear. revert sts' tab. induction ids as [|i ids IH]; intros sts' tab; [reflexivity|]. destruct sts' as [|s sts']; [reflexivity|]. cbn. destruct (wr tab i (Some s)); [apply IH|reflexivity]. }
    rewrite EF. exists gs, mapa, tab', h'. split; [reflexivity|]. split; [|split; [|exact E7]].
    + split; [lia|]. split; [exact E3|]. intros k i rows Hi Hr. assert (Hk : 0 <= k < n) by (apply rd_Some_bound in Hi; lia). destruct (GR k Hk) as (i' & rows' & R1 & R2 & R3 & R4). rewrite Hi in R1. injection R1 as <-. rewrite Hr in R2. injection R2 as <-. rewrite <- R3, <- R4. auto.
    + split; [lia|].
      assert (CS : forall i, (exists k rows, rd ids k = Some i /\ rd seqs k = Some rows /\ given (ids, seqs) i = removelast rows) \/ (~ In i ids /\ given (ids, seqs) i = [])).
      { intros i. destruct (in_dec Z.eq_dec i ids) as [D|D]; [left|right; split; [exact D|now apply given_out]]. apply In_rd in D as (k & Bk & Hk). destruct (rd_in_bound seqs k) as (rows & Hr); [lia|]. exists k, rows. split; [exact Hk|]. split; [exact Hr|]. apply (given_in ids seqs ltac:(lia) G3 k i rows Hk Hr). }
      split.
      * intros i. rewrite heard_snoc. destruct (CS i) as [(k & rows & R1 & R2 & ->)|(_ & ->)]; [|rewrite app_nil_r; apply T2]. destruct (G6 _ _ _ R1 R2) as (D1 & D2 & _). apply inner_more; auto.
      * intros i o Hi. rewrite heard_snoc. destruct (CS i) as [(k & rows & R1 & R2 & ->)|(NI & ->)].
        -- destruct (rd_in_bound sts' k) as (st & Hst); [apply rd_Some_bound in R1; lia|]. rewrite (F3 k i (Some st) R1) in Hi by (rewrite rd_map, Hst; reflexivity). injection Hi as <-. specialize (E6 _ _ Hst). unfold real, rw in E6. rewrite R1, R2 in E6. exact E6.
        -- rewrite app_nil_r. rewrite F4 in Hi by exact NI. apply T3. exact Hi.
Qed.

Lemma calls_ok rest : forall before tab h, good_calls (before ++ rest) -> tab_ok before tab -> (forall q, hfind h q = None) ->
  exists outs, decode_calls ord C0 (tab, h) (map flat_call rest) = Some outs /\ zlen outs = zlen rest /\
    forall pre ids seqs after, rest = pre ++ (ids, seqs) :: after -> exists gs mapa,
      rd outs (zlen pre) = Some (splits_of gs, splits_of (concat gs), map farc (concat (concat gs)), mapa) /\ online_batch f cols sb ob maxa partial (before ++ pre) ids seqs gs mapa.
Proof.
  induction rest as [|[ids seqs] rest IH]; intros before tab h GC TO Hh.
  - exists []. split; [reflexivity|]. split; [reflexivity|]. intros pre ids seqs after E. destruct pre; discriminate.
  - destruct (call_ok before ids seqs rest tab h GC TO Hh) as (gs & mapa & tab' & h' & E1 & E2 & E3 & E4). destruct (IH (before ++ [(ids, seqs)]) tab' h') as (outs & F1 & F2 & F3); auto.
    { rewrite <- app_assoc. exact GC. }
    exists ((splits_of gs, splits_of (concat gs), map farc (concat (concat gs)), mapa) :: outs). split; [cbn [map decode_calls]; rewrite E1; cbn [snd fst]; rewrite F1; reflexivity|]. split; [rewrite !zlen_cons; lia|].
    intros pre ids' seqs' after E. destruct pre as [|call pre].
    + injection E as <- <- <-. exists gs, mapa. rewrite zlen_nil, rd_cons_0, app_nil_r. auto.
    + injection E as <- E. destruct (F3 _ _ _ _ E) as (gs' & mapa' & X1 & X2). exists gs', mapa'. pose proof (zlen_nonneg pre). rewrite zlen_cons, Z.add_comm, rd_cons_S by lia. rewrite <- app_assoc in X2. auto.
Qed.
End Session.
