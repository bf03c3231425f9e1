(** * Pruning the frames of a stream keeps its back-pointers *)
From Coq Require Import ZArith List Lia Bool QArith Permutation Lqa.
From Coq Require Import ZifyBool ZifyNat.
From Verif Require Import Base RaggedModel RaggedSpec RaggedProofs FsaSpec FsaLemmas RaggedOpsModel OpsModel RaggedOpsProofs ConnectProofs ScoreSpec ScorePaths IDenseModel IDenseSpec IPrunedModel IPrunedNest IPrunedCut IPrunedMerge IPrunedFwd IPrunedCol IPrunedInv IPrunedPrune IPrunedAlive IPrunedRun IPrunedSpec IOnlineSpec IOnlineCol.
From Verif Require Import IDensePaths.
Import ListNotations.
Open Scope Z_scope.
Notation lf := IPrunedPrune.lf.

Lemma rd_filter_inv {X} (P : X -> bool) l i x : rd (filter P l) i = Some x -> exists d, rd l d = Some x /\ P x = true /\ cnt (firstn (Z.to_nat d) (map P l)) = i.
Proof.
  revert i. induction l as [|y l IH]; intros i H; [cbn in H; now rewrite rd_nil in H|]. cbn [filter] in H. destruct (P y) eqn:E.
  - destruct (Z.eq_dec i 0) as [->|Hn].
    + rewrite rd_cons_0 in H. injection H as <-. exists 0. rewrite rd_cons_0. auto.
    + pose proof (rd_Some_bound _ _ _ H) as B. assert (exists j, i = j + 1 /\ 0 <= j) as (j & -> & Hj) by (exists (i - 1); lia). rewrite rd_cons_S in H by lia. destruct (IH _ H) as (d & D1 & D2 & D3). pose proof (rd_Some_bound _ _ _ D1) as BD. exists (d + 1). rewrite rd_cons_S by lia.
      split; [exact D1|]. split; [exact D2|]. replace (Z.to_nat (d + 1)) with (S (Z.to_nat d)) by lia. cbn [map firstn]. rewrite E. unfold cnt in *. cbn [map zsum b2z]. lia.
  - destruct (IH _ H) as (d & D1 & D2 & D3). pose proof (rd_Some_bound _ _ _ D1) as BD. exists (d + 1). rewrite rd_cons_S by lia.
    split; [exact D1|]. split; [exact D2|]. replace (Z.to_nat (d + 1)) with (S (Z.to_nat d)) by lia. cbn [map firstn]. rewrite E. unfold cnt in *. cbn [map zsum b2z]. lia.
Qed.

Section L.
Context (V : list nfsa) (seqs : list frames) (c : cfg) (k : Z).
Context (pmf : bool) (H H' : list (list nst)) (e0 b e : Z) (cole : list nst) (W : list (list nst)).
Hypothesis CI : cinv V seqs c k pmf H e0.
Hypothesis OB : 0 <= c_obeam c.
Hypothesis LK : linked H.
Hypothesis Hb : 0 <= b < e.
Hypothesis ZW : zlen W = e - b.
Hypothesis EW : forall m, 0 <= m < e - b -> rd W m = rd H (b + m).
Hypothesis Ee : rd H e = Some cole.
Notation L := (map (fun x : nst => lf (fst x)) cole).
Notation nx := (nxat c W L).

Lemma fin_sf m s : 0 <= m <= e - b -> In s (nx m) -> exists u, s_f s = Some u.
Proof.
  intros Hm Hs. destruct (on_at H b e cole W Hb EW Ee m Hm) as (col & Hc). destruct (nx_map c H b e cole W ZW EW Ee m col Hm Hc) as (g & G1 & G2). rewrite G1 in Hs. apply in_map_iff in Hs as (x & <- & Hx). rewrite (proj2 (G2 x)).
  apply (ci_gen _ _ _ _ _ _ _ CI (b + m) x). exists col. auto.
Qed.
Lemma nx_ge m s u v : 0 <= m <= e - b -> In s (nx m) -> s_f s = Some u -> s_b s = Some v -> - c_obeam c <= u + v.
Proof.
  intros Hm Hs Eu Ev. destruct (Z.eq_dec m (e - b)) as [->|Hn].
  - rewrite (nx_e c H b e cole W ZW EW) in Hs. apply in_map_iff in Hs as (x & <- & _). cbn in Eu, Ev. rewrite Eu in Ev. cbn in Ev. injection Ev as <-. lia.
  - destruct (on_at H b e cole W Hb EW Ee m Hm) as (col & Hc). rewrite (nx_lt c H b e cole W EW m col ltac:(lia) Hc) in Hs. apply in_map_iff in Hs as (x & <- & Hx). cbn in Eu, Ev. destruct (fin c (s_a (fst x))).
    + rewrite Eu in Ev. cbn in Ev. injection Ev as <-. lia.
    + apply kmax_in in Ev. apply in_map_iff in Ev as (y & Ev & Hy). destruct (bl_Some c H b e W EW _ _ _ _ Ev) as (_ & d & w & z & u' & _ & _ & _ & _ & B6 & B7). rewrite Eu in B6. injection B6 as <-. lia.
Qed.
Lemma back m d s : 0 <= m < e - b -> rd (nx (m + 1)) d = Some s -> is_finite (s_b s) = true ->
  exists x y, on H (b + m) x /\ In y (snd x) /\ i_dst y = d /\ oadd (s_f (fst x)) (i_ll y) = s_f s /\ is_finite (bl c (nx (m + 1)) (fst x) y) = true /\ is_finite (s_b (bst c (nx (m + 1)) x)) = true.
Proof.
  intros Hm Hs Hf. destruct (on_at H b e cole W Hb EW Ee (m + 1) ltac:(lia)) as (col & Hc). destruct (nx_map c H b e cole W ZW EW Ee (m + 1) col ltac:(lia) Hc) as (g & G1 & G2). pose proof Hs as Hs0. rewrite G1, rd_map in Hs0. destruct (rd col d) as [x'|] eqn:Ex; [|discriminate]. injection Hs0 as Es.
  replace (b + (m + 1)) with (b + m + 1) in Hc by lia. destruct (LK (b + m) col d x' ltac:(lia) Hc Ex) as (x & y & A1 & A2 & A3 & A4). rewrite <- (proj2 (G2 x')), Es in A4.
  destruct (fin_sf (m + 1) s ltac:(lia) (rd_In _ _ _ Hs)) as (u & Eu). destruct (s_b s) as [v|] eqn:Ev; [|discriminate]. pose proof (nx_ge (m + 1) s u v ltac:(lia) (rd_In _ _ _ Hs) Eu Ev) as GE.
  exists x, y. split; [exact A1|]. split; [exact A2|]. split; [exact A3|]. split; [exact A4|]. rewrite Eu in A4. destruct (s_f (fst x)) as [u0|] eqn:E0; [|discriminate]. destruct (i_ll y) as [w|] eqn:Ew; [|discriminate]. cbn in A4. injection A4 as A4.
  assert (BL : bl c (nx (m + 1)) (fst x) y = Some (w + v)).
  { unfold bl. rewrite A3. replace (d =? -1) with false by (apply rd_Some_bound in Hs; lia). rewrite Hs. cbv zeta beta iota. rewrite Ew, Ev, E0. cbn. replace (- c_obeam c <=? w + v + u0) with true by lia. reflexivity. }
  rewrite BL. split; [reflexivity|]. cbn [bst s_b]. destruct (fin c (s_a (fst x))); [rewrite E0; reflexivity|]. assert (Hi : In (Some (w + v)) (map (bl c (nx (m + 1)) (fst x)) (snd x))) by (rewrite <- BL; now apply in_map). pose proof (kmax_ge _ _ Hi) as KG.
  destruct (kmax _); [reflexivity|destruct KG].
Qed.
(** some state of every frame leads to the last frame *)
Lemma some_back : cole <> [] -> forall m, 0 <= m <= e - b -> exists d s, rd (nx m) d = Some s /\ is_finite (s_b s) = true.
Proof.
  intros NE. apply (down (e - b) (fun m => exists d s, rd (nx m) d = Some s /\ is_finite (s_b s) = true)).
  - rewrite (nx_e c H b e cole W ZW EW). destruct cole as [|x q]; [congruence|]. exists 0, (lf (fst x)). cbn [map]. rewrite rd_cons_0. split; [reflexivity|]. destruct (ci_gen _ _ _ _ _ _ _ CI e x) as ((u & Hu) & _); [exists (x :: q); split; [exact Ee|now left]|]. cbn. rewrite Hu. reflexivity.
  - intros m Hm (d & s & Hs & Hf). destruct (back m d s Hm Hs Hf) as (x & y & (col & Hc & Hx) & _ & _ & _ & _ & F). rewrite (nx_lt c H b e cole W EW m col Hm Hc). apply In_rd in Hx as (d0 & _ & Hd). exists d0, (bst c (nx (m + 1)) x). rewrite rd_map, Hd. auto.
Qed.
(** so does the start state *)
Lemma start_back : cole <> [] -> b = 0 -> forall col x, rd W 0 = Some col -> In x col -> is_finite (s_b (bst c (nx 1) x)) = true.
Proof.
  intros NE B0 col x Hc Hx. destruct (some_back NE 0 ltac:(lia)) as (d & s & Hs & Hf). rewrite EW in Hc by lia. rewrite (nx_lt c H b e cole W EW 0 col ltac:(lia) Hc), rd_map in Hs. destruct (rd col d) as [x'|] eqn:E; [|discriminate]. injection Hs as <-.
  destruct (ci_0 _ _ _ _ _ _ _ CI) as (c0 & A1 & A2 & _). rewrite B0 in Hc. change (0 + 0) with 0 in Hc. rewrite A1 in Hc. injection Hc as ->. assert (Z1 : zlen (sas col) <= 1) by (rewrite A2; destruct (gr V c k); vm_compute; discriminate). unfold sas in Z1. rewrite zlen_map in Z1.
  apply In_rd in Hx as (d1 & B1 & H1). pose proof (rd_Some_bound _ _ _ E). assert (d1 = d) by lia. subst d1. rewrite E in H1. injection H1 as <-. exact Hf.
Qed.

Hypothesis ZH : zlen H = e + 1.
Hypothesis ZH' : zlen H' = zlen H.
Hypothesis E0 : forall i, i < b \/ e < i -> rd H' i = rd H i.
Hypothesis E1 : rd H' e = Some (map (fun x => (lf (fst x), snd x)) cole).
Hypothesis E2 : forall m, 0 <= m < e - b -> rd H' (b + m) = rd (prunedc c W L) m.

Lemma link_prune : linked H'.
Proof.
  intros i col' d x' Hi Hc Hd. pose proof (rd_Some_bound _ _ _ Hc) as Bc. rewrite ZH', ZH in Bc.
  assert (D : i + 1 <= b \/ exists m, i = b + m /\ 0 <= m < e - b). { assert (i + 1 <= b \/ b <= i) as [D|D] by lia; [now left|right]. exists (i - b). lia. }
  destruct D as [D|(m & -> & Hm)].
  - assert (exists col x0, rd H (i + 1) = Some col /\ rd col d = Some x0 /\ s_f (fst x0) = s_f (fst x')) as (col & x0 & A1 & A2 & A3).
    { assert (i + 1 < b \/ i + 1 = b) as [D'|D'] by lia; [rewrite E0 in Hc by lia; eauto|]. destruct (on_at H b e cole W Hb EW Ee 0 ltac:(lia)) as (col & Hcol). replace (i + 1) with (b + 0) in * by lia. rewrite (row_at c H H' b e cole W EW E0 E2 0 col ltac:(lia) Hcol) in Hc. injection Hc as <-. change (0 =? 0) with true in Hd.
      unfold keepc in Hd. cbn [orb] in Hd. rewrite rd_map, filter_true in Hd by (intros; reflexivity). destruct (rd col d) as [x0|] eqn:Ex; [|discriminate]. injection Hd as <-. exists col, x0. auto. }
    destruct (LK i col d x0 Hi A1 A2) as (x & y & (c1 & B1 & B2) & B3). exists x, y. rewrite <- A3. split; [exists c1; rewrite E0 by lia; auto|exact B3].
  - replace (b + m + 1) with (b + (m + 1)) in Hc by lia.
    assert (exists d0 s, rd (nx (m + 1)) d0 = Some s /\ is_finite (s_b s) = true /\ rmat c W L (m + 1) d0 = d /\ s_f s = s_f (fst x')) as (d0 & s & A1 & A2 & A3 & A4).
    { destruct (Z.eq_dec (m + 1) (e - b)) as [Hq|Hn].
      - rewrite Hq. replace (b + (m + 1)) with e in Hc by lia. rewrite E1 in Hc. injection Hc as <-. rewrite rd_map in Hd. destruct (rd cole d) as [x0|] eqn:Ex; [|discriminate]. injection Hd as <-. exists d, (lf (fst x0)). rewrite (nx_e c H b e cole W ZW EW), rd_map, Ex. split; [reflexivity|].
        destruct (ci_gen _ _ _ _ _ _ _ CI e x0) as ((u & Hu) & _); [exists cole; split; [exact Ee|eapply rd_In; eauto]|]. split; [cbn; now rewrite Hu|]. split; [|reflexivity]. unfold rmat. destruct (rd (bwc_all c W L) (e - b)) eqn:E; [|reflexivity]. apply rd_Some_bound in E. rewrite zlen_bwc_all in E. lia.
      - destruct (on_at H b e cole W Hb EW Ee (m + 1) ltac:(lia)) as (col & Hcol). rewrite (row_at c H H' b e cole W EW E0 E2 (m + 1) col ltac:(lia) Hcol) in Hc. injection Hc as <-. replace (m + 1 =? 0) with false in Hd by lia. unfold keepc in Hd. cbn [orb] in Hd. rewrite rd_map in Hd.
        destruct (rd (filter (fun x => is_finite (s_b (bst c (nx (m + 1 + 1)) x))) col) d) as [x0|] eqn:Ex; [|discriminate]. injection Hd as <-. destruct (rd_filter_inv _ _ _ _ Ex) as (d0 & D1 & D2 & D3). exists d0, (bst c (nx (m + 1 + 1)) x0). rewrite (nx_lt c H b e cole W EW (m + 1) col ltac:(lia) Hcol), rd_map, D1. split; [reflexivity|]. split; [exact D2|]. split; [|reflexivity].
        rewrite <- D3. unfold rmat. rewrite (rd_bwc_all c W L (m + 1) col) by (rewrite EW by lia; exact Hcol). unfold rmap, bwc. rewrite map_map. reflexivity. }
    destruct (back m d0 s Hm A1 A2) as (x & y & (col & Hcol & Hx) & B2 & B3 & B4 & B5 & B6).
    exists (bst c (nx (m + 1)) x, map (fun y => setd y (rmat c W L (m + 1) (i_dst y))) (filter (fun y => is_finite (bl c (nx (m + 1)) (fst x) y)) (snd x))), (setd y (rmat c W L (m + 1) (i_dst y))).
    split; [eexists; split; [apply (row_at c H H' b e cole W EW E0 E2 m col Hm Hcol)|]|].
    + unfold keepc. apply in_map_iff. exists x. split; [reflexivity|]. apply filter_In. split; [exact Hx|]. rewrite B6. apply orb_true_r.
    + cbn [fst snd setd i_dst i_ll bst s_f]. split; [apply in_map_iff; exists y; split; [reflexivity|]; apply filter_In; auto|]. rewrite B3, <- A4. auto.
Qed.
End L.

(** frames without states before those of the stream *)
Lemma bwc_pad c d W L : bwc_all c (repeat [] d ++ W) L = repeat [] d ++ bwc_all c W L.
Proof. induction d; cbn; [reflexivity|]. now rewrite IHd. Qed.
Lemma good_pad c d W L : goodc c W L -> goodc c (repeat [] d ++ W) L.
Proof. intros G. induction d; cbn; auto. Qed.
Lemma rd_pad {X} (x : X) d l i : 0 <= i -> rd (repeat x d ++ l) (Z.of_nat d + i) = rd l i.
Proof. intros Hi. rewrite rd_app_r by (unfold zlen; rewrite repeat_length; lia). f_equal. unfold zlen. rewrite repeat_length. lia. Qed.
Lemma rd_pad_l {X} (x : X) d l i : 0 <= i < Z.of_nat d -> rd (repeat x d ++ l) i = Some x.
Proof.
  intros Hi. rewrite rd_app_l by (unfold zlen; rewrite repeat_length; lia). rewrite <- (Z2Nat.id i), rd_nth by lia. assert (Hn : (Z.to_nat i < d)%nat) by lia. rewrite (nth_error_nth' _ x) by (rewrite repeat_length; lia). now rewrite nth_repeat.
Qed.
Lemma pruned_pad c d W L : (d = O \/ forall col x, rd W 0 = Some col -> In x col -> is_finite (s_b (bst c (nxat c W L 1) x)) = true) -> prunedc c (repeat [] d ++ W) L = repeat [] d ++ prunedc c W L.
Proof.
  intros HS. assert (ZR : zlen (repeat (@nil nst) d) = Z.of_nat d) by (unfold zlen; now rewrite repeat_length).
  assert (NX : forall i, 0 <= i -> nxat c (repeat [] d ++ W) L (Z.of_nat d + i) = nxat c W L i) by (intros i Hi; unfold nxat; now rewrite bwc_pad, rd_pad).
  assert (RM : forall i, 0 <= i -> rmat c (repeat [] d ++ W) L (Z.of_nat d + i) = rmat c W L i) by (intros i Hi; unfold rmat; now rewrite bwc_pad, rd_pad).
  apply list_ext_rd; [unfold prunedc; rewrite zlen_imap, !zlen_app, zlen_imap; reflexivity|]. intros i Hi. unfold prunedc at 1 in Hi. rewrite zlen_imap, zlen_app, ZR in Hi. unfold prunedc at 1. rewrite rd_imap, Z.add_0_l.
  destruct (Z_lt_le_dec i (Z.of_nat d)) as [Hl|Hg]; [rewrite !rd_pad_l by lia; reflexivity|]. assert (exists m, i = Z.of_nat d + m /\ 0 <= m) as (m & -> & Hm) by (exists (i - Z.of_nat d); lia). rewrite !rd_pad by lia. unfold prunedc. rewrite rd_imap, Z.add_0_l. destruct (rd W m) as [col|] eqn:Ec; [|reflexivity]. cbn [option_map].
  rewrite <- !Z.add_assoc, NX, RM by lia. f_equal. destruct HS as [->|HS]; [reflexivity|]. destruct (Z.eq_dec m 0) as [->|Hn]; [|replace (Z.of_nat d + m =? 0) with (m =? 0) by lia; reflexivity]. unfold keepc. change (0 =? 0) with true. f_equal. specialize (HS col).
  rewrite (filter_true (fun x => true || _)) by (intros; reflexivity). change (0 + 1) with 1. specialize (fun x => HS x Ec). revert HS. generalize (Z.of_nat d + 0 =? 0). clear. intros bb HS. induction col as [|x col IH]; [reflexivity|]. cbn [filter]. rewrite (HS x (or_introl eq_refl)), orb_true_r. f_equal. apply IH. intros y Hy. apply HS. now right.
Qed.

Section Online.
Context (f : nfsa) (cols stride sb ob mina maxa : Z) (partial : bool).
Hypothesis Vf : valid f.
Hypothesis Lf : forall a, In a (all_arcs f) -> lab a < cols - 1.
Hypothesis Hcs : cols <= stride.
Hypothesis Hsb : 0 < sb.
Hypothesis Hob : 0 < ob.
Hypothesis Hmm : 0 <= mina < maxa.
Notation cf := (cf f cols stride sb ob mina maxa partial).
Notation sinv := (sinv f cols stride sb ob mina maxa partial).
Notation su1 := (su1 f cols stride sb ob mina maxa partial Vf Lf Hcs).

Lemma sinv_prune real H H' e0 b beam cole W R0 : sinv real H e0 beam -> dense_rows R0 -> wide stride R0 -> extends real R0 ->
  let e := zlen real in 0 <= b < e -> b <= e0 -> zlen W = e - b -> (forall m, 0 <= m < e - b -> rd W m = rd H (b + m)) -> rd H e = Some cole ->
  zlen H' = zlen H -> (forall i, i < b \/ e < i -> rd H' i = rd H i) -> rd H' e = Some (map (fun x => (lf (fst x), snd x)) cole) ->
  (forall m, 0 <= m < e - b -> rd H' (b + m) = rd (prunedc (cf true [R0]) W (map (fun x : nst => lf (fst x)) cole)) m) ->
  sinv real H' e beam.
Proof.
  intros SI D0 W0 X0 e Hb Hb0 ZW EW Ee ZH E0 E1 E2. destruct (si_col _ _ _ _ _ _ _ _ _ _ _ _ SI R0 D0 W0 X0) as (pm0 & CI0 & _). pose proof (si_len _ _ _ _ _ _ _ _ _ _ _ _ SI) as ZL. fold e in ZL. pose proof (si_e _ _ _ _ _ _ _ _ _ _ _ _ SI) as Le. split.
  - lia.
  - lia.
  - intros R D Wd X. destruct (si_col _ _ _ _ _ _ _ _ _ _ _ _ SI R D Wd X) as (pmf & CI & AL). destruct D as (Q1 & Q2 & Q3). exists pmf. split.
    + eapply (cinv_prune [f] [R] (cf true [R]) 0 pmf H H' e0 b e cole W); eauto.
    + intros p z [G1 G2 G3 G4 G5 G6 G7]. destruct (AL p z) as (AL1 & AL2); [split; auto|]. split; [|rewrite ZH; exact AL2].
      eapply (alive_prune [f] [R] cols stride (cf true [R]) (su1 true R Wd) 0 ltac:(split; [lia|reflexivity]) Q1 Q2 Q3 p z G1 G2 G3 G4 G5 pmf H H' e0 b e cole W); eauto.
  - eapply (link_prune [f] [R0] (cf true [R0]) 0 pm0 H H' e0 b e cole W); eauto; [cbn; lia|apply (si_link _ _ _ _ _ _ _ _ _ _ _ _ SI)].
  - destruct (si_ne _ _ _ _ _ _ _ _ _ _ _ _ SI) as (x & c1 & C1 & C2). fold e in C1. rewrite Ee in C1. injection C1 as <-. exists (lf (fst x), snd x). eexists. split; [exact E1|]. apply in_map_iff. eauto.
  - apply (si_beam _ _ _ _ _ _ _ _ _ _ _ _ SI).
Qed.
End Online.
