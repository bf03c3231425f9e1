(** * A pruning pass keeps what holds of the frames of one sequence *)
From Coq Require Import ZArith List Lia Bool QArith Permutation.
From Coq Require Import ZifyBool ZifyNat.
From Verif Require Import Base RaggedModel RaggedSpec RaggedProofs FsaSpec FsaLemmas RaggedOpsModel OpsModel RaggedOpsProofs ConnectProofs ScoreSpec ScorePaths IDenseModel IDenseSpec IPrunedModel IPrunedNest IPrunedCut IPrunedMerge IPrunedFwd IPrunedCol IPrunedInv.
From Verif Require Import IDensePaths.
Import ListNotations.
Open Scope Z_scope.
Notation ole := IDensePaths.ole.

Lemma down (n : Z) (P : Z -> Prop) : P n -> (forall m, 0 <= m < n -> P (m + 1) -> P m) -> forall m, 0 <= m <= n -> P m.
Proof.
  intros H0 HS m Hm. remember (Z.to_nat (n - m)) as u eqn:Eu. revert m Hm Eu. induction u as [|u IH]; intros m Hm Eu; [assert (m = n) as -> by lia; exact H0|].
  apply HS; [lia|]. apply IH; lia.
Qed.
Lemma rd_bwc_all c C last i p : rd C i = Some p -> rd (bwc_all c C last) i = Some (bwc c (nxat c C last (i + 1)) p).
Proof.
  unfold nxat. revert i. induction C as [|p0 C IH]; intros i H; [now rewrite rd_nil in H|]. pose proof (rd_Some_bound _ _ _ H) as Bi. cbn [bwc_all]. destruct (Z.eq_dec i 0) as [->|Hz].
  - rewrite rd_cons_0 in *. injection H as <-. rewrite rd_cons_S by lia. destruct (bwc_all c C last); reflexivity.
  - assert (exists j, i = j + 1 /\ 0 <= j) as (j & -> & Hj) by (exists (i - 1); lia). rewrite rd_cons_S in H by lia. rewrite !rd_cons_S by lia. now apply IH.
Qed.
Lemma zlen_bwc_all c C last : zlen (bwc_all c C last) = zlen C.
Proof. induction C; cbn; [reflexivity|]. rewrite !zlen_cons. lia. Qed.
Lemma goodc_at c C last : (forall i p, rd C i = Some p -> Forall (ok1 c (nxat c C last (i + 1))) p) -> goodc c C last.
Proof.
  induction C as [|p C IH]; intros H; [exact I|]. cbn [goodc]. split.
  - apply IH. intros i q Hi. pose proof (rd_Some_bound _ _ _ Hi). specialize (H (i + 1) q). rewrite rd_cons_S in H by lia. specialize (H Hi). unfold nxat in *. cbn [bwc_all] in H. rewrite rd_cons_S in H by lia. exact H.
  - specialize (H 0 p (rd_cons_0 _ _)). unfold nxat in H. cbn [bwc_all] in H. rewrite Z.add_0_l in H. replace 1 with (0 + 1) in H by lia. rewrite rd_cons_S in H by lia. destruct (bwc_all c C last); exact H.
Qed.
Lemma filter_true {X} (P : X -> bool) l : (forall x, P x = true) -> filter P l = l.
Proof. intros HP. induction l as [|x l IH]; cbn; [reflexivity|]. rewrite HP. now f_equal. Qed.
Definition lf (s : sinfo) : sinfo := mkS (s_a s) (s_f s) (oneg (s_f s)).

Section P.
Context (V : list nfsa) (seqs : list frames) (cols stride : Z) (c : cfg) (SU : setup V seqs cols stride c).
Context (k : Z) (Hk : 0 <= k < zlen seqs).
Notation f := (gr V c k).
Notation rws := (rw seqs k).
Notation TT := (zlen (rw seqs k)).
Notation vbk := (vb V c k).
Notation ABk := (AB V c k).
Notation cinv := (cinv V seqs c k).
Notation alink := (alink V seqs c k).

Context (pmf : bool) (H H' : list (list nst)) (e0 b e : Z) (cole : list nst) (W : list (list nst)).
Hypothesis CI : cinv pmf H e0.
Hypothesis Hb : 0 <= b < e.
Hypothesis Hb0 : b <= e0.
Hypothesis He0 : e0 <= e.
Hypothesis ZW : zlen W = e - b.
Hypothesis EW : forall m, 0 <= m < e - b -> rd W m = rd H (b + m).
Hypothesis Ee : rd H e = Some cole.
Notation L := (map (fun x : nst => lf (fst x)) cole).
Notation nx := (nxat c W L).

Lemma fin_at i x : on H i x -> fin c (s_a (fst x)) = (s_a (fst x) - vbk =? zlen f - 1).
Proof.
  intros Hx. pose proof (on_okst V seqs cols stride c SU k _ _ _ _ _ CI Hx) as O. destruct (st_at V seqs cols stride c SU k i (fst x) Hk O) as (_ & _ & _ & _ & _ & E1 & _ & E2). unfold fin. rewrite E1. cbn. rewrite E2.
  destruct O as (O & _). destruct (Z.leb_spec (vbk + zlen f) (s_a (fst x) + 1)); symmetry; lia.
Qed.

Lemma nx_lt m col : 0 <= m < e - b -> rd H (b + m) = Some col -> nx m = map (bst c (nx (m + 1))) col.
Proof. intros Hm Hc. unfold nxat at 1. rewrite (rd_bwc_all c W L m col) by (rewrite EW by lia; exact Hc). unfold bwc. rewrite map_map. apply map_ext. reflexivity. Qed.
Lemma nx_e : nx (e - b) = L.
Proof. unfold nxat. destruct (rd (bwc_all c W L) (e - b)) eqn:E; [|reflexivity]. apply rd_Some_bound in E. rewrite zlen_bwc_all in E. lia. Qed.
Lemma nx_map m col : 0 <= m <= e - b -> rd H (b + m) = Some col -> exists g, nx m = map g col /\ forall x, s_a (g x) = s_a (fst x) /\ s_f (g x) = s_f (fst x).
Proof.
  intros Hm Hc. destruct (Z.eq_dec m (e - b)) as [->|Hn].
  - replace (b + (e - b)) with e in Hc by lia. rewrite Ee in Hc. injection Hc as <-. rewrite nx_e. eexists. split; [reflexivity|]. intros x. split; reflexivity.
  - rewrite (nx_lt m col) by (auto; lia). eexists. split; [reflexivity|]. intros x. split; reflexivity.
Qed.
(** the state an arc enters *)
Lemma alink_nx m x y : 0 <= m < e - b -> on H (b + m) x -> In y (snd x) -> 0 <= i_dst y -> exists s, rd (nx (m + 1)) (i_dst y) = Some s /\ ole (oadd (s_f (fst x)) (i_ll y)) (s_f s).
Proof.
  intros Hm Hx Hy Hd. destruct (ci_arc _ _ _ _ _ _ _ CI _ _ _ Hx Hy) as (j & a & _ & _ & _ & _ & [B|(_ & col & x' & B1 & B2 & _ & B4)]); [lia|].
  destruct (nx_map (m + 1) col) as (g & G1 & G2); [lia|replace (b + (m + 1)) with (b + m + 1) by lia; exact B1|]. exists (g x'). rewrite G1, rd_map, B2. split; [reflexivity|]. now rewrite (proj2 (G2 x')).
Qed.
Lemma alink_d i x y : on H i x -> In y (snd x) -> i_dst y = -1 \/ 0 <= i_dst y.
Proof. intros Hx Hy. destruct (ci_arc _ _ _ _ _ _ _ CI _ _ _ Hx Hy) as (j & a & _ & _ & _ & _ & [B|(B & _)]); auto. Qed.
Lemma on_at m : 0 <= m <= e - b -> exists col, rd H (b + m) = Some col.
Proof. intros Hm. apply rd_in_bound. apply rd_Some_bound in Ee. lia. Qed.
Lemma bl_Some nxs s y v : bl c nxs s y = Some v -> i_dst y <> -1 /\ exists d w z u, rd nxs (i_dst y) = Some d /\ i_ll y = Some w /\ s_b d = Some z /\ v = w + z /\ s_f s = Some u /\ - c_obeam c <= v + u.
Proof.
  unfold bl. destruct (i_dst y =? -1) eqn:E; [discriminate|]. destruct (rd nxs (i_dst y)) as [d|]; [|discriminate]. destruct (i_ll y) as [w|]; [|discriminate]. destruct (s_b d) as [z|] eqn:Ez; [|discriminate].
  destruct (s_f s) as [u|]; [|discriminate]. cbn. destruct (- c_obeam c <=? w + z + u) eqn:El; [|discriminate]. intros X. injection X as <-. split; [lia|]. exists d, w, z, u. repeat split; auto. lia.
Qed.

Lemma neg m : 0 <= m <= e - b -> forall s u v, In s (nx m) -> s_f s = Some u -> s_b s = Some v -> u + v <= 0.
Proof.
  revert m. apply (down (e - b) (fun m => forall s u v, In s (nx m) -> s_f s = Some u -> s_b s = Some v -> u + v <= 0)).
  - intros s u v Hs. rewrite nx_e in Hs. apply in_map_iff in Hs as (x & <- & _). cbn. intros ->. cbn. intros X. injection X as <-. lia.
  - intros m Hm IH s u v Hs. destruct (on_at m) as (col & Hc); [lia|]. rewrite (nx_lt m col) in Hs by auto. apply in_map_iff in Hs as (x & <- & Hx). cbn. intros Eu. destruct (fin c (s_a (fst x))).
    + rewrite Eu. cbn. intros X. injection X as <-. lia.
    + intros Ev. apply kmax_in in Ev. apply in_map_iff in Ev as (y & Ev & Hy). destruct (bl_Some _ _ _ _ Ev) as (B1 & d & w & z & u' & B2 & B3 & B4 & -> & B6 & B7).
      destruct (alink_nx m x y) as (s & A1 & A2); [auto|exists col; auto|auto| |].
      { destruct (alink_d (b + m) x y) as [D|D]; [exists col; auto|auto|lia|lia]. }
      rewrite B2 in A1. injection A1 as <-. rewrite Eu, B3 in A2. cbn in A2. destruct (s_f d) as [q|] eqn:Eq; [|destruct A2]. specialize (IH d q z (rd_In _ _ _ B2) Eq B4). lia.
Qed.
Lemma win_good : goodc c W L.
Proof.
  apply goodc_at. intros m p Hm. pose proof (rd_Some_bound _ _ _ Hm) as Bm. rewrite ZW in Bm. rewrite EW in Hm by lia. apply Forall_forall. intros x Hx. assert (Ho : on H (b + m) x) by (exists p; auto). split.
  - destruct (st_at V seqs cols stride c SU k (b + m) (fst x) Hk (on_okst V seqs cols stride c SU k _ _ _ _ _ CI Ho)) as (_ & _ & _ & _ & _ & E1 & _ & E2). eauto.
  - intros y Hy. destruct (alink_d _ _ _ Ho Hy) as [D|D]; [now left|]. right. destruct (alink_nx m x y Bm Ho Hy D) as (s & A1 & A2). exists s. repeat split; auto. intros v Ev.
    destruct (i_ll y) as [w|]; [|discriminate]. destruct (s_b s) as [z|] eqn:Ez; [|discriminate]. destruct (s_f (fst x)) as [u|]; [|discriminate]. cbn in Ev, A2. injection Ev as <-. destruct (s_f s) as [q|] eqn:Eq; [|destruct A2].
    pose proof (neg (m + 1) ltac:(lia) s q z (rd_In _ _ _ A1) Eq Ez). lia.
Qed.

(** after the pass *)
Hypothesis ZH : zlen H' = zlen H.
Hypothesis E0 : forall i, i < b \/ e < i -> rd H' i = rd H i.
Hypothesis E1 : rd H' e = Some (map (fun x => (lf (fst x), snd x)) cole).
Hypothesis E2 : forall m, 0 <= m < e - b -> rd H' (b + m) = rd (prunedc c W L) m.

Lemma row_at m col : 0 <= m < e - b -> rd H (b + m) = Some col -> rd H' (b + m) = Some (keepc c (m =? 0) (nx (m + 1)) (rmat c W L (m + 1)) col).
Proof. intros Hm Hc. rewrite E2 by auto. unfold prunedc. rewrite rd_imap, EW, Hc by lia. cbn. rewrite Z.add_0_l. reflexivity. Qed.
Lemma rm_at m d s : 0 < m <= e - b -> rd (nx m) d = Some s -> is_finite (s_b s) = true -> 0 <= rmat c W L m d /\ exists col x, rd H' (b + m) = Some col /\ rd col (rmat c W L m d) = Some x /\ fst x = s.
Proof.
  intros Hm Hs Hf. destruct (Z.eq_dec m (e - b)) as [->|Hn].
  - rewrite nx_e in Hs. assert (Er : rmat c W L (e - b) = fun d => d). { unfold rmat. destruct (rd (bwc_all c W L) (e - b)) eqn:E; [|reflexivity]. apply rd_Some_bound in E. rewrite zlen_bwc_all in E. lia. }
    rewrite Er. split; [apply rd_Some_bound in Hs; lia|]. replace (b + (e - b)) with e by lia. rewrite rd_map in Hs. destruct (rd cole d) as [x|] eqn:Ex; [|discriminate]. injection Hs as <-.
    exists (map (fun x => (lf (fst x), snd x)) cole), (lf (fst x), snd x). split; [exact E1|]. rewrite rd_map, Ex. auto.
  - destruct (on_at m) as (col & Hc); [lia|]. rewrite (nx_lt m col) in Hs by (auto; lia). rewrite rd_map in Hs. destruct (rd col d) as [x|] eqn:Ex; [|discriminate]. injection Hs as <-.
    assert (Er : rmat c W L m d = cnt (firstn (Z.to_nat d) (map (fun x => is_finite (s_b (bst c (nx (m + 1)) x))) col))).
    { unfold rmat. rewrite (rd_bwc_all c W L m col) by (rewrite EW by lia; exact Hc). unfold rmap, bwc. rewrite map_map. reflexivity. }
    rewrite Er. split; [apply cnt_nonneg|]. pose proof (rd_filter_cnt (fun x => is_finite (s_b (bst c (nx (m + 1)) x))) col d x Ex Hf) as R.
    rewrite (row_at m col) by (auto; lia). replace (m =? 0) with false by lia. eexists _, _. split; [reflexivity|]. unfold keepc. cbn [orb]. rewrite rd_map, R. cbn. split; reflexivity.
Qed.

(** every state of the result comes from one with the same forward score *)
Lemma on_from i x' : on H' i x' -> exists x, on H i x /\ s_a (fst x') = s_a (fst x) /\ s_f (fst x') = s_f (fst x) /\
   (((i < b \/ e < i) /\ x' = x) \/ (i = e /\ x' = (lf (fst x), snd x)) \/ (exists m, i = b + m /\ 0 <= m < e - b /\ x' = (bst c (nx (m + 1)) x, map (fun y => setd y (rmat c W L (m + 1) (i_dst y))) (filter (fun y => is_finite (bl c (nx (m + 1)) (fst x) y)) (snd x))))).
Proof.
  intros (col' & Hc & Hx). assert (D : (i < b \/ e < i) \/ i = e \/ b <= i < e) by lia. destruct D as [D|[->|D]].
  - rewrite E0 in Hc by auto. exists x'. split; [exists col'; auto|]. split; [reflexivity|]. split; [reflexivity|]. left. auto.
  - rewrite E1 in Hc. injection Hc as <-. apply in_map_iff in Hx as (x & <- & Hx). exists x. split; [exists cole; auto|]. split; [reflexivity|]. split; [reflexivity|]. right. left. auto.
  - assert (exists m, i = b + m /\ 0 <= m < e - b) as (m & -> & Hm) by (exists (i - b); lia). destruct (on_at m) as (col & Hcm); [lia|]. rewrite (row_at m col) in Hc by auto. injection Hc as <-.
    unfold keepc in Hx. apply in_map_iff in Hx as (x & <- & Hx). apply filter_In in Hx as (Hx & _). exists x. split; [exists col; auto|]. cbn. repeat split; auto. right. right. exists m. auto.
Qed.
Lemma sub_sas i col' : rd H' i = Some col' -> exists col, rd H i = Some col /\ (NoDup (sas col) -> NoDup (sas col')) /\ (i <= b \/ e <= i -> forall d x, rd col d = Some x -> exists x', rd col' d = Some x' /\ s_a (fst x') = s_a (fst x) /\ s_f (fst x') = s_f (fst x)) /\ (i <= b -> sas col' = sas col).
Proof.
  intros Hc. assert (D : (i < b \/ e < i) \/ i = e \/ b <= i < e) by lia. destruct D as [D|[->|D]].
  - rewrite E0 in Hc by auto. exists col'. repeat split; auto. intros _ d x Hx. exists x. auto.
  - rewrite E1 in Hc. injection Hc as <-. exists cole. split; [exact Ee|]. assert (Es : sas (map (fun x : nst => (lf (fst x), snd x)) cole) = sas cole) by (unfold sas; rewrite map_map; reflexivity). rewrite Es. repeat split; auto. intros _ d x Hx. exists (lf (fst x), snd x). rewrite rd_map, Hx. auto.
  - assert (exists m, i = b + m /\ 0 <= m < e - b) as (m & -> & Hm) by (exists (i - b); lia). destruct (on_at m) as (col & Hcm); [lia|]. rewrite (row_at m col) in Hc by auto. injection Hc as <-. exists col. split; [exact Hcm|]. repeat split.
    + intros ND. unfold keepc, sas in *. rewrite map_map. cbn [fst bst s_a]. revert ND. generalize (fun x => (m =? 0) || is_finite (s_b (bst c (nx (m + 1)) x))). clear. intros P. induction col as [|x col IH]; intros ND; cbn; [constructor|]. inversion ND as [|? ? N1 N2]. subst. destruct (P x); cbn; [|auto].
      constructor; [|auto]. intros Hi. apply N1. apply in_map_iff in Hi as (x' & <- & Hi). apply filter_In in Hi as (Hi & _). apply in_map_iff. eauto.
    + intros D'. assert (m = 0) as -> by lia. cbn [Z.eqb]. intros d x Hx. unfold keepc. cbn [orb]. rewrite rd_map. rewrite filter_true by (intros; reflexivity). rewrite Hx. eexists. split; [reflexivity|]. auto.
    + intros D'. assert (m = 0) as -> by lia. cbn [Z.eqb]. unfold keepc, sas. cbn [orb]. rewrite map_map. rewrite filter_true by (intros; reflexivity). reflexivity.
Qed.

Lemma cinv_prune : cinv pmf H' e.
Proof.
  pose proof (rd_Some_bound _ _ _ Ee) as Be. split.
  - lia.
  - apply (ci_pm _ _ _ _ _ _ _ CI).
  - destruct (ci_0 _ _ _ _ _ _ _ CI) as (c0 & A1 & A2 & A3). destruct (rd_in_bound H' 0) as (c1 & Hc1); [lia|]. exists c1. split; [exact Hc1|]. destruct (sub_sas _ _ Hc1) as (c2 & B1 & _ & B3 & B4). rewrite A1 in B1. injection B1 as <-.
    split; [rewrite B4 by lia; exact A2|]. intros x' Hx'. destruct (on_from 0 x') as (x & O1 & _ & O3 & _); [exists c1; auto|]. rewrite O3. destruct O1 as (c2 & O1 & O2). rewrite A1 in O1. injection O1 as <-. now apply A3.
  - intros i x' Hx. destruct (on_from i x' Hx) as (x & O1 & O2 & O3 & _). rewrite O2. now apply (ci_rng _ _ _ _ _ _ _ CI).
  - intros i x' Hx. destruct (on_from i x' Hx) as (x & O1 & O2 & O3 & _). rewrite O2, O3. now apply (ci_gen _ _ _ _ _ _ _ CI).
  - intros i col' Hc. destruct (sub_sas _ _ Hc) as (col & B1 & B2 & _). apply B2. eapply (ci_nd _ _ _ _ _ _ _ CI); eauto.
  - intros i x' y' Hx Hy. destruct (on_from i x' Hx) as (x & O1 & O2 & O3 & O4).
    assert (keep : In y' (snd x) -> (i < b \/ e <= i) -> alink pmf i H' (fst x') y').
    { intros Hy' Hi. destruct (ci_arc _ _ _ _ _ _ _ CI _ _ _ O1 Hy') as (j & a & B1 & B2 & B3 & B4 & B5). exists j, a. rewrite O2, O3. split; [exact B1|]. split; [exact B2|]. split; [exact B3|]. split; [exact B4|]. destruct B5 as [B5|(B5 & c1 & x1 & D1 & D2 & D3 & D4)]; [now left|right]. split; [exact B5|].
      destruct (rd_in_bound H' (i + 1)) as (c2 & Hc2); [apply rd_Some_bound in D1; lia|]. destruct (sub_sas _ _ Hc2) as (c3 & F1 & _ & F3 & _). rewrite D1 in F1. injection F1 as <-. destruct (F3 ltac:(lia) _ _ D2) as (x2 & G1 & G2 & G3). exists c2, x2. rewrite G2, G3. auto. }
    destruct O4 as [(D & ->)|[(-> & ->)|(m & -> & Hm & ->)]]; [apply keep; [exact Hy|lia]|apply keep; [exact Hy|lia]|]. clear keep. cbn [fst snd] in *.
    apply in_map_iff in Hy as (y & <- & Hy). apply filter_In in Hy as (Hy & Hf). destruct (bl c (nx (m + 1)) (fst x) y) as [v|] eqn:Ev; [|discriminate]. destruct (bl_Some _ _ _ _ Ev) as (B1 & d & w & z & u & B2 & B3 & B4 & B5 & B6 & B7).
    destruct (ci_arc _ _ _ _ _ _ _ CI _ _ _ O1 Hy) as (j & a & C1 & C2 & C3 & C4 & C5). exists j, a. cbn [setd i_arc i_ll i_dst bst s_a s_f]. split; [exact C1|]. split; [exact C2|]. split; [exact C3|]. split; [exact C4|]. right.
    destruct (rm_at (m + 1) (i_dst y) d ltac:(lia) B2) as (R1 & c2 & x2 & R2 & R3 & R4); [rewrite B4; reflexivity|]. split; [exact R1|]. exists c2, x2. replace (b + m + 1) with (b + (m + 1)) by lia. rewrite R4. repeat split; auto.
    + destruct C5 as [C5|(_ & c3 & x3 & D1 & D2 & D3 & D4)]; [lia|]. destruct (nx_map (m + 1) c3) as (g & G1 & G2); [lia|replace (b + (m + 1)) with (b + m + 1) by lia; exact D1|]. rewrite G1, rd_map, D2 in B2. injection B2 as <-. rewrite (proj1 (G2 x3)). exact D3.
    + destruct C5 as [C5|(_ & c3 & x3 & D1 & D2 & D3 & D4)]; [lia|]. destruct (nx_map (m + 1) c3) as (g & G1 & G2); [lia|replace (b + (m + 1)) with (b + m + 1) by lia; exact D1|]. rewrite G1, rd_map, D2 in B2. injection B2 as <-. rewrite (proj2 (G2 x3)). exact D4.
  - intros i x' Hx. destruct (on_from i x' Hx) as (x & O1 & O2 & O3 & O4). pose proof (ci_and _ _ _ _ _ _ _ CI _ _ O1) as ND. destruct O4 as [(D & ->)|[(-> & ->)|(m & -> & Hm & ->)]]; [exact ND|exact ND|]. cbn [snd]. rewrite map_map. cbn [setd i_arc]. revert ND. generalize (fun y => is_finite (bl c (nx (m + 1)) (fst x) y)). generalize (snd x). clear. intros l P. induction l as [|y l IH]; intros ND; cbn; [constructor|]. inversion ND as [|? ? N1 N2]. subst. destruct (P y); cbn; [|auto].
    constructor; [|auto]. intros Hi. apply N1. apply in_map_iff in Hi as (y' & <- & Hi). apply filter_In in Hi as (Hi & _). now apply in_map.
  - intros i x' y' Hx Hy Hi. destruct (on_from i x' Hx) as (x & O1 & O2 & O3 & O4). destruct O4 as [(D & ->)|[(-> & ->)|(m & -> & Hm & ->)]]; [eapply (ci_clean _ _ _ _ _ _ _ CI); eauto; lia|lia|]. cbn [snd] in Hy.
    apply in_map_iff in Hy as (y & <- & Hy). apply filter_In in Hy as (Hy & Hf). destruct (bl c (nx (m + 1)) (fst x) y) as [v|] eqn:Ev; [|discriminate]. destruct (bl_Some _ _ _ _ Ev) as (B1 & d & w & z & u & B2 & B3 & B4 & B5 & B6 & B7).
    cbn. split; [|eauto]. apply (rm_at (m + 1) (i_dst y) d ltac:(lia) B2). rewrite B4. reflexivity.
Qed.
End P.
