(** * One stream: the lattice of its frames up to now *)
From Coq Require Import ZArith List Lia Bool QArith Permutation Lqa.
From Coq Require Import ZifyBool ZifyNat.
From Verif Require Import Base RaggedModel RaggedSpec RaggedProofs FsaSpec FsaLemmas RaggedOpsModel OpsModel RaggedOpsProofs ConnectProofs ScoreSpec ScorePaths IDenseModel IDenseSpec IPrunedModel IPrunedNest IPrunedCut IPrunedMerge IPrunedFwd IPrunedCol IPrunedInv IPrunedPrune IPrunedAlive IPrunedRun IPrunedSpec IPrunedOut IPrunedOne IOnlineSpec IOnlineCol.
From Verif Require Import IDensePaths.
Import ListNotations.
Open Scope Z_scope.

(** leaving out the arcs that go nowhere *)
Definition flt (x : nst) : nst := (fst x, filter (fun y => 0 <=? i_dst y) (snd x)).
Lemma on_flt H i x' : on (map (map flt) H) i x' -> exists x, on H i x /\ x' = flt x.
Proof. intros (col & Hc & Hx). rewrite rd_map in Hc. destruct (rd H i) as [q|] eqn:E; [|discriminate]. injection Hc as <-. apply in_map_iff in Hx as (x & <- & Hx). exists x. split; [exists q; auto|reflexivity]. Qed.
Lemma flt_on H i x : on H i x -> on (map (map flt) H) i (flt x).
Proof. intros (col & Hc & Hx). exists (map flt col). rewrite rd_map, Hc. split; [reflexivity|now apply in_map]. Qed.
Lemma sas_flt col : sas (map flt col) = sas col.
Proof. unfold sas. rewrite map_map. reflexivity. Qed.
Lemma cinv_filter V seqs c k pmf H e : cinv V seqs c k pmf H e -> (forall i x y, on H i x -> In y (snd x) -> 0 <= i_dst y -> exists w, i_ll y = Some w) ->
  cinv V seqs c k pmf (map (map flt) H) (zlen H).
Proof.
  intros [A1 A2 A3 A4 A5 A6 A7 A8 A9] HF. split.
  - now rewrite zlen_map.
  - exact A2.
  - destruct A3 as (col & B1 & B2 & B3). exists (map flt col). rewrite rd_map, B1, sas_flt. split; [reflexivity|]. split; [exact B2|]. intros x' Hx. apply in_map_iff in Hx as (x & <- & Hx). exact (B3 x Hx).
  - intros i x' Hx. destruct (on_flt _ _ _ Hx) as (x & Ho & ->). exact (A4 i x Ho).
  - intros i x' Hx. destruct (on_flt _ _ _ Hx) as (x & Ho & ->). exact (A5 i x Ho).
  - intros i col Hc. rewrite rd_map in Hc. destruct (rd H i) as [q|] eqn:E; [|discriminate]. injection Hc as <-. rewrite sas_flt. eauto.
  - intros i x' y Hx Hy. destruct (on_flt _ _ _ Hx) as (x & Ho & ->). cbn [flt snd] in Hy. apply filter_In in Hy as (Hy & Hd). destruct (A7 _ _ _ Ho Hy) as (j & a & B1 & B2 & B3 & B4 & B5). exists j, a. do 4 (split; [assumption|]). right. destruct B5 as [B5|(B5 & col & x1 & C1 & C2 & C3)]; [lia|]. split; [exact B5|]. exists (map flt col), (flt x1). rewrite rd_map, C1, rd_map, C2. auto.
  - intros i x' Hx. destruct (on_flt _ _ _ Hx) as (x & Ho & ->). specialize (A8 _ _ Ho). cbn [flt snd]. revert A8. clear. induction (snd x) as [|y l IH]; cbn; intros ND; [constructor|]. inversion ND as [|? ? N1 N2]. subst. destruct (0 <=? i_dst y); cbn; [|auto]. constructor; [|auto]. intros Hi. apply N1. apply in_map_iff in Hi as (z & <- & Hz). apply filter_In in Hz as (Hz & _). now apply in_map.
  - intros i x' y Hx Hy Hi. destruct (on_flt _ _ _ Hx) as (x & Ho & ->). cbn [flt snd] in Hy. apply filter_In in Hy as (Hy & Hd). split; [lia|]. eapply HF; eauto. lia.
Qed.
Lemma alive_filter V seqs c k p pmf H : alive V seqs c k p pmf H -> alive V seqs c k p pmf (map (map flt) H).
Proof.
  intros (A1 & A2). split; [rewrite zlen_map; exact A1|]. intros i j Hi Hj. rewrite zlen_map in Hi. destruct (A2 i j Hi Hj) as (x & y & B1 & B2 & B3 & B4). exists (flt x), y. split; [now apply flt_on|]. split; [cbn; apply filter_In; split; [exact B2|lia]|auto].
Qed.

Section Online.
Context (f : nfsa) (cols stride sb ob mina maxa : Z) (partial : bool).
Hypothesis Vf : valid f.
Hypothesis Lf : forall a, In a (all_arcs f) -> lab a < cols - 1.
Hypothesis Hcs : cols <= stride.
Hypothesis Hsb : 0 < sb.
Hypothesis Hob : 0 < ob.
Hypothesis Hmm : 0 <= mina < maxa.
Notation cf := (cf f cols stride sb ob mina maxa partial).
Notation sinv := (sinv f cols stride sb ob mina maxa partial).
Notation su1 := (su1 f cols stride sb ob mina maxa partial Vf Lf Hcs).

Lemma cinv_off R pmf H e : cinv [f] [R] (cf true [R]) 0 pmf H e -> cinv [f] [R] (cf false [R]) 0 pmf H e.
Proof. intros []. split; assumption. Qed.
Lemma goodp_on R p z : goodp [f] [R] (cf false [R]) 0 p z -> goodp [f] [R] (cf true [R]) 0 p z.
Proof. intros []. split; assumption. Qed.

(** the arcs of a state into the final state *)
Definition fina (seqs : list frames) (k t : Z) (S : list sinfo) (s : sinfo) : list ainfo :=
  map (fun a => setd a 0) (filter (fun a => is_finite (i_ll a)) (garcs [f] seqs (cf true seqs) k t (pm [f] seqs (cf true seqs) k t S) s)).
Lemma fina_lift seqs k t R S s : t = zlen (rw seqs k) - 1 -> 0 < zlen R -> rd R (zlen R - 1) = rd (rw seqs k) t -> fina seqs k t S s = fina [R] 0 (zlen R - 1) S s.
Proof.
  intros Ht HR E. unfold fina. assert (O : forall s, outs [f] (cf true seqs) k s = outs [f] (cf true [R]) 0 s) by (intros; unfold outs; now rewrite !gr_k, !vb_k).
  assert (P : pm [f] seqs (cf true seqs) k t S = pm [f] [R] (cf true [R]) 0 (zlen R - 1) S). { unfold pm. change (rw [R] 0) with R. rewrite Ht, !Z.eqb_refl. f_equal. f_equal. f_equal. induction S as [|s0 S IH]; cbn; [reflexivity|]. now rewrite O, IH. }
  rewrite P. f_equal. f_equal. unfold garcs. rewrite O. apply imap_ext. intros i a. unfold garc. rewrite !gr_k, !vb_k, !AB_k. change (rw [R] 0) with R. now rewrite (frame_rd R (rw seqs k) _ t _ E).
Qed.

Section One.
Context (real : frames) (row : list (option Z)) (H H1 : list (list nst)) (beam : Q) (col : list nst) (nx : list nst).
Notation R := (real ++ [row]).
Notation t := (zlen real).
Notation F := (fina [R] 0 t (map fst col)).
Hypothesis SI : sinv real H t beam.
Hypothesis DR : dense_rows R.
Hypothesis WR : wide stride R.
Hypothesis E1 : rd H t = Some col.
Hypothesis Z1 : zlen H1 = t + 2.
Hypothesis HL : forall i, i < t -> rd H1 i = rd H i.
Hypothesis HC : rd H1 t = Some (map (fun x => (fst x, F (fst x))) col).
Hypothesis HN : rd H1 (t + 1) = Some nx.
Hypothesis Nx : nx = if existsb (fun x => negb (zlen (F (fst x)) =? 0)) col
     then [(mkS (zlen f - 1) (kmax (map i_end (concat (map (garcs [f] [R] (cf false [R]) 0 t (pm [f] [R] (cf false [R]) 0 t (map fst col))) (map fst col))))) None, [])] else [].

Lemma fin_ok : exists pmf, cinv [f] [R] (cf false [R]) 0 pmf H1 (t + 2) /\ forall p z, goodp [f] [R] (cf false [R]) 0 p z -> alive [f] [R] (cf false [R]) 0 p pmf H1.
Proof.
  pose proof (zlen_nonneg real) as Zr. assert (ZR : zlen R = t + 1) by (rewrite zlen_app, zlen_cons, zlen_nil; lia). assert (XR : extends real R) by (exists [row]; split; [discriminate|reflexivity]).
  pose proof (si_len _ _ _ _ _ _ _ _ _ _ _ _ SI) as ZL. destruct (si_col _ _ _ _ _ _ _ _ _ _ _ _ SI R DR WR XR) as (pmf & CI & AL). apply cinv_off in CI.
  set (cR := cf false [R]) in *. set (p0 := pm [f] [R] cR 0 t (map fst col)) in *. set (G := garcs [f] [R] cR 0 t p0) in *. set (K := kmax (map i_end (concat (map G (map fst col))))) in *.
  destruct DR as (Q1 & Q2 & Q3). pose proof (su1 false R WR) as SU. fold cR in SU.
  assert (SF : forall x, In x col -> exists u, s_f (fst x) = Some u) by (intros x Hx; apply (ci_gen _ _ _ _ _ _ _ CI t x); exists col; auto).
  assert (GA : forall s a, In a (G s) -> (exists u, s_f s = Some u) -> is_finite (i_end a) = is_finite (i_ll a) /\ (is_finite (i_end a) = true -> i_dst a = zlen f - 1)).
  { intros s a Ha (u & Hu). destruct (garcs_in [f] [R] cols stride cR SU 0 _ _ _ _ Ha) as (j & b & B1 & B2 & B3 & B4 & B5 & B6 & _). rewrite B6, B4, Hu. split; [destruct (ll _ _ _ _ _); reflexivity|]. intros X. destruct (ll [R] 0 p0 t b) as [w|] eqn:El; [|discriminate].
    destruct (ll_fin [f] [R] cols stride cR SU 0 Q2 Q3 p0 t b w) as (C1 & _); [change (rw [R] 0) with R; lia|eapply rd_In; exact B2| |exact El|].
    - change (rw [R] 0) with R. intros _. lia.
    - rewrite B5. change (gr [f] cR 0) with f in C1. change (vb [f] cR 0) with 0. change (rw [R] 0) with R in C1. rewrite (proj2 C1) by lia. lia. }
  set (nxt := match K with Some _ => [mkS (zlen f - 1) K None] | None => [] end).
  set (sd := fun a => setd a (if is_finite (i_end a) then 0 else -1)).
  set (C0 := map (fun x : nst => (fst x, map sd (G (fst x)))) col).
  assert (KG : forall s a w, In s (map fst col) -> In a (G s) -> i_end a = Some w -> exists M, K = Some M /\ w <= M).
  { intros s a w Hs Ha Hw. assert (Hi : In (Some w) (map i_end (concat (map G (map fst col))))) by (rewrite <- Hw; apply in_map; apply in_concat; eexists; split; [apply in_map; exact Hs|exact Ha]). pose proof (kmax_ge _ _ Hi) as X. fold K in X. destruct K as [M|]; [eauto|destruct X]. }
  assert (KI : forall M, K = Some M -> exists s a, In s (map fst col) /\ In a (G s) /\ i_end a = Some M).
  { intros M HM. unfold K in HM. apply kmax_in in HM. apply in_map_iff in HM as (a & A1 & A2). apply in_concat in A2 as (l & A2 & A3). apply in_map_iff in A2 as (s & <- & A2). eauto. }
  assert (FC : fcol [f] [R] cR 0 t (map fst col) beam C0 nxt (snd (cut_of [f] [R] cR 0 t (map fst col) beam))).
  { set (cut := cut_of [f] [R] cR 0 t (map fst col) beam). assert (Ec : fst cut = K) by reflexivity. assert (Eb : snd cut = inject_Z (10 ^ 10)). { unfold cut, cut_of, new_beam. cbn [snd]. change (c_online cR) with false. change (rw [R] 0) with R. replace (t =? zlen R - 1) with true by lia. reflexivity. }
    split; [reflexivity| | |].
    - apply Forall2_of_rd; [unfold C0; now rewrite !zlen_map|]. intros r s x Hs Hx. unfold C0 in Hx. rewrite rd_map in Hs. rewrite (rd_map (fun x : nst => (fst x, map sd (G (fst x))))) in Hx. destruct (rd col r) as [x0|] eqn:E0; [|discriminate]. injection Hs as <-. injection Hx as <-. cbn [fst snd]. split; [reflexivity|]. fold p0. fold cut. change (garcs [f] [R] cR 0 t p0 (fst x0)) with (G (fst x0)).
      assert (Hx0 : In x0 col) by (eapply rd_In; eauto). apply Forall2_of_rd; [now rewrite zlen_map|]. intros m a a' Ha Ha'. rewrite rd_map, Ha in Ha'. injection Ha' as <-. exists (if is_finite (i_end a) then 0 else -1). split; [reflexivity|].
      destruct (GA (fst x0) a (rd_In _ _ _ Ha) (SF _ Hx0)) as (_ & GD). destruct (i_end a) as [w|] eqn:Ew; [right|left; split; reflexivity]. split; [cbn; lia|]. destruct (KG (fst x0) a w (in_map fst _ _ Hx0) (rd_In _ _ _ Ha) Ew) as (M & EM & LM). unfold nxt. rewrite EM. exists (mkS (zlen f - 1) (Some M) None). split; [reflexivity|]. split; [symmetry; now apply GD|exact LM].
    - intros s' Hs'. unfold nxt in Hs'. destruct K as [M|] eqn:EM; [|destruct Hs']. destruct Hs' as [<-|[]]. cbn [s_b s_a s_f]. split; [reflexivity|]. destruct (KI M eq_refl) as (s & a & A1 & A2 & A3). pose proof A1 as A1'. apply in_map_iff in A1' as (x0 & Ex & Hx0). subst s. destruct (GA (fst x0) a A2 (SF _ Hx0)) as (_ & GD). rewrite A3 in GD. specialize (GD eq_refl).
      split; exists (fst x0), a; (split; [exact A1|]; split; [exact A2|]; split; [exact GD|]); [|exact A3]. fold cut. rewrite A3. unfold above. rewrite Ec, Eb. apply negb_true_iff. destruct (Qle_bool _ _) eqn:Q; [|reflexivity]. apply Qle_bool_iff in Q. exfalso. change (inject_Z (10 ^ 10)) with (10000000000 # 1)%Q in Q. lra.
    - unfold nxt. destruct K; cbn; [constructor; [easy|constructor]|constructor]. }
  set (H0 := firstn (Z.to_nat t) H ++ [C0; map (fun s => (s, [])) nxt]).
  assert (Zf : zlen (firstn (Z.to_nat t) H) = t) by (unfold zlen in *; rewrite firstn_length; lia).
  assert (Z0 : zlen H0 = t + 2) by (unfold H0; rewrite zlen_app, Zf, !zlen_cons, zlen_nil; lia).
  assert (R0 : forall i, i < t -> rd H0 i = rd H i) by (intros i Hi; unfold H0; rewrite rd_app, Zf; replace (i <? t) with true by lia; destruct (Z_lt_le_dec i 0); [destruct i; try lia; reflexivity|apply ExtractProofs.rd_firstn; lia]).
  assert (R1 : rd H0 t = Some C0) by (unfold H0; rewrite rd_app_r by lia; rewrite Zf, Z.sub_diag; apply rd_cons_0).
  assert (R2 : rd H0 (t + 1) = Some (map (fun s => (s, [])) nxt)) by (unfold H0; rewrite rd_app_r by lia; replace (t + 1 - zlen (firstn (Z.to_nat t) H)) with (0 + 1) by lia; rewrite rd_cons_S by lia; apply rd_cons_0).
  assert (C1 : cinv [f] [R] cR 0 (pmf' [f] [R] cR 0 pmf t col) H0 t) by (eapply (cinv_fwd [f] [R] cols stride cR SU 0 ltac:(split; [lia|reflexivity]) Q2 Q3 pmf H H0); eauto; lia).
  assert (cases : forall i x, on H0 i x -> (i < t /\ on H i x) \/ (i = t /\ In x C0) \/ (i = t + 1 /\ snd x = [])).
  { intros i x (q & Hq & Hx). pose proof (rd_Some_bound _ _ _ Hq). assert (i < t \/ i = t \/ i = t + 1) as [D|[D|D]] by lia.
    - left. split; [exact D|]. exists q. rewrite R0 in Hq by exact D. auto.
    - right. left. subst i. rewrite R1 in Hq. injection Hq as <-. auto.
    - right. right. subst i. rewrite R2 in Hq. injection Hq as <-. apply in_map_iff in Hx as (s & <- & _). auto. }
  assert (CL : forall i x y, on H0 i x -> In y (snd x) -> 0 <= i_dst y -> exists w, i_ll y = Some w).
  { intros i x y Hx Hy Hd. destruct (cases i x Hx) as [(D & Ho)|[(D & Hi)|(D & Hi)]].
    - apply (ci_clean _ _ _ _ _ _ _ CI i x y Ho Hy D).
    - unfold C0 in Hi. apply in_map_iff in Hi as (x0 & <- & Hx0). cbn [snd] in Hy. apply in_map_iff in Hy as (a & <- & Ha). destruct (GA (fst x0) a Ha (SF _ Hx0)) as (G1 & _). unfold sd in Hd |- *. cbn [setd i_dst i_ll] in *. rewrite G1 in Hd. destruct (i_ll a); [eauto|cbn in Hd; lia].
    - rewrite Hi in Hy. destruct Hy. }
  assert (EQ : map (map flt) H0 = H1).
  { apply list_ext_rd; [rewrite zlen_map; lia|]. intros i Hi. rewrite zlen_map, Z0 in Hi. rewrite rd_map. assert (i < t \/ i = t \/ i = t + 1) as [D|[D|D]] by lia.
    - rewrite HL, R0 by exact D. destruct (rd H i) as [q|] eqn:E; [|reflexivity]. cbn. f_equal. rewrite <- (map_id q) at 2. apply map_ext_in. intros x Hx. unfold flt. destruct x as [s l]. cbn [fst snd]. f_equal. assert (Q : forall y, In y l -> 0 <= i_dst y) by (intros y Hy; apply (ci_clean _ _ _ _ _ _ _ CI i (s, l) y); [exists q; auto|exact Hy|exact D]).
      clear - Q. induction l as [|y l IH]; cbn; [reflexivity|]. replace (0 <=? i_dst y) with true by (specialize (Q y (or_introl eq_refl)); lia). f_equal. apply IH. intros z Hz. apply Q. now right.
    - subst i. rewrite R1, HC. cbn. f_equal. unfold C0. rewrite map_map. apply map_ext_in. intros x Hx. unfold flt. cbn [fst snd]. f_equal. unfold fina.
      assert (Q : forall a, In a (G (fst x)) -> is_finite (i_end a) = is_finite (i_ll a)) by (intros a Ha; apply (GA (fst x) a Ha (SF _ Hx))). change (garcs [f] [R] (cf true [R]) 0 t (pm [f] [R] (cf true [R]) 0 t (map fst col)) (fst x)) with (G (fst x)). clear - Q.
      induction (G (fst x)) as [|a l IH]; [reflexivity|]. cbn [map filter]. assert (Es : sd a = setd a (if is_finite (i_ll a) then 0 else -1)) by (unfold sd; now rewrite (Q a (or_introl eq_refl))). rewrite Es. cbn [setd i_dst]. rewrite IH by (intros z Hz; apply Q; now right). destruct (is_finite (i_ll a)); reflexivity.
    - subst i. rewrite R2, HN, Nx. cbn. f_equal. fold cR. fold p0. fold G. fold K. unfold nxt. destruct K as [M|] eqn:EM.
      + destruct (KI M eq_refl) as (s & a & A1 & A2 & A3). apply in_map_iff in A1 as (x0 & <- & Hx0). destruct (GA (fst x0) a A2 (SF _ Hx0)) as (GE & _). rewrite A3 in GE. replace (existsb _ col) with true; [reflexivity|]. symmetry. apply existsb_exists. exists x0. split; [exact Hx0|]. unfold fina. change (garcs [f] [R] (cf true [R]) 0 t (pm [f] [R] (cf true [R]) 0 t (map fst col)) (fst x0)) with (G (fst x0)).
        rewrite zlen_map. assert (Hin : In a (filter (fun a => is_finite (i_ll a)) (G (fst x0)))) by (apply filter_In; split; [exact A2|now rewrite <- GE]). destruct (filter _ _) as [|b l]; [destruct Hin|]. rewrite zlen_cons. pose proof (zlen_nonneg l). lia.
      + replace (existsb _ col) with false; [reflexivity|]. symmetry. apply not_true_is_false. intros X. apply existsb_exists in X as (x0 & Hx0 & X). unfold fina in X. change (garcs [f] [R] (cf true [R]) 0 t (pm [f] [R] (cf true [R]) 0 t (map fst col)) (fst x0)) with (G (fst x0)) in X.
        rewrite zlen_map in X. destruct (filter (fun a => is_finite (i_ll a)) (G (fst x0))) as [|a l] eqn:Ef; [discriminate|]. assert (Ha : In a (filter (fun a => is_finite (i_ll a)) (G (fst x0)))) by (rewrite Ef; now left). apply filter_In in Ha as (Ha & Hf). destruct (GA (fst x0) a Ha (SF _ Hx0)) as (GE & _). rewrite Hf in GE. destruct (i_end a) as [w|] eqn:Ew; [|discriminate].
        destruct (KG (fst x0) a w (in_map fst _ _ Hx0) Ha Ew) as (M & EM' & _). discriminate. }
  exists (pmf' [f] [R] cR 0 pmf t col). split.
  - rewrite <- EQ. rewrite <- Z0. eapply cinv_filter; eauto.
  - intros p z GP. rewrite <- EQ. apply alive_filter. destruct (AL p z (goodp_on _ _ _ GP)) as (AL1 & AL2). destruct GP as [G1 G2 G3 G4 G5 G6 G7]. change (rw [R] 0) with R in *.
    eapply (alive_fwd [f] [R] cols stride cR SU 0 Q1 Q2 Q3 p z G1 G2 G3 G4 G5 G6 Hsb G7 pmf H H0); eauto; try lia. intros _. apply AL2. lia.
Qed.

Lemma stream_ok am bm : let ext := 1 - zlen nx in
  (forall i, 0 <= i < zlen (all_arcs (IPrunedPath.pg [f] [R] cols (cf false [R]) 0 H1 0 ext)) -> am i = IPrunedPath.pam [f] [R] cols (cf false [R]) 0 H1 0 ext i /\ bm i = IPrunedPath.pbm [f] [R] cols (cf false [R]) 0 H1 0 ext i) ->
  is_pruned_intersection f R sb ob maxa partial (fun t l => t * cols + (l + 1)) (IPrunedPath.pg [f] [R] cols (cf false [R]) 0 H1 0 ext) am bm.
Proof.
  intros ext EA. destruct fin_ok as (pmf & CI & AL). destruct DR as (Q1 & Q2 & Q3). assert (ZR : zlen R = t + 1) by (rewrite zlen_app, zlen_cons, zlen_nil; lia). destruct Vf as (_ & Vn & _). unfold nstates in Vn.
  apply (one_ok [f] [R] cols stride (cf false [R]) (su1 false R WR) 0 ltac:(split; [lia|reflexivity]) Q1 Q2 Q3 pmf H1 (t + 2) CI Z1 ltac:(change (rw [R] 0) with R; lia) AL 0 ext nx).
  - change (rw [R] 0) with R. rewrite ZR. exact HN.
  - rewrite Nx. destruct (existsb _ _); vm_compute; discriminate.
  - change (gr [f] (cf false [R]) 0) with f. replace (0 <? zlen f) with true by lia. cbn [b2z]. unfold ext. lia.
  - exact EA.
Qed.
End One.
End Online.
