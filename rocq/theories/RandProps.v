(** * C34: random_paths. *)
From Coq Require Import ZArith List Lia Lra Bool Reals Permutation.
From Coq Require Import ZifyBool ZifyNat.
From Verif Require Import Base RaggedModel RaggedSpec RaggedProofs FsaSpec FsaLemmas EpsLoopProofs RaggedOpsModel RaggedOpsSpec RaggedOpsProofs RaggedCatProofs
  PropsSpec PropsProofs PropsProps ReverseProofs ConnectSpec ConnectProofs ExtractProofs ConnectProps TopSortProofs TopSortRun LogReal MutualInfoProofs
  BatchModel TransposeProofs BatchProofs BatchRun BatchProps ScoreModel ScoreSpec PathSums ScoreProofs ScoreRun ScorePaths ScoreProps RandModel RandSpec CdfProofs RandWalk RandRun GradProps.
Import ListNotations.
Open Scope Z_scope.

Lemma choose_list {A} n (P : Z -> A -> Prop) : 0 <= n -> (forall i, 0 <= i < n -> exists x, P i x) -> exists l, zlen l = n /\ forall i x, rd l i = Some x -> P i x.
Proof.
  intros Hn H. assert (G : forall m, Z.of_nat m <= n -> exists l, zlen l = Z.of_nat m /\ forall i x, rd l i = Some x -> P i x).
  { induction m as [|m IH]; intros Hm; [exists []; split; auto; intros i x E; rewrite rd_nil in E; discriminate|]. destruct (IH ltac:(lia)) as (l & L & Q). destruct (H (Z.of_nat m) ltac:(lia)) as (x & Hx). exists (l ++ [x]).
    split; [rewrite zlen_app, L; change (zlen [x]) with 1; lia|]. intros i y E. pose proof (rd_Some_bound _ _ _ E) as B. rewrite zlen_app in B. change (zlen [x]) with 1 in B. destruct (Z_lt_le_dec i (zlen l)).
    - rewrite rd_app_l in E by lia. now apply Q.
    - rewrite rd_app_r in E by lia. replace (i - zlen l) with 0 in E by lia. injection E as <-. now replace i with (Z.of_nat m) by lia. }
  destruct (G (Z.to_nat n) ltac:(lia)) as (l & L & Q). exists l. split; auto. lia.
Qed.

(** The cumulative distribution of GetArcCdf: for each state, the entry of its
    t-th arc times the total posterior of the state's arcs is the total posterior
    of the earlier arcs of that state. *)
Theorem C34_arc_cdf (fs : list nfsa) (scores : list (option R)) lp sched ord :
  Forall well_formed fs -> Forall p_topsorted_acyclic fs -> zlen (concat fs) < int_max -> zlen scores = zlen (concat (concat fs)) ->
  is_sched (zlen fs * 2 ^ Z.of_nat lp) sched -> fair ord ->
  exists post cdf, get_arc_post true lp sched ord (flat_vec fs) scores = Some post /\ get_arc_cdf ord (flat_vec fs) post = Some cdf /\ zlen cdf = zlen (concat (concat fs)) /\
    forall s r t, rd (concat fs) s = Some r -> 0 <= t < zlen r ->
      let pst i := match rd post (off1 (concat fs) s + i) with Some x => expo x | None => 0%R end in
      exists c, rd cdf (off1 (concat fs) s + t) = Some c /\ (c * sumf pst (zrange (zlen r)) = sumf pst (zrange t))%R.
Proof.
  intros WF TS SM LS SC FO. destruct (post_run true fs scores lp sched ord WF TS SM LS SC FO) as (post & EP & LP & _). exists post, (tab (zlen (concat (concat fs))) (cd (concat fs) post)).
  split; auto. split; [apply get_arc_cdf_ok; auto|]. split; [apply zlen_tab, zlen_nonneg|]. intros s r t Hs Ht pst. exists (CC (concat fs) post s t). split; [apply (rd_cdf (concat fs) post s r Hs t Ht)|].
  assert (E : forall m, 0 <= m <= zlen r -> sumf pst (zrange m) = pre (concat fs) post s m).
  { intros m Hm. unfold pre. apply sumf_ext. intros i Hi. apply in_zrange in Hi. unfold pst, EE, pq. destruct (row_pos (concat fs) s r i Hs ltac:(lia)) as (B & _). destruct (rd_in_bound post (off1 (concat fs) s + i)) as (x & ->); auto. lia. }
  rewrite !E by lia. assert (EP' : pre (concat fs) post s (zlen r) = PP (concat fs) post s) by (unfold PP, rowlen; now rewrite Hs). rewrite EP'. unfold CC. destruct (Req_EM_T (PP (concat fs) post s) 0) as [Z0|NZ]; [|field; auto].
  rewrite Z0. pose proof (pre_mono (concat fs) post s t (zlen r) ltac:(lia)). pose proof (pre_nonneg (concat fs) post s t). rewrite EP', Z0 in *. lra.
Qed.
Print Assumptions C34_arc_cdf.

(** ** C34 *)
(** For every batch of well-formed, top-sorted acyclic FSAs none of which has
    exactly one state (see [C34_one_state_refuted]), any scores (including -inf),
    on CPU or GPU and for any schedule: [random_paths] returns a ragged list with
    axes [fsa][path][arc].  FSA k gets [n] paths, or none when its total score is
    -inf.  All are successful paths of that FSA.  The i-th is the one whose interval
    contains (i + 1/2)/n of the total weight when the paths are laid out
    in lexicographic order, each on an interval as long as the exponential of its
    score: paths are systematic samples, in proportion to their probabilities. *)
Theorem C34_random_paths (gpu : bool) (fs : list nfsa) (scores : list (option R)) lp sched ord (n : Z) :
  Forall well_formed fs -> Forall p_topsorted_acyclic fs -> zlen (concat fs) < int_max -> zlen scores = zlen (concat (concat fs)) ->
  is_sched (zlen fs * 2 ^ Z.of_nat lp) sched -> fair ord -> 0 < n -> (forall f, In f fs -> nstates f <> 1) ->
  exists (ps : list (list (list Z))),
    (let out := imap (fun k paths => map (map (fun j => off1 (map all_arcs fs) k + j)) paths) 0 ps in
     random_paths gpu lp sched ord (flat_vec fs) scores n = Some (splits_of out, splits_of (concat out), concat (concat out))) /\
    zlen ps = zlen fs /\
    forall k f, rd fs k = Some f -> exists tot paths,
      rd ps k = Some paths /\ path_sum true (arc_score fs scores k) (successful f) tot /\
      zlen paths = (match tot with None => 0 | Some _ => n end) /\
      forall i p, rd paths i = Some p -> successful f p /\
        exists before, path_sum true (arc_score fs scores k) (fun p' => successful f p' /\ lex_lt p' p) before /\
          (expo before <= (IZR i + 1 / 2) / IZR n * expo tot < expo before + expo (pweight (arc_score fs scores k) p))%R.
Proof.
  intros WF TS SM LS SC FO Hn N1. destruct (post_run true fs scores lp sched ord WF TS SM LS SC FO) as (post & EP & LP & HP). unfold random_paths. replace (0 <? n) with true by lia.
  rewrite EP, (tot_run true fs scores lp sched ord WF TS SM LS SC FO), (sbatches_run fs WF TS ltac:(lia) lp sched SC). rewrite (get_arc_cdf_ok (concat fs) post (flat_vec fs) eq_refl eq_refl LP ord FO).
  set (cdf := tab (zlen (concat (concat fs))) (cd (concat fs) post)). change (l_rs (lay (sbatches fs))) with (splits_of (sbatches fs)). change (l_rs (lay (concat (sbatches fs)))) with (splits_of (concat (sbatches fs))).
  set (T := Tot fs scores true). set (cnt := fun k => if is_ninf (T k) then 0 else n).
  (* one path *)
  assert (W1 : forall k f i, rd fs k = Some f -> 0 <= i < cnt k -> exists p, rp_walk gpu (flat_vec fs) cdf (off1 fs k) (off1 fs k + zlen f - 1) (Z.to_nat (zlen (ivs fs k f) + 1)) (off1 fs k) ((1 / 2 + IZR i) / IZR n)%R = Some (map (fun j => abase fs k + j) p) /\
     0 < zlen p < zlen (ivs fs k f) /\ successful f p /\ exists before, path_sum true (arc_score fs scores k) (fun p' => successful f p' /\ lex_lt p' p) before /\ (expo before <= (IZR i + 1 / 2) / IZR n * expo (T k) < expo before + expo (pweight (arc_score fs scores k) p))%R).
  { intros k f i Hk Hi. unfold cnt in Hi. destruct (is_ninf (T k)) eqn:EN; [lia|]. assert (ET : exists x, T k = Some x) by (destruct (T k); [eauto|discriminate]). destruct ET as (x & Hx).
    assert (TP : (0 < expo (Tot fs scores true k))%R) by (fold T; rewrite Hx; apply exp_pos). pose proof (N1 f (rd_In _ _ _ Hk)) as N1'. unfold nstates in N1'.
    assert (L0 : 0 < zlen f). { pose proof (zlen_nonneg f). destruct (Z.eq_dec (zlen f) 0) as [Z0|]; [|lia]. exfalso. unfold T, Tot in Hx. rewrite Hk, Z0 in Hx. discriminate. }
    assert (F0 : (0 < expo (Fw fs scores true (off1 fs k + 0)))%R).
    { destruct (path_sum_In _ _ _ _ 0%R _ (Fw_sum fs WF TS scores k f true 0 Hk ltac:(lia)) (ap_nil f 0) eq_refl) as (y & -> & _). apply exp_pos. }
    assert (B0 : Bw fs scores true (off1 fs k + 0) = T k).
    { eapply path_sum_unique; [apply (Bw_sum fs WF TS scores k f true 0 Hk); lia|]. eapply path_sum_ext; [|apply (Tot_sum true fs scores k f WF TS Hk)]. intros p. unfold successful, nstates. intuition lia. }
    assert (IN : (0 < IZR n)%R) by (apply IZR_lt; lia). assert (I1 : (0 <= IZR i)%R) by (apply IZR_le; lia). assert (I2 : (IZR i + 1 <= IZR n)%R) by (rewrite <- plus_IZR; apply IZR_le; lia).
    assert (PB : (0 <= (1 / 2 + IZR i) / IZR n < 1)%R).
    { split; [apply Rmult_le_pos; [lra|left; now apply Rinv_0_lt_compat]|]. apply (Rmult_lt_reg_r (IZR n)); auto. unfold Rdiv at 1. rewrite Rmult_assoc, Rinv_l by lra. lra. }
    destruct (walk_ok fs WF TS scores post HP k f Hk TP (bnum fs k f) (zlen (ivs fs k f)) (fun s Hs => proj1 (bnum_in fs WF TS ltac:(lia) k f s Hk Hs)) (fun a Ha => bnum_up fs WF TS ltac:(lia) k f a Hk Ha) gpu (Z.to_nat (zlen (ivs fs k f) + 1)) 0 ((1 / 2 + IZR i) / IZR n)%R)
      as (p & lo & E & PA & PS & BD & LN); auto; try lia.
    { rewrite B0, Hx. apply exp_pos. }
    { pose proof (proj1 (bnum_in fs WF TS ltac:(lia) k f 0 Hk ltac:(lia))). pose proof (zlen_nonneg (ivs fs k f)). lia. }
    rewrite Z.add_0_r in E. exists p. split; auto. pose proof (proj1 (bnum_in fs WF TS ltac:(lia) k f 0 Hk ltac:(lia))) as BN0. split; [|split; [|]].
    - split; [|lia]. pose proof (zlen_nonneg p). destruct p as [|j p]; [|rewrite zlen_cons; pose proof (zlen_nonneg p); lia]. exfalso. inversion PA. unfold nstates in *. lia.
    - split; [unfold nstates; lia|auto].
    - exists lo. rewrite B0 in BD. split; [eapply path_sum_ext; [|exact PS]|].
      + intros p'. unfold successful, nstates. intuition lia.
      + replace ((IZR i + 1 / 2) / IZR n)%R with ((1 / 2 + IZR i) / IZR n)%R by (unfold Rdiv; lra). auto. }
  destruct (choose_list (zlen fs) (fun k (x : list (list Z)) => zlen x = cnt k /\ forall f, rd fs k = Some f -> forall i p, rd x i = Some p ->
     rp_walk gpu (flat_vec fs) cdf (off1 fs k) (off1 fs k + zlen f - 1) (Z.to_nat (zlen (ivs fs k f) + 1)) (off1 fs k) ((1 / 2 + IZR i) / IZR n)%R = Some (map (fun j => abase fs k + j) p) /\
     0 < zlen p < zlen (ivs fs k f) /\ successful f p /\ exists before, path_sum true (arc_score fs scores k) (fun p' => successful f p' /\ lex_lt p' p) before /\ (expo before <= (IZR i + 1 / 2) / IZR n * expo (T k) < expo before + expo (pweight (arc_score fs scores k) p))%R)
     (zlen_nonneg fs)) as (ps & LPs & Hps).
  { intros k Hk. destruct (rd_in_bound fs k Hk) as (f & Hf). destruct (choose_list (cnt k) _ ltac:(unfold cnt; destruct (is_ninf (T k)); lia) (fun i Hi => W1 k f i Hf Hi)) as (x & Lx & Hx). exists x. split; auto. intros f' Hf'. assert (f' = f) by congruence. subst f'. exact Hx. }
  exists ps. cbv zeta. split; [|split; auto].
  - set (out := imap (fun k paths => map (map (fun j => off1 (map all_arcs fs) k + j)) paths) 0 ps). assert (LO : zlen out = zlen fs) by (unfold out; now rewrite zlen_imap).
    assert (RO : forall k x, rd out k = Some x -> exists y, rd ps k = Some y /\ x = map (map (fun j => abase fs k + j)) y) by (intros k x E; unfold out in E; rewrite rd_imap in E; destruct (rd ps k) as [y|]; [|discriminate]; injection E as <-; exists y; split; auto).
    replace (num_paths_of n (tab (zlen fs) T)) with (map zlen out).
    2:{ apply list_ext_rd; [unfold num_paths_of; rewrite !zlen_map, zlen_tab, LO by apply zlen_nonneg; auto|]. intros k Hk. rewrite zlen_map, LO in Hk. unfold num_paths_of. rewrite !rd_map, rd_tab by lia. destruct (rd_in_bound out k ltac:(lia)) as (x & Hx). rewrite Hx. destruct (RO k x Hx) as (y & Hy & ->). cbn [option_map]. rewrite zlen_map. destruct (Hps k y Hy) as (-> & _). reflexivity. }
    apply (asm_ok out (map zlen (batches_of fs))); auto.
    + rewrite zlen_map, zlen_X. auto.
    + intros k b E. rewrite rd_map in E. destruct (rd (batches_of fs) k); [|discriminate]. injection E as <-. apply zlen_nonneg.
    + intros k x b p Hx Hb Ip. destruct (RO k x Hx) as (y & Hy & ->). destruct (rd_in_bound fs k ltac:(apply rd_Some_bound in Hx; lia)) as (f & Hf). rewrite rd_map, (rd_X fs k f Hf) in Hb. injection Hb as <-. apply in_map_iff in Ip as (p' & <- & Ip). rewrite zlen_map.
      apply In_rd in Ip as (i & _ & Hi). now apply (proj2 (Hps k y Hy) f Hf i p' Hi).
    + unfold cdf. apply zlen_tab, zlen_nonneg.
    + intros k f x b i p Hf Hx Hb Hi. destruct (RO k x Hx) as (y & Hy & ->). rewrite rd_map, (rd_X fs k f Hf) in Hb. injection Hb as <-. rewrite rd_map in Hi. destruct (rd y i) as [p'|] eqn:Ei; [|discriminate]. injection Hi as <-.
      destruct (Hps k y Hy) as (Ly & Q). destruct (Q f Hf i p' Ei) as (Q1 & _). rewrite zlen_map, Ly. pose proof (rd_Some_bound _ _ _ Ei) as Bi. rewrite Ly in Bi. unfold cnt in *. destruct (is_ninf (T k)); [lia|auto].
    + rewrite LO. apply nsb_ok; auto. lia.
  - intros k f Hk. destruct (rd_in_bound ps k ltac:(apply rd_Some_bound in Hk; lia)) as (y & Hy). destruct (Hps k y Hy) as (Ly & Q). exists (T k), y. split; auto. split; [apply (Tot_sum true fs scores k f WF TS Hk)|].
    split; [rewrite Ly; unfold cnt; now destruct (T k)|]. intros i p Hi. now destruct (Q f Hk i p Hi) as (_ & _ & Q3 & Q4).
Qed.
Print Assumptions C34_random_paths.

(** Two paths of equal weight, two samples: one each. *)
Definition sc34 : list (option R) := repeat (Some 0%R) 6.
Lemma f32a_w p : successful BatchProps.f32a p -> expo (pweight (arc_score fs30 sc34 0) p) = 1%R.
Proof. intros H. destruct (GradProps.f32a_paths p H) as [-> | ->]; cbv -[Rplus IZR exp]; rewrite !Rplus_0_r; apply exp_0. Qed.
Lemma f32a_sum (P : list Z -> Prop) (x : option R) (L : list (list Z)) : NoDup L -> (forall p, P p <-> In p L) -> (forall p, In p L -> successful BatchProps.f32a p) -> path_sum true (arc_score fs30 sc34 0) P x -> expo x = IZR (zlen L).
Proof.
  intros ND HL HS (L' & N' & H' & ->). rewrite expo_ssum, sumf_map. assert (PL : Permutation L' L) by (apply NoDup_Permutation; auto; intros p; rewrite H'; apply HL).
  rewrite (sumf_perm _ _ _ PL). clear - HS. induction L as [|p L IH]; [reflexivity|]. rewrite sumf_cons, f32a_w by (apply HS; now left). rewrite IH by (intros; apply HS; now right). rewrite zlen_cons, plus_IZR. reflexivity.
Qed.
Example C34_ex gpu : exists ps r, random_paths gpu 2 (rev (zrange 12)) rev_ord (flat_vec fs30) sc34 2 = Some r /\ rd ps 0 = Some [[0; 2; 4]; [1; 3; 4]] /\
  r = (let out := imap (fun k paths => map (map (fun j => off1 (map all_arcs fs30) k + j)) paths) 0 ps in (splits_of out, splits_of (concat out), concat (concat out))).
Proof.
  destruct fs30_ok as (W & T & S & _ & SC & FO). destruct (C34_random_paths gpu fs30 sc34 2 (rev (zrange 12)) rev_ord 2 W T S eq_refl SC FO ltac:(lia)) as (ps & E & _ & H).
  { intros f [<- | [<- | [<- | []]]]; discriminate. }
  eexists ps, _. split; [exact E|]. split; [|reflexivity]. destruct (H 0 BatchProps.f32a eq_refl) as (tot & paths & R & PT & LP & Q). rewrite R. f_equal.
  destruct fs30_paths as (S1 & S2 & _ & _). assert (ND : NoDup [[0; 2; 4]; [1; 3; 4]]) by (repeat constructor; cbn; intuition discriminate).
  assert (ET : expo tot = 2%R).
  { apply (f32a_sum _ _ [[0; 2; 4]; [1; 3; 4]]) in PT; auto.
    - intros p. split; [intros Hp; destruct (GradProps.f32a_paths p Hp) as [-> | ->]; cbn; auto|intros [<- | [<- | []]]; auto].
    - intros p [<- | [<- | []]]; auto. }
  assert (L2 : zlen paths = 2) by (destruct tot; [auto|cbn in ET; lra]). destruct paths as [|p0 [|p1 [|]]]; unfold zlen in L2; cbn [length] in L2; try lia.
  destruct (Q 0 p0 eq_refl) as (P0 & b0 & B0 & I0). destruct (Q 1 p1 eq_refl) as (P1 & b1 & B1 & I1). rewrite ET, f32a_w in I0, I1 by auto.
  destruct (GradProps.f32a_paths p0 P0) as [-> | ->].
  - f_equal. destruct (GradProps.f32a_paths p1 P1) as [-> | ->]; auto. exfalso. apply (f32a_sum _ _ []) in B1; [|constructor| |intros p []].
    + change (IZR (zlen (@nil (list Z)))) with 0%R in B1. lra.
    + intros p. split; [|intros []]. intros (Hp & Hl). destruct (GradProps.f32a_paths p Hp) as [-> | ->]; cbn in Hl; lia.
  - exfalso. apply (f32a_sum _ _ [[0; 2; 4]]) in B0.
    + change (IZR (zlen [[0; 2; 4]])) with 1%R in B0. lra.
    + repeat constructor. intros [].
    + intros p. split.
      * intros (Hp & Hl). destruct (GradProps.f32a_paths p Hp) as [-> | ->]; cbn in Hl; [now left|lia].
      * intros [<- | []]. split; auto. cbn. lia.
    + intros p [<- | []]. auto.
Qed.

(** An FSA whose only state is both the start and the final state has total score
    0, so a path is drawn, the empty one; the check that paths have at least one
    arc then fails. *)
Theorem C34_one_state_refuted gpu : exists (fs : list nfsa),
  Forall well_formed fs /\ Forall p_topsorted_acyclic fs /\ (forall f, In f fs -> successful f []) /\
  random_paths gpu 0 [0] zrange (flat_vec fs) [] 1 = None.
Proof.
  exists [[[]]]. assert (W : Forall well_formed [[[]] : nfsa]).
  { repeat constructor; cbn; try tauto. intros i st a H. apply rd_In in H. destruct H as [<- | []]. intros []. }
  assert (T : Forall p_topsorted_acyclic [[[]] : nfsa]) by (repeat constructor; intros a []).
  split; auto. split; auto. split; [intros f [<- | []]; split; [cbv; congruence|constructor]|].
  assert (SC : is_sched (zlen [[[]] : nfsa] * 2 ^ Z.of_nat 0) [0]) by (unfold is_sched; apply Permutation_refl). assert (FO : fair zrange) by (intros n; unfold is_sched; apply Permutation_refl).
  unfold random_paths. destruct (post_run true [[[]]] [] 0 [0] zrange W T eq_refl eq_refl SC FO) as (post & -> & LP & _). apply zlen_0_nil in LP. subst post.
  rewrite (get_arc_cdf_ok (concat [[[]]]) [] (flat_vec [[[]]]) eq_refl eq_refl eq_refl zrange FO), (tot_run true [[[]]] [] 0 [0] zrange W T eq_refl eq_refl SC FO).
  rewrite (sbatches_run [[[]]] W T ltac:(cbv; congruence) 0 [0] SC).
  assert (PS : path_sum true (arc_score [[[]]] [] 0) (successful [[]]) (Tot [[[]]] [] true 0)) by now apply Tot_sum.
  destruct (path_sum_In _ _ _ [] 0%R _ PS) as (y & EY & _); [split; [cbv; congruence|constructor]|reflexivity|].
  change (tab (zlen [[[]] : nfsa]) (Tot [[[]]] [] true)) with [Tot [[[]]] [] true 0]. rewrite EY. change (num_paths_of 1 [Some y]) with [1].
  replace (l_rs (lay (sbatches [[[]]]))) with [0; 1] by reflexivity. replace (l_rs (lay (concat (sbatches [[[]]])))) with [0; 1] by reflexivity.
  destruct gpu; reflexivity.
Qed.
Print Assumptions C34_one_state_refuted.
