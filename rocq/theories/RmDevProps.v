(** * C27: the device version of remove_epsilon *)
From Coq Require Import ZArith List Lia Bool Permutation Sorted.
From Coq Require Import ZifyBool ZifyNat.
From Verif Require Import Base RaggedModel RaggedSpec RaggedProofs FsaSpec FsaLemmas FsaOpsModel OpsModel ScoreSpec ShortestSpec IntersectPaths PropsModel PropsSpec PropsProps ConnectProofs ExtractProofs ReverseModel ReverseProps VecElement RmEpsSpec DetProps RmDevSpec
  RmDevModel RmDevRagged RmDevEnc RmDevIter RmDevStep RmDevClos RmDevMap RmDevComb RmDevLang RmDevRun RmDevLocal.
Import ListNotations.
Open Scope Z_scope.

Section Bridge.
Variable fs : list nfsa.
Notation N := (NS fs).
Hypothesis HV : forall f, In f fs -> valid f \/ f = [].
Notation E := (Rs (R0 fs) true).
Lemma to_uniq : zlen fs <= 1 \/ (forall f, In f fs -> no_parallel_eps f) -> uniq fs E.
Proof.
  intros [H|H]; [now left|right]. intros o B. destruct (rd_in_bound (concat fs) o B) as (st & Hs). destruct (row_fsa fs HV o st Hs) as (i & f & F1 & _ & _ & _ & F5 & _). pose proof (H f (rd_In _ _ _ F1) st (rd_In _ _ _ F5)) as ND.
  assert (EQ : map idst (E o) = map (Z.add (so fs o)) (map dst (filter (fun a => lab a =? 0) st))).
  { unfold Rs, R0. rewrite Hs. assert (G : forall (st : list arc) k, map idst (filter (PL true) (imap (fun k a => (mkArc o (so fs o + dst a) (lab a) (sc a), [off1 (concat fs) o + k])) k st)) = map (Z.add (so fs o)) (map dst (filter (fun a => lab a =? 0) st))); [|apply G].
    clear. induction st as [|a st IH]; intros k; [reflexivity|]. cbn [imap filter]. unfold PL at 1. cbn [fst lab label_keep]. destruct (lab a =? 0); cbn [map]; rewrite IH; reflexivity. }
  rewrite EQ. apply FinFun.Injective_map_NoDup; [intros x y Q; lia|exact ND].
Qed.
Lemma E_R0 o p t : ipath E o p t <-> ipath (R0 fs) o p t /\ forall x, In x p -> ilab x = 0.
Proof.
  split.
  - intros H. split; [eapply ipath_mono; [|exact H]; intros ? ? Q; now apply (in_E fs (R0 fs) (rng0 fs)) in Q|]. apply (E_lab fs (R0 fs) (rng0 fs) o p t H).
  - intros (H & L). apply (epath fs); auto. apply rng0.
Qed.
Lemma to_npc : (forall f, In f fs -> no_positive_eps_cycle f) -> forall o p, 0 <= o < N -> ipath E o p o -> psc p <= 0.
Proof.
  intros H o p B HP. apply E_R0 in HP as (HP & LP). destruct (fid_ok fs o B) as (i & f & F1 & _ & _ & _ & F5). destruct (down fs i f F1 T (R0 fs) (wf0 fs HV) o p o HP F5) as (q & Q1 & Q2). pose proof (at_gi fs i f T (R0 fs) q p Q2) as A1. rewrite (gi0 fs i f F1 HV) in Q1, A1. pose proof (H f (rd_In _ _ _ F1) _ q Q1) as Q. rewrite A1, sc_enc in Q. apply Q. intros a Ha. apply in_map_iff in Ha as (x & <- & Hx). now apply LP.
Qed.
Lemma of_npc : (forall o p, 0 <= o < N -> ipath E o p o -> psc p <= 0) -> forall f, In f fs -> no_positive_eps_cycle f.
Proof.
  intros H f Hf s p HP LP. apply In_rd in Hf as (i & _ & F1). destruct p as [|j p]; [cbn; lia|].
  assert (BS : 0 <= s < zlen f).
  { inversion HP; subst. assert (IA : In a (all_arcs f)) by (eapply rd_In; eauto). apply in_concat in IA as (st & I1 & I2). apply In_rd in I1 as (r & Br & Hr). destruct (HV f (rd_In _ _ _ F1)) as [(V1 & _)| ->]; [|rewrite rd_nil in Hr; discriminate]. rewrite (V1 r st a Hr I2). exact Br. }
  pose proof (gi0 fs i f F1 HV) as G. rewrite <- G in HP. pose proof (off1_nonneg fs i) as OB.
  destruct (up fs i f F1 T (R0 fs) (wf0 fs HV) _ _ _ HP (off1 fs i + s)) as (xs & o' & X1 & X2 & X3 & X4 & _); [unfold inb; lia|reflexivity|rewrite !nwT by lia; lia|]. unfold inb in X4. rewrite !nwT in X3 by lia. assert (o' = off1 fs i + s) by lia. subst o'. pose proof (at_gi fs i f T (R0 fs) _ xs X1) as A1. rewrite G in A1. rewrite A1, sc_enc. rewrite A1 in LP. apply (H (off1 fs i + s)).
  - apply (inb_ok fs i f F1). unfold inb. lia.
  - apply E_R0. split; [exact X2|]. intros x Hx. apply (LP (enc fs T x)). now apply in_map.
Qed.
Lemma to_batch r : result fs r -> removed_batch fs r /\ forall f, In f fs -> no_positive_eps_cycle f.
Proof.
  intros (C & R' & HC & WR & HR & -> & HS). split; [|apply of_npc; apply HC]. set (Kn := Ks fs (R0 fs) false) in *.
  exists (gsof fs Kn R'), (map (fun l => map snd (concat (map R' l))) (Lg fs Kn)). split; [|split; [|split]].
  - f_equal. rewrite <- (rows_concat fs Kn R' WR), <- concat_Lg. generalize (Lg fs Kn). induction l as [|a l IH]; [reflexivity|]. cbn. now rewrite map_app, concat_app, map_app, IH.
  - unfold gsof. rewrite zlen_map. apply zlen_Lg.
  - rewrite zlen_map. apply zlen_Lg.
  - intros i f g d Hf Hg Hd. rewrite (rd_gsi fs i f Hf) in Hg. injection Hg as <-. rewrite rd_map, (rd_Lgi fs i f Hf) in Hd. injection Hd as <-. change (concat (map R' (sts fs i f Kn))) with (its fs i f Kn R'). exists (dr fs i f R'). split; [now apply (dr_maps fs i f HV C R')|].
    assert (PS : p_arcsorted (gi fs i f Kn R')) by (apply HS; eapply rd_In; apply rd_gsi; exact Hf).
    assert (DE : all_arcs f = [] \/ all_arcs f <> []) by (destruct (all_arcs f); [left; auto|right; discriminate]). destruct DE as [Ea|Ea].
    + destruct (no_arcs fs i f Hf HV Kn R' Ea (fun o H => H)) as (S1 & S2 & S3). split; [|split; [exact PS|split; [auto|intros Q; now destruct Q]]]. unfold dr. fold Kn. rewrite S2, S3. split; [intros a []|]. split; [reflexivity|]. split.
      * intros q (NQ & _). unfold nstates in NQ. rewrite zlen_nil in NQ. lia.
      * intros p (NP & HP). exfalso. unfold nstates in *. destruct (HV f (rd_In _ _ _ Hf)) as [(_ & V2 & _)| ->]; [|rewrite zlen_nil in NP; lia]. unfold nstates in V2. inversion HP as [|j a q t Ha Hq]; subst; [lia|]. rewrite Ea, rd_nil in Ha. discriminate.
    + assert (VF : valid f) by (destruct (HV f (rd_In _ _ _ Hf)) as [V| ->]; [auto|now destruct Ea]). split; [apply (g_removed fs i f Hf HV VF C R' HC WR HR Ea)|]. split; [exact PS|]. split; [intros Q; now destruct Ea|]. intros _. apply (g_valid fs i f Hf HV VF C R' HC WR HR Ea).
Qed.
End Bridge.

(** A batch: every FSA is valid (or has no states) and has no epsilon cycle of positive
    score, as the documentation of remove_epsilon asks.  [fuel] bounds the number of
    iterations of ComputeEpsilonClosure; as many as there are states are enough. *)
Theorem C27_remove_epsilon_device ord fuel fs : fair ord ->
  (forall f, In f fs -> (valid f \/ f = []) /\ int32_labels f /\ no_positive_eps_cycle f) ->
  zlen fs <= 1 \/ (forall f, In f fs -> no_parallel_eps f) ->
  zlen (concat fs) <= Z.of_nat fuel ->
  exists r, remove_epsilon_device ord fuel (flat_vec fs) = Some r /\ removed_batch fs r.
Proof.
  intros HO H U HF. assert (HV : forall f, In f fs -> valid f \/ f = []) by (intros; now apply H).
  destruct (run_total fs HV ord HO (fun f Hf => proj1 (proj2 (H f Hf))) fuel (to_uniq fs HV U)) as (r & E & R); [apply (to_npc fs HV); intros; now apply H|exact HF|]. exists r. split; [exact E|]. now apply to_batch.
Qed.
Print Assumptions C27_remove_epsilon_device.

(** Whenever it returns, however many iterations it took, the result is right; and it
    does not return when there is an epsilon cycle of positive score. *)
Theorem C27_remove_epsilon_device_returns ord fuel fs r : fair ord ->
  (forall f, In f fs -> (valid f \/ f = []) /\ int32_labels f) ->
  zlen fs <= 1 \/ (forall f, In f fs -> no_parallel_eps f) ->
  remove_epsilon_device ord fuel (flat_vec fs) = Some r ->
  removed_batch fs r /\ forall f, In f fs -> no_positive_eps_cycle f.
Proof.
  intros HO H U HF. assert (HV : forall f, In f fs -> valid f \/ f = []) by (intros; now apply H). apply (to_batch fs HV). exact (run_sound fs HV ord HO (fun f Hf => proj2 (H f Hf)) fuel r (to_uniq fs HV U) HF).
Qed.
Print Assumptions C27_remove_epsilon_device_returns.

(** A single FSA *)
Theorem C27_remove_epsilon_device_single ord fuel f : fair ord -> valid f -> int32_labels f -> no_positive_eps_cycle f -> nstates f <= Z.of_nat fuel ->
  exists g der, remove_epsilon_device_single ord fuel (flat f) = Some (flat g, der) /\ epsilon_removed f g der /\ p_arcsorted g /\
    (all_arcs f = [] -> g = []) /\ (all_arcs f <> [] -> valid g).
Proof.
  intros HO V I NP HF. destruct (C27_remove_epsilon_device ord fuel [f]) as (r & E & gs & ders & -> & L1 & L2 & H); auto.
  - intros f' [<-|[]]. auto.
  - left. vm_compute. discriminate.
  - cbn. rewrite app_nil_r. exact HF.
  - unfold remove_epsilon_device_single. rewrite <- flat_one, E. cbn [fst snd]. rewrite vec_element_ok. change (zlen [f]) with 1 in *. destruct (rd_in_bound gs 0 ltac:(lia)) as (g & Hg). destruct (rd_in_bound ders 0 ltac:(lia)) as (d & Hd). rewrite Hg. cbn [option_map]. destruct (H 0 f g d eq_refl Hg Hd) as (der & -> & H1 & H2 & H3).
    assert (ED : concat ders = der).
    { destruct ders as [|d0 [|d1 ders]]; [discriminate| |rewrite !zlen_cons in L2; pose proof (zlen_nonneg ders); lia]. injection Hd as ->. cbn. rewrite app_nil_r. rewrite <- (map_id der) at 2. apply map_ext. intros l. rewrite <- (map_id l) at 2. apply map_ext. intros j. reflexivity. }
    rewrite ED. exists g, der. auto.
Qed.
Print Assumptions C27_remove_epsilon_device_single.

(** The hypotheses hold of a batch with epsilon cycles, an arcless FSA and one without
    states; the arcs are not sorted by the combination *)
Definition dex1 : nfsa := [[mkArc 0 1 0 1; mkArc 0 2 7 2]; [mkArc 1 2 0 1; mkArc 1 3 (-1) 1]; [mkArc 2 1 0 (-2); mkArc 2 2 5 1; mkArc 2 3 (-1) 0]; []].
Definition dex2 : nfsa := [[mkArc 0 0 0 0; mkArc 0 1 (-1) 4]; []].
Lemma dex_labels : forall f, In f [dex1; [[]; []]; []; dex2] -> (valid f \/ f = []) /\ int32_labels f.
Proof.
  intros f [<-|[<-|[<-|[<-|[]]]]]; (split; [|intros a Ha; cbn in Ha; repeat (destruct Ha as [<-|Ha]; [cbn; lia|]); destruct Ha]).
  - left. apply validb_ok. reflexivity.
  - left. split; [|split; [reflexivity|intros a []]]. intros i st a Hi Ha. apply rd_In in Hi. cbn in Hi. destruct Hi as [<-|[<-|[]]]; destruct Ha.
  - now right.
  - left. apply validb_ok. reflexivity.
Qed.
Lemma dex_parallel : forall f, In f [dex1; [[]; []]; []; dex2] -> no_parallel_eps f.
Proof. intros f Hf st Hs. repeat (destruct Hf as [<-|Hf]; [cbn in Hs; repeat (destruct Hs as [<-|Hs]; [cbn; repeat (constructor; [cbn; intuition lia|]); constructor|]); destruct Hs|]). destruct Hf. Qed.
Definition dex_out : fsavec * list (list Z) :=
  match remove_epsilon_device zrange 20 (flat_vec [dex1; [[]; []]; []; dex2]) with Some r => r | None => (mkVec [] [] [], []) end.
Lemma dex_run : remove_epsilon_device zrange 20 (flat_vec [dex1; [[]; []]; []; dex2]) = Some dex_out.
Proof. vm_compute. reflexivity. Qed.
Example C27_device_ex : forall f, In f [dex1; [[]; []]; []; dex2] -> (valid f \/ f = []) /\ int32_labels f /\ no_positive_eps_cycle f.
Proof.
  intros f Hf. split; [now apply dex_labels|]. split; [now apply dex_labels|].
  apply (C27_remove_epsilon_device_returns zrange 20 [dex1; [[]; []]; []; dex2] dex_out); [|exact dex_labels|right; exact dex_parallel|exact dex_run|exact Hf].
  intros n. apply Permutation_refl.
Qed.

(** ** Parallel epsilon arcs in a batch

    The loop of ComputeEpsilonClosure (rm_epsilon.cu:775-776) ends when the arcs of two
    successive iterations are the same array of arcs; it does not compare to which FSA
    and state they belong.  An iteration that merges two parallel epsilon arcs of one FSA
    can move the arcs of the following FSAs to other places of the array in such a way
    that the arrays are the same although the closure is not complete. *)
Definition st_a : nfsa := [[mkArc 0 1 0 0; mkArc 0 1 0 0]; [mkArc 1 2 (-1) 0]; []].
Definition st_b : nfsa := [[mkArc 0 3 0 0]; [mkArc 1 2 0 0]; [mkArc 2 4 (-1) 0]; [mkArc 3 1 0 0]; []].
Definition st_c : nfsa := [[mkArc 0 3 5 0]; []; [mkArc 2 4 (-1) 0]; [mkArc 3 2 0 0; mkArc 3 1 0 0; mkArc 3 2 0 0]; []].
Lemma zero_scores f : forallb (fun a => sc a =? 0) (all_arcs f) = true -> no_positive_eps_cycle f.
Proof.
  intros H s p _ _. assert (G : score (arcs_at f p) = 0); [|lia]. induction p as [|j p IH]; [reflexivity|]. unfold arcs_at in *. cbn [flat_map]. destruct (rd (all_arcs f) j) as [a|] eqn:E; [|exact IH]. rewrite forallb_forall in H. pose proof (H a (rd_In _ _ _ E)). cbn [app]. change (sc a + score (flat_map (fun j => match rd (all_arcs f) j with Some a => [a] | None => [] end) p) = 0). lia.
Qed.
Theorem C27_device_early_stop_refuted : exists fs r, (forall f, In f fs -> valid f /\ int32_labels f /\ no_positive_eps_cycle f) /\
  fair zrange /\ remove_epsilon_device zrange 20 (flat_vec fs) = Some r /\ ~ removed_batch fs r.
Proof.
  exists [st_a; st_b; st_c]. eexists. split; [|split; [intros n; apply Permutation_refl|split; [vm_compute; reflexivity|]]].
  - intros f [<-|[<-|[<-|[]]]]; (split; [apply validb_ok; reflexivity|]; split; [intros a Ha; cbn in Ha; repeat (destruct Ha as [<-|Ha]; [cbn; lia|]); destruct Ha|apply zero_scores; reflexivity]).
  - intros (gs & ders & E & L1 & L2 & H). pose proof (f_equal fst E) as EF. cbn [fst] in EF. change (zlen [st_a; st_b; st_c]) with 3 in *. destruct (rd_in_bound gs 1 ltac:(lia)) as (g & Hg). destruct (rd_in_bound ders 1 ltac:(lia)) as (d & Hd). destruct (H 1 st_b g d eq_refl Hg Hd) as (der & _ & (_ & _ & _ & CP) & _).
    pose proof (vec_element_ok gs 1) as VE. rewrite Hg, <- EF in VE. match type of VE with ?l = _ => let l' := eval vm_compute in l in change l with l' in VE end. injection VE as V1 V2. symmetry in V1, V2.
    destruct (CP [0; 3; 1; 2]) as (q & (_ & HQ) & _). { split; [reflexivity|]. apply pathb_ok. reflexivity. }
    assert (NG : nstates g = 3) by (unfold nstates; pose proof (zlen_splits_of g) as Z; rewrite V1 in Z; match type of Z with zlen ?l = _ => change (zlen l) with 4 in Z end; lia). rewrite NG in HQ. inversion HQ as [|j a p t Ha Hp Es]; subst. unfold all_arcs in Ha. rewrite V2 in Ha. apply rd_In in Ha. cbn in Ha. destruct Ha as [<-|[]]; discriminate Es.
Qed.
Print Assumptions C27_device_early_stop_refuted.
