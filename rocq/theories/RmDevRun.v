(** RemoveEpsilonDevice on a batch of FSAs, as a whole *)
From Coq Require Import ZArith List Lia Bool Permutation Sorted.
From Coq Require Import ZifyBool ZifyNat.
From Verif Require Import Base RaggedModel RaggedSpec RaggedProofs FsaSpec FsaLemmas FsaOpsModel SelectProofs OpsModel RaggedOpsModel RaggedOpsSpec RaggedOpsProofs RaggedOpsProps EpsLoopProofs
  PropsModel PropsSpec PropsProofs PropsProps ConnectProofs ExtractProofs ConnectRun IntersectProps RmDevModel RmDevRagged RmDevEnc RmDevIter RmDevStep RmDevClos RmDevMap RmDevComb RmDevLang.
Import ListNotations.
Open Scope Z_scope.

Section Src.
Variable fs : list nfsa.
Notation N := (NS fs).
Hypothesis HV : forall f, In f fs -> valid f \/ f = [].
(** the arcs of state [o] of the batch, with their positions *)
Definition R0 (o : Z) : list item :=
  match rd (concat fs) o with
  | Some st => imap (fun k a => (mkArc o (so fs o + dst a) (lab a) (sc a), [off1 (concat fs) o + k])) 0 st
  | None => []
  end.
Lemma row_fsa o st : rd (concat fs) o = Some st -> exists i f, rd fs i = Some f /\ valid f /\ fid fs o = i /\ so fs o = off1 fs i /\ rd f (o - so fs o) = Some st /\ off1 fs i <= o < off1 fs i + zlen f.
Proof.
  intros H. destruct (rd_concat_inv _ _ _ H) as (i & f & k & H1 & H2 & H3 & H4). pose proof (rd_Some_bound _ _ _ H2) as B. destruct (fid_of fs i f o H1 ltac:(lia)) as (F1 & F2 & F3). exists i, f. split; [auto|]. split. { destruct (HV f (rd_In _ _ _ H1)) as [V| ->]; [auto|rewrite rd_nil in H2; discriminate]. } split; [auto|]. split; [auto|]. split; [rewrite F2; replace (o - off1 fs i) with k by lia; auto|lia].
Qed.
Lemma in_R0 o x : In x (R0 o) -> exists st k a, rd (concat fs) o = Some st /\ rd st k = Some a /\ x = (mkArc o (so fs o + dst a) (lab a) (sc a), [off1 (concat fs) o + k]).
Proof.
  intros H. unfold R0 in H. destruct (rd (concat fs) o) as [st|] eqn:Es; [|destruct H]. apply In_rd in H as (k & _ & Hk). rewrite rd_imap, Z.add_0_l in Hk. destruct (rd st k) as [a|] eqn:Ea; [|discriminate]. injection Hk as <-. exists st, k, a. auto.
Qed.
Lemma wf0 : wf fs T R0.
Proof.
  split; [discriminate|]. intros o x B H. destruct (in_R0 o x H) as (st & k & a & H1 & H2 & ->). destruct (row_fsa o st H1) as (i & f & F1 & (V1 & V2 & V3) & F3 & F4 & F5 & F6). assert (IA : In a (all_arcs f)) by (apply in_concat; exists st; split; [eapply rd_In; eauto|eapply rd_In; eauto]). destruct (V3 a IA) as (D & _). unfold nstates in D. split; [reflexivity|]. unfold idst. cbn [fst dst]. destruct (fid_of fs i f (so fs o + dst a) F1) as (G1 & G2 & G3); [rewrite F4; lia|]. split; [exact G3|]. split; [reflexivity|congruence].
Qed.
Lemma rng0 o : ~ (0 <= o < N) -> R0 o = [].
Proof. intros H. unfold R0. destruct (rd (concat fs) o) eqn:E; [|auto]. apply rd_Some_bound in E. contradiction. Qed.
Lemma zlen_R0 : map zlen (map R0 (zrange N)) = map zlen (concat fs).
Proof.
  apply list_ext_rd; [rewrite !zlen_map, zlen_zrange by apply zlen_nonneg; auto|]. intros o B. rewrite !zlen_map, zlen_zrange in B by apply zlen_nonneg. rewrite !rd_map, rd_zrange by auto. unfold R0. cbn. destruct (rd (concat fs) o) as [st|] eqn:E; cbn; [rewrite zlen_imap; auto|]. destruct (rd_in_bound (concat fs) o B) as (? & Q). congruence.
Qed.
Lemma A0 o : 0 <= o <= N -> A R0 o = off1 (concat fs) o.
Proof.
  intros B. rewrite <- (off_L N T R0) by (auto; discriminate). rewrite L_T, nwT by lia. apply map_zlen_rd. apply zlen_R0.
Qed.
Lemma enc0 o st : rd (concat fs) o = Some st -> map (enc fs T) (R0 o) = st.
Proof.
  intros H. pose proof (rd_Some_bound _ _ _ H) as B. destruct (row_fsa o st H) as (i & f & F1 & (V1 & V2 & V3) & F3 & F4 & F5 & F6). pose proof (so_bound fs o B) as SB. unfold R0. rewrite H, map_imap. apply list_ext_rd; [apply zlen_imap|]. intros k Bk. rewrite rd_imap, Z.add_0_l. destruct (rd st k) as [a|] eqn:Ea; [|reflexivity]. cbn [option_map]. f_equal. unfold enc, isrc, idst, ilab, isc. cbn [fst src dst lab sc].
  assert (IA : In a (all_arcs f)) by (apply in_concat; exists st; split; [eapply rd_In; eauto|eapply rd_In; eauto]). destruct (V3 a IA) as (D & _). pose proof (V1 _ _ _ F5 (rd_In _ _ _ Ea)) as SA. rewrite !nwT by lia. destruct a as [s d l c]. cbn in *. f_equal; lia.
Qed.
Lemma rows0 : map (fun o => map (enc fs T) (R0 o)) (zrange N) = concat fs.
Proof.
  apply list_ext_rd; [rewrite !zlen_map, zlen_zrange by apply zlen_nonneg; auto|]. intros o B. rewrite !zlen_map, zlen_zrange in B by apply zlen_nonneg. destruct (rd_in_bound (concat fs) o B) as (st & Hs). rewrite rd_map, rd_zrange, Hs by auto. cbn. f_equal. now apply enc0.
Qed.
Lemma gs0 : gsof fs T R0 = fs.
Proof.
  apply rows_eq.
  - unfold gsof, Lg. rewrite !map_map. rewrite <- (zlen_idx_rows fs). apply map_ext. intros x. rewrite zlen_map. unfold T. now rewrite filter_T.
  - rewrite concat_gs, L_T. apply rows0.
Qed.
Lemma vec0 : vec fs T R0 = mkRV (splits_of fs) (ids_of fs) (splits_of (concat fs)) (ids_of (concat fs)) (concat (concat fs)).
Proof.
  assert (EL : map zlen (Lg fs T) = map zlen fs) by (unfold Lg; rewrite !map_map, <- (zlen_idx_rows fs); apply map_ext; intros x; unfold T; now rewrite filter_T).
  unfold vec. rewrite L_T, (splits_zlen _ _ EL), (ids_of_zlen _ _ EL), (splits_zlen _ _ zlen_R0), (ids_of_zlen _ _ zlen_R0). f_equal. rewrite <- (concat_concat_gs fs T R0 wf0), gs0. reflexivity.
Qed.
Lemma src0 j x : rd (fl fs R0) j = Some x -> snd x = [j].
Proof.
  intros H. destruct (rd_fl fs T R0 wf0 j x H) as (k & B & _ & Hk & Ej & _). pose proof Hk as Hk2. unfold R0 in Hk2. destruct (rd (concat fs) (isrc x)) as [st|] eqn:Es; [|rewrite rd_nil in Hk2; discriminate]. rewrite rd_imap, Z.add_0_l in Hk2. destruct (rd st k) as [a|]; [|discriminate]. injection Hk2 as Hx. rewrite Ej, A0 by lia. rewrite <- Hx at 1. reflexivity.
Qed.

Notation Kn := (Ks fs R0 false).
Notation Ke := (Ks fs R0 true).
Notation Rn := (Rs R0 false).
Notation E := (Rs R0 true).
Variable ord : Z -> list Z.
Hypothesis HO : fair ord.
Lemma E_lab0 o x : 0 <= o < N -> In x (E o) -> ilab x = 0.
Proof. intros _ H. now apply (in_E fs R0 rng0) in H. Qed.
Lemma single_maps s (l : list (list Z)) : map (fun j => [j]) s = l -> mapM (fun j => r <- rd s j;; Some [r]) (zrange (zlen l)) = Some l.
Proof.
  intros <-. apply mapM_by_rd; [rewrite zlen_zrange by apply zlen_nonneg; auto|]. intros j j' H. pose proof (rd_Some_bound _ _ _ H) as B. rewrite zlen_zrange in B by apply zlen_nonneg. rewrite rd_zrange in H by auto. injection H as <-. rewrite rd_map. rewrite zlen_map in B. destruct (rd_in_bound s j B) as (x & ->). reflexivity.
Qed.
Hypothesis I32 : forall f, In f fs -> int32_labels f.
Lemma lab0 o x : In x (R0 o) -> - 2 ^ 31 <= ilab x < 2 ^ 31.
Proof. intros H. destruct (in_R0 o x H) as (st & k & a & H1 & H2 & ->). destruct (row_fsa o st H1) as (i & f & F1 & _ & _ & _ & F5 & _). unfold ilab. cbn [fst lab]. apply (I32 f (rd_In _ _ _ F1)). apply in_concat. exists st. split; [exact (rd_In _ _ _ F5)|exact (rd_In _ _ _ H2)]. Qed.
Lemma labR C o y : closed fs Ke E C -> In y (Rall fs R0 C o) -> - 2 ^ 31 <= ilab y < 2 ^ 31.
Proof.
  intros HC H. destruct (all_derived fs R0 rng0 C HC o y H) as (L & xs & P1 & _ & P3 & _).
  assert (I : In (ilab y) (plab xs)) by (rewrite P3; now left). apply filter_In in I as (I & _). apply in_map_iff in I as (x & <- & Hx).
  clear - P1 Hx I32 HV. induction P1 as [|o x' p t Hx' Hp IH]; [destruct Hx|]. destruct Hx as [<-|Hx]; [eapply lab0; eauto|auto].
Qed.

Definition result (r : fsavec * list (list Z)) : Prop := exists C R', closed fs Ke E C /\ wf fs Kn R' /\ (forall o z, 0 <= o < N -> (In z (R' o) <-> In z (Rall fs R0 C o))) /\
  r = (flat_vec (gsof fs Kn R'), map snd (fl fs R')) /\ forall g, In g (gsof fs Kn R') -> p_arcsorted g.

Theorem run fuel : uniq fs E ->
  (exists am r, label_subset ord true (vec fs T R0) = Some (mkSub (vec fs Ke E) (map Ke (zrange N)) (L N Ke) am) /\ map (fun j => [j]) am = map snd (fl fs E) /\ eps_closure ord fuel (vec fs Ke E) = Some r /\ exists o, remove_epsilon_device ord fuel (flat_vec fs) = Some o /\ result o) \/
  (eps_closure ord fuel (vec fs Ke E) = None /\ remove_epsilon_device ord fuel (flat_vec fs) = None).
Proof.
  intros U. destruct (label_subset_ok fs R0 true wf0 rng0 src0 ord HO) as (am & E1 & E2). destruct (label_subset_ok fs R0 false wf0 rng0 src0 ord HO) as (an & N1 & N2).
  unfold remove_epsilon_device. cbn [flat_vec v_rs1 v_rs2 v_arcs]. rewrite zlen_splits_of, Z.add_simpl_r, !row_ids_of_splits. rewrite <- vec0, E1. cbn [s_vec s_map].
  destruct (eps_closure ord fuel (vec fs Ke E)) as [(v & m)|] eqn:EC; [left|right; auto]. exists am, (v, m). split; [reflexivity|]. split; [exact E2|]. split; [reflexivity|].
  assert (HE : mapM (fun j => r <- rd am j;; Some [r]) (zrange (zlen (fl fs E))) = Some (map snd (fl fs E))) by (rewrite <- (zlen_map snd (fl fs E)); now apply single_maps).
  destruct (eps_closure_sound fs Ke E (wf_Rs fs R0 true wf0 rng0) E_lab0 ord HO am HE fuel v m U EC) as (C & -> & HC & HM). cbn [fst snd]. rewrite HM, N1. cbn [s_vec s_map s_n2o s_keep].
  pose proof (wC fs R0 C HC) as WC. pose proof (wN fs R0 wf0 rng0) as WN. pose proof (wM fs R0 C HC) as WM. pose proof (wF fs R0 wf0 rng0 C HC) as WFo. pose proof (wP fs R0 C HC) as WP. pose proof (wPn fs R0 wf0 rng0 C HC) as WPn. pose proof (wPf fs R0 wf0 rng0 C HC) as WPf. pose proof (wAll fs R0 wf0 rng0 C HC) as WA.
  rewrite (closure_mapped_ok fs Ke Kn C (map snd (fl fs C)) ord) by (auto; apply KeR). cbn [fst snd].
  rewrite (decide_ok fs Kn (Rm Kn C) Rn WM WN). rewrite (combine_following_ok fs Kn (Rm Kn C) Rn WM WN an N2). cbn [fst snd].
  assert (ED : map fst (map (fun x => if prec fs Kn Rn x then (true, 0) else (false, zlen (Rn (idst x)))) (fl fs (Rm Kn C))) = map (prec fs Kn Rn) (fl fs (Rm Kn C))) by (rewrite map_map; apply map_ext; intros x; destruct (prec fs Kn Rn x); reflexivity). rewrite ED.
  destruct (subset_arcs_ok fs Kn ord (Rm Kn C) (prec fs Kn Rn) (map snd (fl fs (Rm Kn C))) HO WM) as (S1 & S2 & S3); [apply zlen_map|]. rewrite S1. cbn [fst snd].
  assert (SM : select (map (prec fs Kn Rn) (fl fs (Rm Kn C))) (map snd (fl fs (Rm Kn C))) = map snd (fl fs (Rp fs R0 C))).
  { unfold Rp. rewrite S3. generalize (fl fs (Rm Kn C)). induction l as [|x l IH]; [reflexivity|]. unfold select in *. cbn. destruct (prec fs Kn Rn x); cbn; now rewrite IH. }
  rewrite SM. change (fun o : Z => filter (prec fs Kn Rn) (Rm Kn C o)) with (Rp fs R0 C). rewrite N2. change (ex (ef fs Kn Rn) (Rm Kn C)) with (Rf fs R0 C).
  rewrite (combine_preceding_ok fs Kn (Rp fs R0 C) Rn WP WN). rewrite (combine_preceding_ok fs Kn (Rp fs R0 C) (Rf fs R0 C) WP WFo). cbn [fst snd].
  change (ex (ep (Rp fs R0 C)) Rn) with (Rpn fs R0 C). change (ex (ep (Rp fs R0 C)) (Rf fs R0 C)) with (Rpf fs R0 C).
  assert (NE : Rl fs R0 C <> []) by discriminate.
  pose proof (cat_ok fs Kn (enc fs Kn) (Rl fs R0 C) NE (wl fs R0 wf0 rng0 C HC)) as C1. pose proof (cat_ok fs Kn snd (Rl fs R0 C) NE (wl fs R0 wf0 rng0 C HC)) as C2. cbv zeta in C1, C2.
  change (map (fun R => (mk_layer (splits_of (map R (L N Kn))) (ids_of (map R (L N Kn))), map (enc fs Kn) (fl fs R))) (Rl fs R0 C)) with
    [with_layer (vec fs Kn (Rf fs R0 C)) (r_arcs (vec fs Kn (Rf fs R0 C))); with_layer (vec fs Kn (Rpn fs R0 C)) (r_arcs (vec fs Kn (Rpn fs R0 C))); with_layer (vec fs Kn (Rpf fs R0 C)) (r_arcs (vec fs Kn (Rpf fs R0 C))); with_layer (vec fs Kn Rn) (r_arcs (vec fs Kn Rn))] in C1.
  change (map (fun R => (mk_layer (splits_of (map R (L N Kn))) (ids_of (map R (L N Kn))), map snd (fl fs R))) (Rl fs R0 C)) with
    [with_layer (vec fs Kn (Rf fs R0 C)) (map snd (fl fs (Rf fs R0 C))); with_layer (vec fs Kn (Rpn fs R0 C)) (map snd (fl fs (Rpn fs R0 C))); with_layer (vec fs Kn (Rpf fs R0 C)) (map snd (fl fs (Rpf fs R0 C))); with_layer (vec fs Kn Rn) (map snd (fl fs Rn))] in C2.
  rewrite C1, C2. cbn [fst snd l_rs]. change (r_rs1 (vec fs Kn Rn)) with (splits_of (Lg fs Kn)).
  change (fun o => map (enc fs Kn) (concat (map (fun R : Z -> list item => R o) (Rl fs R0 C)))) with (fun o => map (enc fs Kn) (Rall fs R0 C o)).
  change (fun o => map snd (concat (map (fun R : Z -> list item => R o) (Rl fs R0 C)))) with (fun o => map snd (Rall fs R0 C o)).
  set (RA := Rall fs R0 C) in *.
  assert (EA : map (fun o => map (enc fs Kn) (RA o)) (L N Kn) = concat (gsof fs Kn RA)) by (now rewrite concat_gs). rewrite EA.
  assert (EM : concat (map (fun o => map snd (RA o)) (L N Kn)) = map snd (fl fs RA)) by (rewrite <- (rows_concat fs Kn RA WA), concat_map, map_map; reflexivity). rewrite EM.
  assert (EV : mkVec (splits_of (Lg fs Kn)) (splits_of (concat (gsof fs Kn RA))) (concat (concat (gsof fs Kn RA))) = flat_vec (gsof fs Kn RA)).
  { unfold flat_vec. f_equal. apply splits_zlen. unfold gsof. rewrite map_map. apply map_ext. intros; now rewrite zlen_map. }
  rewrite EV.
  assert (LG : forall g, In g (gsof fs Kn RA) -> int32_labels g).
  { intros g Hg a Ha. unfold all_arcs in Ha. assert (Ia : In a (concat (concat (gsof fs Kn RA)))) by (apply in_concat in Ha as (st & I1 & I2); apply in_concat; exists st; split; [apply in_concat; eauto|auto]). rewrite (concat_concat_gs fs Kn RA WA) in Ia. apply in_map_iff in Ia as (y & <- & Hy). apply in_flat in Hy as (o & _ & Hy). exact (labR C o y HC Hy). }
  destruct (props_sorted (ord (zlen (concat (concat (gsof fs Kn RA))))) (gsof fs Kn RA) (HO _) LG) as (p & Ep & Hp). rewrite Ep.
  destruct (Z.land (snd p) kArcSorted =? 0) eqn:EB.
  - destruct (arc_sort_ok (gsof fs Kn RA)) as (gs' & sm & A1 & A2); [now apply Forall_forall|]. rewrite A1. cbn [fst snd]. destruct (sorted_items fs Kn RA gs' sm WA A2) as (R' & -> & B2 & B3 & B4). rewrite B2. eexists. split; [reflexivity|]. exists C, R'. split; [exact HC|]. split; [exact B3|]. split; [exact B4|]. split; [reflexivity|].
    destruct A2 as (SZ & _ & _ & _ & SR). intros g Hg st Hs. apply In_rd in Hg as (k & Bk & Hk). apply In_rd in Hs as (r & Br & Hr). destruct (map_zlen_rd _ _ SZ) as (GZ & _ & _ & GF). destruct (rd_in_bound (gsof fs Kn RA) k ltac:(lia)) as (f & Hf). pose proof (GF k f g Hf Hk). destruct (rd_in_bound f r ltac:(lia)) as (st0 & Hs0). now destruct (SR k f g r st0 st Hf Hk Hs0 Hr).
  - eexists. split; [reflexivity|]. exists C, RA. split; [exact HC|]. split; [exact WA|]. split; [reflexivity|]. split; [reflexivity|]. now apply Hp.
Qed.
Corollary run_sound fuel o : uniq fs E -> remove_epsilon_device ord fuel (flat_vec fs) = Some o -> result o.
Proof. intros U H. destruct (run fuel U) as [(am & r & _ & _ & _ & o' & E2 & RS)|(_ & E2)]; rewrite H in E2; [injection E2 as <-; exact RS|discriminate]. Qed.
Corollary run_total fuel : uniq fs E -> (forall o p, 0 <= o < N -> ipath E o p o -> psc p <= 0) -> N <= Z.of_nat fuel -> exists o, remove_epsilon_device ord fuel (flat_vec fs) = Some o /\ result o.
Proof.
  intros U NPC HF. destruct (run fuel U) as [(am & r & _ & _ & _ & o' & E2 & RS)|(E1 & _)]; [eauto|]. exfalso. destruct (label_subset_ok fs R0 true wf0 rng0 src0 ord HO) as (am & _ & E2).
  assert (HE : mapM (fun j => r <- rd am j;; Some [r]) (zrange (zlen (fl fs E))) = Some (map snd (fl fs E))) by (rewrite <- (zlen_map snd (fl fs E)); now apply single_maps).
  destruct (eps_closure_total fs Ke E (wf_Rs fs R0 true wf0 rng0) E_lab0 ord HO am HE fuel U NPC HF) as (v & m & X). congruence.
Qed.
End Src.
