(** The epsilon and non-epsilon subsets, and the renumbering of the closure *)
From Coq Require Import ZArith List Lia Bool Permutation Sorted.
From Coq Require Import ZifyBool ZifyNat.
From Verif Require Import Base RaggedModel RaggedSpec RaggedProofs FsaSpec FsaLemmas SelectProofs OpsModel RaggedOpsModel RaggedOpsProofs RaggedOpsProps EpsLoopProofs
  PropsProps ReverseModel ReverseProofs ReverseProps ConnectProofs ExtractProofs ConnectRun RmEpsLang RmDevModel RmDevRagged RmDevEnc RmDevIter RmDevStep RmDevClos.
Import ListNotations.
Open Scope Z_scope.

Definition T : Z -> bool := fun _ => true.
Lemma filter_T {X} (l : list X) : filter (fun _ => true) l = l.
Proof. induction l as [|x l IH]; cbn; congruence. Qed.
Lemma nwT o : 0 <= o -> nw T o = o. Proof. apply nw_all. Qed.
Lemma L_T S : L S T = zrange S. Proof. apply filter_T. Qed.

Lemma wr_flag c n i : 0 <= i < n -> wr (map c (zrange n)) i true = Some (map (fun o => c o || (o =? i)) (zrange n)).
Proof.
  intros H. destruct (wr_Some (map c (zrange n)) i true) as (l & E & LN & R); [rewrite zlen_map, zlen_zrange; lia|]. rewrite E. f_equal. rewrite zlen_map, zlen_zrange in LN by lia. apply list_ext_rd; [rewrite zlen_map, zlen_zrange; lia|]. intros j Hj. rewrite LN in Hj. rewrite R, !rd_map, rd_zrange by auto. cbn. destruct (j =? i); [now rewrite orb_true_r|now rewrite orb_false_r].
Qed.
Lemma foldM_flags {B} (f : list bool -> B -> option (list bool)) (M : B -> Z -> bool) n l :
  (forall c b, In b l -> f (map c (zrange n)) b = Some (map (fun o => c o || M b o) (zrange n))) ->
  forall c, foldM f l (map c (zrange n)) = Some (map (fun o => c o || existsb (fun b => M b o) l) (zrange n)).
Proof.
  induction l as [|b l IH]; intros H c; cbn [foldM existsb]; [f_equal; apply map_ext; intros; now rewrite orb_false_r|]. rewrite H by now left. rewrite IH by (intros; apply H; now right). f_equal. apply map_ext. intros o. now rewrite orb_assoc.
Qed.
Lemma existsb_perm {B} (P : B -> bool) l l' : Permutation l l' -> existsb P l = existsb P l'.
Proof. intros H. apply eq_true_iff_eq. rewrite !existsb_exists. split; intros (x & H1 & H2); exists x; split; auto; [eapply Permutation_in; eauto|eapply Permutation_in; [apply Permutation_sym; eauto|auto]]. Qed.
Lemma kept_eval {X Y} (F : Z -> option Y) (P : X -> bool) (g : X -> Y) (l : list X) : (forall j x, rd l j = Some x -> P x = true -> F j = Some (g x)) -> mapM F (kept_from 0 (map P l)) = Some (map g (filter P l)).
Proof.
  intros H. pose proof (n2o_values P (fun x => x) l) as E. rewrite !map_id in E. assert (HP : forall x, In x (filter P l) -> P x = true) by (intros x Hx; now apply filter_In in Hx). revert HP E. generalize (kept_from 0 (map P l)), (filter P l). intros js. induction js as [|j js IH]; intros xs HP E; cbn [mapM] in *; [injection E as <-; reflexivity|].
  destruct (rd l j) as [x|] eqn:Ex; [|discriminate]. destruct (mapM (rd l) js) as [xs'|]; [|discriminate]. injection E as <-. rewrite (H j x Ex (HP x (or_introl eq_refl))). rewrite (IH xs'); auto. intros; apply HP; now right.
Qed.
Lemma rd_o2n K N o : 0 <= o <= N -> rd (old2new (map K (zrange N))) o = Some (nw K o).
Proof.
  intros H. rewrite rd_old2new by (rewrite zlen_map, zlen_zrange; lia). f_equal. unfold nw. rewrite firstn_map. replace N with (o + (N - o)) by lia. rewrite zrange_app by lia. rewrite firstn_app, zrange_length, Nat.sub_diag. cbn [firstn]. rewrite app_nil_r. rewrite <- (zrange_length o) at 1. rewrite firstn_all. generalize (zrange o). intros l. rewrite map_map.
  induction l as [|y l IH]; [reflexivity|]. cbn [map filter]. change (zsum (b2z (K y) :: map (fun x => b2z (K x)) l)) with (b2z (K y) + zsum (map (fun x => b2z (K x)) l)). rewrite IH. destruct (K y); cbn [b2z]; rewrite ?zlen_cons; lia.
Qed.

Section Sub.
Variable fs : list nfsa.
Notation N := (NS fs).
(** last state of the FSA of a state *)
Definition eo (o : Z) : Z := off1 fs (fid fs o + 1) - 1.
Lemma eo_ok o : 0 <= o < N -> o <= eo o < N /\ so fs (eo o) = so fs o /\ so fs (so fs o) = so fs o.
Proof.
  intros H. destruct (fid_ok fs o H) as (i & f & H1 & H2 & H3 & H4 & H5). unfold eo. rewrite H2, (off1_next _ _ _ H1).
  destruct (fid_of fs i f (off1 fs i + zlen f - 1) H1 ltac:(lia)) as (F1 & F2 & F3). destruct (fid_of fs i f (off1 fs i) H1 ltac:(lia)) as (G1 & G2 & G3). rewrite H4. split; [lia|]. split; congruence.
Qed.
Section One.
Variables (R : Z -> list item) (eps : bool).
Hypothesis WF : wf fs T R.
Definition PL (x : item) : bool := label_keep eps (fst x).
Definition M (j o : Z) : bool :=
  match rd (fl fs R) j with
  | Some x => (PL x && ((o =? isrc x) || (o =? idst x))) || ((j =? A R (so fs (isrc x))) && ((o =? so fs (isrc x)) || (o =? eo (isrc x))))
  | None => false
  end.
Definition Ks (o : Z) : bool := (0 <=? o) && (o <? N) && existsb (fun j => M j o) (zrange (zlen (fl fs R))).
Definition Rs (o : Z) : list item := filter PL (R o).
Lemma fl_Rs : fl fs Rs = filter PL (fl fs R).
Proof. unfold fl, flatR, Rs. rewrite filter_concat, map_map. reflexivity. Qed.
Lemma mark_ok c j : 0 <= j < zlen (fl fs R) -> mark_states eps (vec fs T R) (map c (zrange N)) j = Some (map (fun o => c o || M j o) (zrange N)).
Proof.
  intros B. destruct (rd_in_bound (fl fs R) j B) as (x & Hx). destruct (rd_fl fs T R WF j x Hx) as (k & Bo & _ & H1 & H2 & H3 & W1 & _ & W3). unfold mark_states. rewrite (arc_rd fs T R _ _ Hx), H3. cbn [vec r_ids1]. rewrite ids1_Lg by auto. fold (vec fs T R).
  destruct (fid_ok fs (isrc x) Bo) as (i & f & F1 & F2 & F3 & F4 & F5). pose proof (rd_Some_bound _ _ _ F1) as Bi. rewrite F2. cbn [vec r_rs1]. rewrite !rs1_Lg by lia. pose proof (so_bound fs _ Bo) as SB. rewrite <- F4. rewrite (rs2_rd fs T R WF) by lia.
  pose proof (eo_ok _ Bo) as (E1 & E2 & E3). assert (EO : off1 fs (i + 1) = eo (isrc x) + 1) by (unfold eo; rewrite F2; lia). rewrite EO, !nwT by lia.
  assert (ES : so fs (isrc x) + src (enc fs T x) = isrc x) by (cbn; rewrite !nwT by lia; lia). assert (ED : so fs (isrc x) + dst (enc fs T x) = idst x) by (cbn; rewrite !nwT by lia; lia). rewrite ES, ED.
  change (label_keep eps (enc fs T x)) with (label_keep eps (fst x)). fold (PL x).
  replace (so fs (isrc x) <? eo (isrc x) + 1) with true by lia. cbn [andb]. replace (eo (isrc x) + 1 - 1) with (eo (isrc x)) by lia.
  assert (S1 : (if PL x then k' <- wr (map c (zrange N)) (isrc x) true;; wr k' (idst x) true else Some (map c (zrange N))) = Some (map (fun o => c o || (PL x && ((o =? isrc x) || (o =? idst x)))) (zrange N))).
  { destruct (PL x); cbn [andb].
    - rewrite wr_flag by lia. rewrite wr_flag by lia. f_equal. apply map_ext. intros o. now rewrite orb_assoc.
    - f_equal. apply map_ext. intros o. now rewrite orb_false_r. }
  rewrite S1. unfold M. rewrite Hx. destruct (j =? A R (so fs (isrc x))); cbn [andb].
  - rewrite wr_flag by lia. rewrite wr_flag by lia. f_equal. apply map_ext. intros o. now rewrite !orb_assoc.
  - f_equal. apply map_ext. intros o. now rewrite orb_false_r.
Qed.
Lemma Ks_range o : Ks o = true -> 0 <= o < N.
Proof. unfold Ks. intros H. apply andb_prop in H as (H & _). lia. Qed.
Lemma Ks_mark j o : 0 <= o < N -> M j o = true -> Ks o = true.
Proof.
  intros B H. unfold Ks. replace (0 <=? o) with true by lia. replace (o <? N) with true by lia. cbn [andb]. apply existsb_exists. exists j. split; [|auto]. apply in_zrange. unfold M in H. destruct (rd (fl fs R) j) as [x|] eqn:E; [|discriminate]. now apply rd_Some_bound in E.
Qed.
Lemma Ks_ends x : In x (fl fs R) -> PL x = true -> Ks (isrc x) = true /\ Ks (idst x) = true.
Proof.
  intros H P. destruct (in_fl fs T R WF x H) as (B & _ & _ & W1 & _). apply In_rd in H as (j & _ & H). split; apply (Ks_mark j); auto; unfold M; rewrite H, P; cbn [andb]; rewrite Z.eqb_refl; cbn; now rewrite ?orb_true_r.
Qed.
Lemma A_mono o o' : 0 <= o <= o' -> A R o <= A R o'.
Proof. intros H. unfold A. replace o' with (o + (o' - o)) by lia. rewrite zrange_app by lia. rewrite map_app, concat_app, zlen_app. pose proof (zlen_nonneg (concat (map R (map (fun i => o + i) (zrange (o' - o)))))). lia. Qed.
Lemma Ks_first x : In x (fl fs R) -> Ks (so fs (isrc x)) = true /\ Ks (eo (isrc x)) = true.
Proof.
  intros H. destruct (in_fl fs T R WF x H) as (B & _ & _ & W1 & _). apply In_rd in H as (j & Bj & H). destruct (rd_fl fs T R WF j x H) as (k & _ & _ & H1 & H2 & _). pose proof (rd_Some_bound _ _ _ H1) as Bk. pose proof (so_bound fs _ B) as SB. pose proof (eo_ok _ B) as (E1 & E2 & E3).
  pose proof (A_mono (so fs (isrc x)) (isrc x) ltac:(lia)) as M1. assert (A0 : 0 <= A R (so fs (isrc x))) by apply zlen_nonneg.
  destruct (rd_in_bound (fl fs R) (A R (so fs (isrc x))) ltac:(lia)) as (y & Hy). destruct (rd_fl fs T R WF _ _ Hy) as (k' & B' & _ & H1' & H2' & _). pose proof (rd_Some_bound _ _ _ H1') as Bk'.
  assert (SY : fid fs (isrc y) = fid fs (isrc x)).
  { destruct (fid_ok fs (isrc x) B) as (i & f & F1 & F2 & F3 & F4 & F5). assert (G : off1 fs i <= isrc y < off1 fs i + zlen f); [|rewrite F2; apply (fid_of fs i f); auto]. rewrite F4 in *. split.
    - destruct (Z_le_gt_dec (off1 fs i) (isrc y)); auto. pose proof (A_mono (isrc y + 1) (off1 fs i) ltac:(lia)). rewrite A_next in H0 by lia. lia.
    - destruct (Z_lt_le_dec (isrc y) (off1 fs i + zlen f)); auto. pose proof (A_mono (isrc x + 1) (isrc y) ltac:(lia)). rewrite A_next in H0 by lia. lia. }
  assert (SO : so fs (isrc y) = so fs (isrc x)) by (unfold so; now rewrite SY). assert (EO : eo (isrc y) = eo (isrc x)) by (unfold eo; now rewrite SY).
  split; apply (Ks_mark (A R (so fs (isrc x)))); try lia; unfold M; rewrite Hy, SO, EO, !Z.eqb_refl; cbn; now rewrite ?orb_true_r.
Qed.
Lemma Ks_inv o : Ks o = true -> exists x, In x (fl fs R) /\ so fs (isrc x) = so fs o.
Proof.
  intros H. pose proof (Ks_range o H) as B. unfold Ks in H. apply andb_prop in H as (_ & H). apply existsb_exists in H as (j & _ & H). unfold M in H. destruct (rd (fl fs R) j) as [x|] eqn:E; [|discriminate]. exists x. split; [eapply rd_In; eauto|]. destruct (rd_fl fs T R WF j x E) as (k & Bo & _ & _ & _ & _ & W1 & _ & W3). pose proof (eo_ok _ Bo) as (E1 & E2 & E3).
  destruct (PL x && ((o =? isrc x) || (o =? idst x))) eqn:Q.
  - apply andb_prop in Q as (_ & Q). apply orb_prop in Q as [Q|Q]; apply Z.eqb_eq in Q; subst o; auto.
  - cbn in H. apply andb_prop in H as (_ & H). apply orb_prop in H as [H|H]; apply Z.eqb_eq in H; subst o; auto.
Qed.
Hypothesis RNG : forall o, ~ (0 <= o < N) -> R o = [].
Lemma wf_Rs : wf fs Ks Rs.
Proof.
  assert (G : forall o x, In x (Rs o) -> Ks o = true /\ isrc x = o /\ 0 <= idst x < N /\ Ks (idst x) = true /\ so fs (idst x) = so fs o).
  { intros o x Hx. apply filter_In in Hx as (Hx & P). assert (B : 0 <= o < N). { destruct (Z_lt_le_dec o 0); [rewrite RNG in Hx by lia; destruct Hx|]. destruct (Z_lt_le_dec o N); [lia|]. rewrite RNG in Hx by lia. destruct Hx. }
    destruct (proj2 WF o x B Hx) as (S1 & W1 & _ & W3). destruct (Ks_ends x) as (K1 & K2); auto. { apply (in_flat N). eauto. } rewrite S1 in K1. auto. }
  split; [|intros o x _ Hx; now apply G]. intros o Ho. destruct (Rs o) as [|x l] eqn:E; auto. exfalso. destruct (G o x) as (K1 & _); [rewrite E; now left|]. congruence.
Qed.
Hypothesis SRC : forall j x, rd (fl fs R) j = Some x -> snd x = [j].
Theorem label_subset_ok ord : fair ord -> exists am, label_subset ord eps (vec fs T R) = Some (mkSub (vec fs Ks Rs) (map Ks (zrange N)) (L N Ks) am) /\ map (fun j => [j]) am = map snd (fl fs Rs).
Proof.
  intros HO. pose proof (HNS fs) as H0. unfold label_subset. rewrite zlen_arcs. change (r_ids1 (vec fs T R)) with (ids_of (Lg fs T)). rewrite zlen_ids1, nwT by auto.
  assert (EI : repeat false (Z.to_nat N) = map (fun _ => false) (zrange N)). { rewrite <- (zrange_length N). generalize (zrange N). induction l as [|y l IH]; cbn; congruence. }
  rewrite EI, (foldM_flags _ M N) by (intros c b Hb; apply mark_ok; apply (in_sched _ _ _ (HO _)) in Hb; auto).
  assert (EK : map (fun o => false || existsb (fun b => M b o) (ord (zlen (fl fs R)))) (zrange N) = map Ks (zrange N)).
  { apply map_ext_in. intros o Ho. apply in_zrange in Ho. unfold Ks. replace (0 <=? o) with true by lia. replace (o <? N) with true by lia. cbn [orb andb]. apply existsb_perm. apply HO. }
  rewrite EK. rewrite new2old_kept by (rewrite zlen_map, zlen_zrange by auto; apply HO). rewrite kept_from_zrange by auto. fold (L N Ks).
  change (r_arcs (vec fs T R)) with (map (enc fs T) (fl fs R)). rewrite map_map. assert (EP : map (fun x => label_keep eps (enc fs T x)) (fl fs R) = map PL (fl fs R)) by reflexivity. rewrite EP. rewrite new2old_kept by (rewrite zlen_map; apply HO).
  assert (LT : Lg fs T = idx_rows fs). { unfold Lg, T. rewrite <- (map_id (idx_rows fs)) at 2. apply map_ext. intros; apply filter_T. }
  change (r_rs1 (vec fs T R)) with (splits_of (Lg fs T)). rewrite LT. assert (E0 : mapM (rd (old2new (map Ks (zrange N)))) (splits_of (idx_rows fs)) = Some (splits_of (Lg fs Ks))) by (rewrite <- (concat_idx_rows fs), o2n_splits; reflexivity). rewrite E0.
  assert (E1 : mapM (rd (ids_of (idx_rows fs))) (L N Ks) = Some (ids_of (Lg fs Ks))). { unfold L. rewrite <- kept_from_zrange by auto. rewrite <- (concat_idx_rows fs). apply n2o_ids. }
  rewrite E1. rewrite (kept_eval _ PL (fun x => (enc fs Ks x, nw Ks (isrc x)))).
  2:{ intros j x Hx P. rewrite (arc_pos_ok fs T R WF _ _ Hx). destruct (rd_fl fs T R WF j x Hx) as (k & Bo & _ & _ & _ & _ & W1 & _ & W3). pose proof (so_bound fs _ Bo) as SB. cbn [enc dst lab sc]. rewrite !nwT by lia. replace (idst x - so fs (isrc x) + so fs (isrc x)) with (idst x) by lia. rewrite !rd_o2n by lia. unfold enc. do 3 f_equal. unfold PL, label_keep in P. unfold ilab. destruct eps; [lia|reflexivity]. }
  rewrite map_map. cbn [snd]. rewrite <- fl_Rs. fold (isrc). assert (E2 : map (fun x => nw Ks (isrc x)) (fl fs Rs) = ids_of (map Rs (L N Ks))). { symmetry. apply (ids_flat N Ks Rs (proj1 wf_Rs) isrc). intros o x Hx. destruct (Ks o) eqn:KO; [|rewrite (proj1 wf_Rs o KO) in Hx; destruct Hx]. apply (proj2 wf_Rs o x (Ks_range o KO) Hx). }
  rewrite E2. replace (zlen (L N Ks)) with (zlen (map Rs (L N Ks))) by apply zlen_map. rewrite splits_of_row_ids, !map_map. cbn [fst]. eexists. split; [reflexivity|].
  rewrite fl_Rs. assert (KE : mapM (fun j => Some [j]) (kept_from 0 (map PL (fl fs R))) = Some (map snd (filter PL (fl fs R)))). { apply kept_eval. intros j x Hx _. now rewrite (SRC j x Hx). }
  rewrite (mapM_Some_map _ (fun j => [j])) in KE by reflexivity. now injection KE.
Qed.
End One.
End Sub.

(** ** MapFsaVecStates *)
Lemma wr_L {X} S K (f : Z -> X) o v : 0 <= o < S -> K o = true -> wr (map f (L S K)) (nw K o) v = Some (map (fun q => if q =? o then v else f q) (L S K)).
Proof.
  intros B KO. pose proof (rd_L S K o B KO) as HL. pose proof (rd_Some_bound _ _ _ HL) as Bn. destruct (wr_Some (map f (L S K)) (nw K o) v) as (l & E & LN & R); [rewrite zlen_map; auto|]. rewrite E. f_equal. rewrite zlen_map in LN. apply list_ext_rd; [rewrite zlen_map; auto|]. intros j Hj. rewrite LN in Hj. rewrite R, !rd_map. destruct (rd_in_bound (L S K) j Hj) as (q & Hq). rewrite Hq. cbn. destruct (L_rd _ _ _ _ Hq) as (Bq & Kq & ->). destruct (q =? o) eqn:E1.
  - replace (nw K q =? nw K o) with true; [reflexivity|]. assert (q = o) by lia. subst. now rewrite Z.eqb_refl.
  - destruct (nw K q =? nw K o) eqn:E2; auto. exfalso. assert (X0 : nw K q = nw K o) by lia. apply nw_inj in X0; auto; lia.
Qed.
Section MapS.
Variable fs : list nfsa.
Notation N := (NS fs).
Variables (Ke Kn : Z -> bool) (C : Z -> list item).
Hypothesis WF : wf fs Ke C.
Definition Pm (x : item) : bool := Kn (isrc x) && Kn (idst x).
Definition Rm (o : Z) : list item := filter Pm (C o).
Definition sm (o : Z) : Z := if Kn o then nw Kn o else -1.
Lemma fl_Rm : fl fs Rm = filter Pm (fl fs C).
Proof. unfold fl, flatR, Rm. rewrite filter_concat, map_map. reflexivity. Qed.
Lemma Rm_nil o : Ke o = false -> Rm o = []. Proof. intros H. unfold Rm. now rewrite (proj1 WF o H). Qed.
Hypothesis RNG : forall o, Ke o = true -> 0 <= o < N.
Lemma in_Rm o x : In x (Rm o) -> In x (C o) /\ Ke o = true /\ 0 <= o < N /\ isrc x = o /\ 0 <= idst x < N /\ Ke (idst x) = true /\ so fs (idst x) = so fs o /\ Kn o = true /\ Kn (idst x) = true.
Proof.
  intros H. apply filter_In in H as (H & P). destruct (Ke o) eqn:KO; [|rewrite (proj1 WF o KO) in H; destruct H]. pose proof (RNG o KO) as B. destruct (proj2 WF o x B H) as (S1 & W1 & W2 & W3). unfold Pm in P. apply andb_prop in P as (P1 & P2). rewrite S1 in P1. auto 10.
Qed.
Lemma Rm_niln o : Kn o = false -> Rm o = [].
Proof. intros H. destruct (Rm o) as [|x l] eqn:E; auto. destruct (in_Rm o x) as (_ & _ & _ & _ & _ & _ & _ & K1 & _); [rewrite E; now left|]. congruence. Qed.
Lemma wf_Rm : wf fs Kn Rm.
Proof. split; [apply Rm_niln|]. intros o x _ Hx. destruct (in_Rm o x Hx) as (_ & _ & _ & H1 & H2 & _ & H3 & _ & H4). auto. Qed.
Lemma sm_neg o : negb (sm o =? -1) = Kn o.
Proof. unfold sm. destruct (Kn o); [|reflexivity]. pose proof (zlen_nonneg (filter Kn (zrange o))). unfold nw. destruct (zlen (filter Kn (zrange o)) =? -1) eqn:E; [lia|reflexivity]. Qed.
Lemma sm_rd o : 0 <= o < N -> Ke o = true -> rd (map sm (L N Ke)) (nw Ke o) = Some (sm o).
Proof. intros B KO. rewrite rd_map, rd_L by auto. reflexivity. Qed.
Theorem map_states_ok ord : fair ord -> map_states ord (vec fs Ke C) (splits_of (Lg fs Kn)) (ids_of (Lg fs Kn)) (map sm (L N Ke)) = Some (vec fs Kn Rm, kept_from 0 (map Pm (fl fs C))).
Proof.
  intros HO. unfold map_states. change (r_ids1 (vec fs Ke C)) with (ids_of (Lg fs Ke)). rewrite zlen_ids1, zlen_map, zlen_L, Z.eqb_refl. rewrite zlen_arcs.
  assert (EK : mapM (fun j => p <- arc_pos (vec fs Ke C) j;; let '(a, s, b) := p in x <- rd (map sm (L N Ke)) (b + src a);; y <- rd (map sm (L N Ke)) (b + dst a);; Some (negb (x =? -1) && negb (y =? -1))) (zrange (zlen (fl fs C))) = Some (map Pm (fl fs C))).
  { apply mapM_by_rd; [rewrite zlen_map, zlen_zrange by apply zlen_nonneg; auto|]. intros j j' Hj. pose proof (rd_Some_bound _ _ _ Hj) as B. rewrite zlen_zrange in B by apply zlen_nonneg. rewrite rd_zrange in Hj by auto. injection Hj as <-. destruct (rd_in_bound (fl fs C) j B) as (x & Hx). rewrite (arc_pos_ok fs Ke C WF _ _ Hx). destruct (rd_fl fs Ke C WF j x Hx) as (k & Bo & K1 & _ & _ & _ & W1 & W2 & _). rewrite enc_src, enc_dst, !sm_rd by auto. rewrite !sm_neg, rd_map, Hx. reflexivity. }
  rewrite EK. rewrite new2old_kept by (rewrite zlen_map; apply HO). cbn [vec r_rs2 r_ids2]. rewrite <- (rows_concat fs Ke C WF) at 1. rewrite o2n_splits. rewrite map_map. change (fun x => filter Pm (C x)) with Rm.
  assert (EI : mapM (rd (ids_of (map C (L N Ke)))) (kept_from 0 (map Pm (fl fs C))) = Some (ids_of (map Rm (L N Ke)))). { rewrite <- (rows_concat fs Ke C WF). rewrite n2o_ids, map_map. reflexivity. }
  rewrite EI. clear EI.
  (* the counts *)
  assert (ZL : zlen (L N Ke) = nw Ke N) by reflexivity.
  assert (EC : forall l, (forall s, In s l -> 0 <= s < nw Ke N) -> forall D : Z -> bool, foldM (fun c s => t <- rd (map sm (L N Ke)) s;; if t =? -1 then Some c else x <- rd (splits_of (map Rm (L N Ke))) s;; y <- rd (splits_of (map Rm (L N Ke))) (s + 1);; wr c t (y - x)) l (map (fun o => if D o then zlen (Rm o) else 0) (L N Kn)) =
    Some (map (fun o => if D o || existsb (fun s => match rd (L N Ke) s with Some q => o =? q | None => false end) l then zlen (Rm o) else 0) (L N Kn))).
  { induction l as [|s l IH]; intros Hl D; cbn [foldM existsb]; [f_equal; apply map_ext; intros; now rewrite orb_false_r|]. destruct (rd_in_bound (L N Ke) s ltac:(rewrite ZL; apply Hl; now left)) as (q & Hq). destruct (L_rd _ _ _ _ Hq) as (Bq & Kq & ->). rewrite rd_map, Hq. cbn [option_map]. destruct (sm q =? -1) eqn:E1.
    - rewrite IH by (intros; apply Hl; now right). f_equal. apply map_ext_in. intros o Ho. apply filter_In in Ho as (_ & Ho). destruct (o =? q) eqn:E2; [|now cbn]. exfalso. assert (o = q) by lia. subst q. pose proof (sm_neg o). rewrite E1, Ho in H. discriminate.
    - pose proof (sm_neg q) as SN. rewrite E1 in SN. cbn in SN. rewrite (rs_L N Ke Rm Rm_nil) by lia. rewrite (rs_L1 N Ke Rm Rm_nil) by auto. replace (A Rm q + zlen (Rm q) - A Rm q) with (zlen (Rm q)) by lia. assert (ESM : sm q = nw Kn q) by (unfold sm; now rewrite <- SN). rewrite ESM. rewrite wr_L by auto. pose proof (IH ltac:(intros; apply Hl; now right) (fun o => D o || (o =? q))) as E2.
      assert (EM : map (fun o => if o =? q then zlen (Rm q) else if D o then zlen (Rm o) else 0) (L N Kn) = map (fun o => if D o || (o =? q) then zlen (Rm o) else 0) (L N Kn)). { apply map_ext. intros o. destruct (o =? q) eqn:E3; [assert (o = q) by lia; subst; now rewrite orb_true_r|now rewrite orb_false_r]. }
      rewrite EM, E2. f_equal. apply map_ext. intros o. now rewrite orb_assoc. }
  assert (ER : repeat 0 (length (ids_of (Lg fs Kn))) = map (fun o => if false then zlen (Rm o) else 0) (L N Kn)).
  { assert (EL : length (ids_of (Lg fs Kn)) = length (L N Kn)) by (pose proof (zlen_ids1 fs Kn) as Q; rewrite <- zlen_L in Q; unfold zlen in Q; lia). rewrite EL. generalize (L N Kn). induction l as [|y l IH]; cbn; congruence. }
  assert (HSC : forall s, In s (ord (nw Ke N)) -> 0 <= s < nw Ke N) by (intros s Hs; apply (in_sched _ _ _ (HO _)) in Hs; exact Hs).
  pose proof (EC (ord (nw Ke N)) HSC (fun _ => false)) as EC0. cbv beta in EC0. rewrite ER, EC0.
  assert (ED : map (fun o => if false || existsb (fun s => match rd (L N Ke) s with Some q => o =? q | None => false end) (ord (nw Ke N)) then zlen (Rm o) else 0) (L N Kn) = map zlen (map Rm (L N Kn))).
  { rewrite map_map. apply map_ext_in. intros o Ho. apply filter_In in Ho as (Ho & Kno). apply in_zrange in Ho. cbn [orb]. destruct (existsb _ _) eqn:E1; auto. destruct (Ke o) eqn:KO; [|now rewrite Rm_nil]. exfalso. pose proof (rd_L N Ke o Ho KO) as HL. pose proof (rd_Some_bound _ _ _ HL) as BL. rewrite ZL in BL. assert (X : existsb (fun s => match rd (L N Ke) s with Some q => o =? q | None => false end) (ord (nw Ke N)) = true); [|congruence]. apply existsb_exists. exists (nw Ke o). split; [|rewrite HL; apply Z.eqb_refl]. apply (in_sched _ _ _ (HO _)). exact BL. }
  rewrite ED. change (exsum (map zlen (map Rm (L N Kn)))) with (splits_of (map Rm (L N Kn))).
  set (an := kept_from 0 (map Pm (fl fs C))). assert (EA : mapM (rd (fl fs C)) an = Some (fl fs Rm)). { pose proof (n2o_values Pm (fun x => x) (fl fs C)) as Q. rewrite !map_id, <- fl_Rm in Q. exact Q. }
  assert (ZA : zlen an = zlen (fl fs Rm)) by (pose proof (mapM_length _ _ _ EA); unfold zlen; lia).
  set (out := imap (fun k x => (enc fs Kn x, match rd an k with Some j => j | None => 0 end)) 0 (fl fs Rm)).
  assert (ZO : zlen out = zlen (fl fs Rm)) by (unfold out; apply zlen_imap).
  assert (EO : k2_fill (zlen out) (ord (zlen out)) (fun k => s <- rd (ids_of (map Rm (L N Ke))) k;; x <- rd (splits_of (map Rm (L N Ke))) s;; j <- rd an k;; a <- rd (r_arcs (vec fs Ke C)) j;; i <- rd (ids_of (Lg fs Ke)) s;; b <- rd (r_rs1 (vec fs Ke C)) i;; t <- rd (map sm (L N Ke)) s;; dx <- rd (splits_of (map Rm (L N Kn))) t;; di <- rd (ids_of (Lg fs Kn)) t;; db <- rd (splits_of (Lg fs Kn)) di;; e <- rd (map sm (L N Ke)) (b + dst a);; Some [(dx + (k - x), (mkArc (t - db) (e - db) (lab a) (sc a), j))]) = Some out).
  { apply (k2_fill_list_fun out (zlen out) _ _ (fun k => match rd out k with Some w => [(k, w)] | None => [] end)); [apply HO| | |].
    - intros k Bk. rewrite ZO in Bk. destruct (rd_in_bound (fl fs Rm) k Bk) as (x & Hx). destruct (rd_flat N Ke Rm Rm_nil k x Hx) as (o & q & Bo & KO & H1 & H2 & H3). destruct (in_Rm o x ltac:(eapply rd_In; eauto)) as (IC & _ & _ & S1 & W1 & W2 & W3 & W4 & W5). rewrite H3, (rs_L N Ke Rm Rm_nil) by lia.
      destruct (rd_in_bound an k ltac:(lia)) as (j & Hj). rewrite Hj. destruct (mapM_rd _ _ _ _ _ EA Hx) as (j' & Q1 & Q2). rewrite Hj in Q1. injection Q1 as <-. rewrite (arc_rd fs Ke C _ _ Q2). rewrite ids1_Lg by auto. destruct (b_rd fs Ke C o Bo) as (i & E1 & Bi & E2). rewrite E1, E2. assert (SM1 : sm o = nw Kn o) by (unfold sm; now rewrite W4). assert (SM2 : sm (idst x) = nw Kn (idst x)) by (unfold sm; now rewrite W5). rewrite sm_rd by auto. rewrite SM1. rewrite (rs_L N Kn Rm Rm_niln) by lia. rewrite ids1_Lg by auto. rewrite E1, rs1_Lg by lia. assert (ESO : off1 fs i = so fs o) by (unfold so; now rewrite E1). rewrite ESO. assert (EDS : nw Ke (so fs o) + dst (enc fs Ke x) = nw Ke (idst x)) by (rewrite <- S1; apply enc_dst). rewrite EDS, sm_rd by auto. rewrite SM2. assert (EOUT : rd out k = Some (enc fs Kn x, j)) by (unfold out; rewrite rd_imap, Hx; cbn [option_map]; rewrite Z.add_0_l; now rewrite Hj). rewrite EOUT. do 2 f_equal. f_equal; [lia|]. unfold enc. rewrite S1. reflexivity.
    - intros k w Bk Hw. destruct (rd out k) as [w'|] eqn:Ew; [|destruct Hw]. destruct Hw as [<-|[]]. exact Ew.
    - intros k Bk. exists k. split; [auto|]. destruct (rd_in_bound out k Bk) as (w & ->). now left. }
  rewrite ZO, <- ZA in EO. rewrite EO. rewrite ZA. unfold fl. rewrite <- (concat_L N Kn Rm Rm_niln). rewrite row_ids_of_splits. do 2 f_equal.
  - unfold vec. f_equal. unfold out. rewrite map_imap. cbn [fst]. rewrite imap_const. reflexivity.
  - apply list_ext_rd; [rewrite zlen_map; lia|]. intros k Bk. rewrite rd_map. unfold out. rewrite rd_imap. rewrite zlen_map in Bk. destruct (rd_in_bound (fl fs Rm) k ltac:(lia)) as (x & ->). cbn [option_map snd]. rewrite Z.add_0_l. destruct (rd_in_bound an k ltac:(lia)) as (j & ->). reflexivity.
Qed.
End MapS.
Theorem closure_mapped_ok fs Ke Kn C cmap ord esub nsub : wf fs Ke C -> (forall o, Ke o = true -> 0 <= o < NS fs) -> fair ord -> cmap = map snd (fl fs C) ->
  s_n2o esub = L (NS fs) Ke -> s_keep nsub = map Kn (zrange (NS fs)) -> r_rs1 (s_vec nsub) = splits_of (Lg fs Kn) -> r_ids1 (s_vec nsub) = ids_of (Lg fs Kn) ->
  closure_mapped ord (vec fs Ke C) cmap esub nsub = Some (vec fs Kn (Rm Kn C), map snd (fl fs (Rm Kn C))).
Proof.
  intros WF RNG HO -> E1 E2 E3 E4. unfold closure_mapped. rewrite E1, E2, E3, E4. pose proof (HNS fs). change (r_ids1 (vec fs Ke C)) with (ids_of (Lg fs Ke)). rewrite zlen_ids1.
  assert (ES : mapM (fun s => o <- rd (L (NS fs) Ke) s;; k <- rd (map Kn (zrange (NS fs))) o;; if k : bool then rd (old2new (map Kn (zrange (NS fs)))) o else Some (-1)) (zrange (nw Ke (NS fs))) = Some (map (sm Kn) (L (NS fs) Ke))).
  { apply mapM_by_rd; [rewrite zlen_map, zlen_zrange by apply zlen_nonneg; reflexivity|]. intros s s' Hs. pose proof (rd_Some_bound _ _ _ Hs) as B. rewrite zlen_zrange in B by apply zlen_nonneg. rewrite rd_zrange in Hs by auto. injection Hs as <-. destruct (rd_in_bound (L (NS fs) Ke) s B) as (o & Ho). destruct (L_rd _ _ _ _ Ho) as (Bo & _ & _). rewrite Ho, !rd_map, Ho, rd_zrange by auto. cbn. unfold sm. destruct (Kn o); [|reflexivity]. apply rd_o2n. lia. }
  rewrite ES. rewrite map_states_ok by auto. cbn [fst snd]. rewrite n2o_values, <- fl_Rm. reflexivity.
Qed.
