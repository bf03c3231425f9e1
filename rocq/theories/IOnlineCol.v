(** * One stream: what holds of its frames, whatever frames come next *)
From Coq Require Import ZArith List Lia Bool QArith Permutation Lqa.
From Coq Require Import ZifyBool ZifyNat.
From Verif Require Import Base RaggedModel RaggedSpec RaggedProofs FsaSpec FsaLemmas RaggedOpsModel OpsModel RaggedOpsProofs ConnectProofs ScoreSpec ScorePaths IDenseModel IDenseSpec IPrunedModel IPrunedNest IPrunedCut IPrunedMerge IPrunedFwd IPrunedCol IPrunedInv IPrunedPrune IPrunedAlive IPrunedRun IPrunedSpec IOnlineSpec.
From Verif Require Import IDensePaths.
Import ListNotations.
Open Scope Z_scope.

Lemma frame_rd R R' t t' l : rd R t = rd R' t' -> frame R t l = frame R' t' l.
Proof. intros E. unfold frame. now rewrite E. Qed.
Lemma above_mono x y cut : ole x y -> above x cut = true -> above y cut = true.
Proof.
  unfold above. destruct x as [x|]; [|discriminate]. destruct y as [y|]; [|now intros []]. cbn. intros L. destruct (fst cut) as [m|]; [|auto].
  rewrite !negb_true_iff. intros H. destruct (Qle_bool (inject_Z y) (inject_Z m - snd cut)) eqn:E; [|reflexivity]. apply Qle_bool_iff in E. rewrite <- H. symmetry. apply Qle_bool_iff. rewrite Zle_Qle in L. lra.
Qed.

Section Online.
Context (f : nfsa) (cols stride sb ob mina maxa : Z) (partial : bool).
Definition cf (on : bool) (seqs : list frames) : cfg :=
  mkCfg (flat_vec [f]) (ids_of [f]) (flat_dense cols stride seqs) (zlen seqs) sb ob mina maxa partial 0 (zlen (concat [f])) 32 on.
Hypothesis Vf : valid f.
Hypothesis Lf : forall a, In a (all_arcs f) -> lab a < cols - 1.
Hypothesis Hcs : cols <= stride.
Hypothesis Hsb : 0 < sb.
Hypothesis Hob : 0 < ob.
Hypothesis Hmm : 0 <= mina < maxa.

Definition wide (R : frames) : Prop := forall r, In r R -> zlen r = stride.
Lemma su on seqs : (forall s, In s seqs -> wide s) -> setup [f] seqs cols stride (cf on seqs).
Proof.
  intros W. split; try reflexivity; auto.
  - intros g [<-|[]]. now right.
  - intros g a [<-|[]]. apply Lf.
  - intros s r Hs Hr. exact (W s Hs r Hr).
Qed.
Lemma su1 on R : wide R -> setup [f] [R] cols stride (cf on [R]).
Proof. intros W. apply su. now intros s [<-|[]]. Qed.
Lemma gr_k on seqs k : gr [f] (cf on seqs) k = f.
Proof. unfold gr, gi. cbn. now rewrite Z.mul_0_r. Qed.
Lemma vb_k on seqs k : vb [f] (cf on seqs) k = 0.
Proof. unfold vb, gi. cbn. now rewrite Z.mul_0_r. Qed.
Lemma AB_k on seqs k : AB [f] (cf on seqs) k = 0.
Proof. unfold AB. rewrite vb_k. reflexivity. Qed.

(** a forward step of a chunk is one for all the frames *)
Lemma fcol_lift seqs k R h t S beam C nxt beam' : 0 <= t < zlen (rw seqs k) - 1 -> 0 <= h -> h + t < zlen R - 1 -> rd R (h + t) = rd (rw seqs k) t ->
  fcol [f] seqs (cf true seqs) k t S beam C nxt beam' -> fcol [f] [R] (cf true [R]) 0 (h + t) S beam C nxt beam'.
Proof.
  intros Ht Hh Hr E FC. assert (P1 : pm [f] seqs (cf true seqs) k t S = false) by (unfold pm; replace (zlen (rw seqs k) - 1 =? t) with false by lia; reflexivity).
  assert (P2 : pm [f] [R] (cf true [R]) 0 (h + t) S = false) by (unfold pm; change (rw [R] 0) with R; replace (zlen R - 1 =? h + t) with false by lia; reflexivity).
  assert (O : forall s, outs [f] (cf true seqs) k s = outs [f] (cf true [R]) 0 s) by (intros; unfold outs; now rewrite !gr_k, !vb_k).
  assert (G : forall s, garcs [f] seqs (cf true seqs) k t false s = garcs [f] [R] (cf true [R]) 0 (h + t) false s).
  { intros s. unfold garcs. rewrite O. apply imap_ext. intros i a. unfold garc. rewrite !gr_k, !vb_k, !AB_k. change (rw [R] 0) with R. now rewrite (frame_rd R (rw seqs k) (h + t) t _ E). }
  assert (Cu : cut_of [f] seqs (cf true seqs) k t S beam = cut_of [f] [R] (cf true [R]) 0 (h + t) S beam).
  { unfold cut_of. rewrite P1, P2. rewrite (map_ext _ _ G). reflexivity. }
  destruct FC as [F1 F2 F3 F4]. split.
  - now rewrite <- Cu.
  - rewrite <- Cu, P2. rewrite P1 in F2. clear -F2 G. generalize dependent (cut_of [f] seqs (cf true seqs) k t S beam). intros cu F2. induction F2 as [|s x l1 l2 A0 _ IH]; constructor; [now rewrite <- G|exact IH].
  - rewrite <- Cu, P2. rewrite P1 in F3. intros s' Hs. destruct (F3 s' Hs) as (A & (s & a & B1 & B2 & B3) & (s2 & a2 & B4 & B5 & B6)). split; [exact A|]. split; [exists s, a|exists s2, a2]; rewrite <- G; auto.
  - exact F4.
Qed.

(** every state of a later column has an arc into it that gives it its score *)
Definition linked (H : list (list nst)) : Prop :=
  forall i col' d x', 0 <= i -> rd H (i + 1) = Some col' -> rd col' d = Some x' ->
    exists x y, on H i x /\ In y (snd x) /\ i_dst y = d /\ oadd (s_f (fst x)) (i_ll y) = s_f (fst x').
(** [R] has the frames [real] and others *)
Definition extends (real R : frames) : Prop := exists more, more <> [] /\ R = real ++ more.
Record sinv (real : frames) (H : list (list nst)) (e : Z) (beam : Q) : Prop := {
  si_len : zlen H = zlen real + 1;
  si_e : e <= zlen real;
  si_col : forall R, dense_rows R -> wide R -> extends real R -> colinv [f] [R] (cf true [R]) 0 H e beam;
  si_link : linked H;
  si_ne : exists x, on H (zlen real) x;
  si_beam : (0 < beam)%Q }.

Lemma sinv_ne real H e beam : sinv real H e beam -> forall i col, rd H i = Some col -> col <> [].
Proof.
  intros SI. pose proof (si_len _ _ _ _ SI) as ZL. assert (P : forall m : nat, Z.of_nat m <= zlen real -> exists x, on H (zlen real - Z.of_nat m) x).
  { induction m as [|m IH]; intros Hm; [rewrite Z.sub_0_r; apply (si_ne _ _ _ _ SI)|]. destruct IH as (x & col & Hc & Hx); [lia|]. apply In_rd in Hx as (d & _ & Hd).
    replace (zlen real - Z.of_nat m) with (zlen real - Z.of_nat (S m) + 1) in Hc by lia. destruct (si_link _ _ _ _ SI (zlen real - Z.of_nat (S m)) col d x ltac:(lia) Hc Hd) as (x0 & _ & Hx0 & _). eauto. }
  intros i col Hc. pose proof (rd_Some_bound _ _ _ Hc). destruct (P (Z.to_nat (zlen real - i))) as (x & c2 & C1 & C2); [lia|]. replace (zlen real - _) with i in C1 by lia. rewrite Hc in C1. injection C1 as <-. intros ->. destruct C2.
Qed.
Lemma sinv_start beam : (inject_Z sb <= beam)%Q -> sinv [] [[(mkS 0 (Some 0) None, [])]] 0 beam.
Proof.
  intros Hb. destruct Vf as (V1 & V2 & V3). unfold nstates in V2.
  assert (ON : forall i x, on [[(mkS 0 (Some 0) None, [])]] i x -> i = 0 /\ x = (mkS 0 (Some 0) None, [])).
  { intros i x (col & Hc & Hx). pose proof (rd_Some_bound _ _ _ Hc) as B. change (zlen [[(mkS 0 (Some 0) None, @nil ainfo)]]) with 1 in B. assert (i = 0) as -> by lia. cbn in Hc. injection Hc as <-. destruct Hx as [<-|[]]. auto. }
  split.
  - reflexivity.
  - apply Z.le_refl.
  - intros R (D1 & D2 & D3) W E. exists false. split; [split|].
    + vm_compute. discriminate.
    + discriminate.
    + change (gr [f] (cf true [R]) 0) with f. change (vb [f] (cf true [R]) 0) with 0. eexists. split; [reflexivity|]. destruct f as [|l0 f0]; [exfalso; change (zlen (@nil (list arc))) with 0 in V2; lia|]. split; [reflexivity|]. intros x [<-|[]]. reflexivity.
    + intros i x Hx. destruct (ON _ _ Hx) as (-> & ->). change (gr [f] (cf true [R]) 0) with f. change (vb [f] (cf true [R]) 0) with 0. change (rw [R] 0) with R. cbn [fst s_a]. lia.
    + intros i x Hx. destruct (ON _ _ Hx) as (-> & ->). split; [eexists; reflexivity|]. intros _. exists []. cbn. split; [constructor|]. auto.
    + intros i col Hc. pose proof (rd_Some_bound _ _ _ Hc) as B. change (zlen [[(mkS 0 (Some 0) None, @nil ainfo)]]) with 1 in B. assert (i = 0) as -> by lia. cbn in Hc. injection Hc as <-. cbn. constructor; [easy|constructor].
    + intros i x y Hx Hy. destruct (ON _ _ Hx) as (-> & ->). destruct Hy.
    + intros i x Hx. destruct (ON _ _ Hx) as (-> & ->). constructor.
    + intros i x y Hx Hy. destruct (ON _ _ Hx) as (-> & ->). destruct Hy.
    + intros p z G. split; [|intros _; exact Hb]. split; [intros X; change (zlen [[(mkS 0 (Some 0) None, @nil ainfo)]]) with 1 in X; change (rw [R] 0) with R in X; lia|]. intros i j Hi. change (zlen [[(mkS 0 (Some 0) None, @nil ainfo)]]) with 1 in Hi. lia.
  - intros i col' d x' Hi Hc. apply rd_Some_bound in Hc. change (zlen [[(mkS 0 (Some 0) None, @nil ainfo)]]) with 1 in Hc. lia.
  - exists (mkS 0 (Some 0) None, []). exists [(mkS 0 (Some 0) None, [])]. split; [reflexivity|now left].
  - eapply Qlt_le_trans; [|exact Hb]. change 0%Q with (inject_Z 0). rewrite <- Zlt_Qlt. exact Hsb.
Qed.

Lemma new_beam_pos c t ft active beam : c_online c = true -> 0 < c_sbeam c -> (0 < beam)%Q -> (0 < new_beam c t ft active beam)%Q.
Proof.
  intros On Hs Hb. assert (Hd : (0 < inject_Z (c_sbeam c))%Q) by (change 0%Q with (inject_Z 0); rewrite <- Zlt_Qlt; exact Hs). unfold new_beam. rewrite On. cbn [negb andb orb].
  destruct (active <=? c_max c); [destruct (_ || (active =? 0)); [lra|]; destruct (Qle_bool _ _); lra|destruct (Qle_bool _ _); lra].
Qed.

Section Fwd.
Context (real : frames) (row : list (option Z)) (H H' : list (list nst)) (e : Z) (beam beam' : Q) (R0 : frames) (col C : list nst) (nxt : list sinfo).
Notation t := (zlen real).
Hypothesis SI : sinv real H e beam.
Hypothesis D0 : dense_rows R0.
Hypothesis W0 : wide R0.
Hypothesis X0 : extends (real ++ [row]) R0.
Hypothesis K0 : keeps_going f R0.
Hypothesis E1 : rd H t = Some col.
Hypothesis Z2 : zlen H' = t + 2.
Hypothesis E0 : forall i, i < t -> rd H' i = rd H i.
Hypothesis E2 : rd H' t = Some C.
Hypothesis E3 : rd H' (t + 1) = Some (map (fun s => (s, [])) nxt).
Hypothesis FC : forall R, wide R -> extends (real ++ [row]) R -> fcol [f] [R] (cf true [R]) 0 t (map fst col) beam C nxt beam'.

Lemma ext_less R : extends (real ++ [row]) R -> extends real R /\ t < zlen R - 1.
Proof.
  clear. intros (more & M & ->). split; [exists (row :: more); split; [discriminate|now rewrite <- app_assoc]|]. rewrite !zlen_app, zlen_cons, zlen_nil. destruct more as [|r more]; [congruence|]. rewrite zlen_cons. pose proof (zlen_nonneg more). lia.
Qed.
Lemma arcs_of R x : wide R -> extends (real ++ [row]) R -> In x C -> Forall2 (fun a a' => exists d, a' = setd a d /\
      ((d = -1 /\ above (i_end a) (cut_of [f] [R] (cf true [R]) 0 t (map fst col) beam) = false) \/ (0 <= d /\ exists s', rd nxt d = Some s' /\ s_a s' = i_dst a /\ ole (i_end a) (s_f s'))))
      (garcs [f] [R] (cf true [R]) 0 t (pm [f] [R] (cf true [R]) 0 t (map fst col)) (fst x)) (snd x).
Proof.
  intros W X Hx. apply In_rd in Hx as (r & _ & Hr). destruct (Forall2_rd _ _ _ (fc_arcs _ _ _ _ _ _ _ _ _ _ (FC R W X))) as (L & F). pose proof (rd_Some_bound _ _ _ Hr) as B. destruct (rd_in_bound (map fst col) r) as (s & Hs); [lia|]. destruct (F _ _ _ Hs Hr) as (<- & G). exact G.
Qed.

Lemma fwd_link : linked H'.
Proof.
  intros i col' d x' Hi Hc Hd. destruct (ext_less R0 X0) as (XL & TL). pose proof (si_len _ _ _ _ SI) as ZL. pose proof (rd_Some_bound _ _ _ Hc) as B. assert (D : i + 1 < t \/ i + 1 = t \/ i = t) by lia. destruct D as [D|[D|D]].
  - rewrite E0 in Hc by lia. destruct (si_link _ _ _ _ SI i col' d x' Hi Hc Hd) as (x & y & (c1 & A1 & A2) & A3). exists x, y. split; [exists c1; rewrite E0 by lia; auto|exact A3].
  - rewrite D, E2 in Hc. injection Hc as <-. assert (F : map fst C = map fst col) by exact (F2_fst _ _ _ (fc_arcs _ _ _ _ _ _ _ _ _ _ (FC R0 W0 X0))).
    assert (exists x1, rd col d = Some x1 /\ fst x1 = fst x') as (x1 & Hx1 & Ex1). { assert (G : rd (map fst col) d = Some (fst x')) by (rewrite <- F, rd_map, Hd; reflexivity). rewrite rd_map in G. destruct (rd col d) as [x1|]; [|discriminate]. injection G as G. eauto. }
    rewrite <- D in E1. destruct (si_link _ _ _ _ SI i col d x1 Hi E1 Hx1) as (x & y & (c1 & A1 & A2) & A3 & A4 & A5). exists x, y. rewrite <- Ex1. split; [exists c1; rewrite E0 by lia; auto|auto].
  - subst i. rewrite E3 in Hc. injection Hc as <-. rewrite rd_map in Hd. destruct (rd nxt d) as [s'|] eqn:Es; [|discriminate]. injection Hd as <-. cbn [fst].
    destruct (fc_st _ _ _ _ _ _ _ _ _ _ (FC R0 W0 X0) s' (rd_In _ _ _ Es)) as (_ & (s1 & a1 & P1 & P2 & P3 & P4) & (s2 & a2 & Q1 & Q2 & Q3 & Q4)).
    set (p0 := pm [f] [R0] (cf true [R0]) 0 t (map fst col)) in *. set (cut := cut_of [f] [R0] (cf true [R0]) 0 t (map fst col) beam) in *.
    assert (HIT : forall s a, In s (map fst col) -> In a (garcs [f] [R0] (cf true [R0]) 0 t p0 s) -> exists x a' dd, In x C /\ fst x = s /\ In a' (snd x) /\ a' = setd a dd /\
       ((dd = -1 /\ above (i_end a) cut = false) \/ (0 <= dd /\ exists s', rd nxt dd = Some s' /\ s_a s' = i_dst a /\ ole (i_end a) (s_f s')))).
    { intros s a Hs Ha. apply In_rd in Hs as (r & Br & Hr). destruct (Forall2_rd _ _ _ (fc_arcs _ _ _ _ _ _ _ _ _ _ (FC R0 W0 X0))) as (L & F). destruct (rd_in_bound C r) as (x & Hx); [lia|]. destruct (F _ _ _ Hr Hx) as (G1 & G2). destruct (Forall2_rd _ _ _ G2) as (L2 & G3).
      apply In_rd in Ha as (m & Bm & Hm). destruct (rd_in_bound (snd x) m) as (a' & Ha'); [fold p0 in L2; lia|]. destruct (G3 _ _ _ Hm Ha') as (dd & D1 & D2). exists x, a', dd. repeat split; eauto using rd_In. }
    assert (UQ : forall dd s'', rd nxt dd = Some s'' -> s_a s'' = s_a s' -> dd = d /\ s'' = s').
    { intros dd s'' Hdd Ea. pose proof (fc_nd _ _ _ _ _ _ _ _ _ _ (FC R0 W0 X0)) as ND. rewrite NoDup_nth_error in ND. pose proof (rd_Some_bound _ _ _ Hdd) as BD. pose proof (rd_Some_bound _ _ _ Es) as BR.
      assert (Z.to_nat dd = Z.to_nat d) as EE; [|assert (dd = d) as -> by lia; split; [reflexivity|congruence]]. apply ND; [rewrite map_length; unfold zlen in BD; lia|]. rewrite <- !rd_nth, !Z2Nat.id, !rd_map, Hdd, Es by lia. cbn. congruence. }
    destruct (HIT s1 a1 P1 P2) as (_ & _ & d1 & _ & _ & _ & _ & [(_ & X)|(_ & s'' & S1 & S2 & S3)]); [congruence|]. rewrite P3 in S2. destruct (UQ _ _ S1 S2) as (_ & ->).
    destruct (HIT s2 a2 Q1 Q2) as (x & a' & d2 & U1 & U2 & U3 & U4 & [(_ & X)|(_ & s'' & S1' & S2' & S3')]).
    { exfalso. rewrite (above_mono (i_end a1) (i_end a2) cut) in X; [discriminate|rewrite Q4; exact S3|exact P4]. }
    rewrite Q3 in S2'. destruct (UQ _ _ S1' S2') as (-> & _). exists x, a'. split; [exists C; auto|]. split; [exact U3|]. rewrite U4. cbn [setd i_dst i_ll]. split; [reflexivity|]. rewrite <- Q4, U2.
    destruct (garcs_in [f] [R0] cols stride _ (su1 true R0 W0) 0 _ _ _ _ Q2) as (j & a & G1 & G2 & G3 & G4 & G5 & G6 & _). rewrite G4, G6. reflexivity.
Qed.

Lemma fwd_ne : exists x, on H' (t + 1) x.
Proof.
  destruct (ext_less R0 X0) as (XL & TL). destruct (si_ne _ _ _ _ SI) as (x & c1 & Hc1 & Hx). rewrite E1 in Hc1. injection Hc1 as <-. destruct (si_col _ _ _ _ SI R0 D0 W0 XL) as (pmf & CI & _).
  assert (OX : on H t x) by (exists col; auto). destruct (ci_gen _ _ _ _ _ _ _ CI t x OX) as ((u & Hu) & GN). destruct (GN ltac:(right; change (rw [R0] 0) with R0; lia)) as (l & L1 & L2 & L3). change (gr [f] (cf true [R0]) 0) with f in *. change (vb [f] (cf true [R0]) 0) with 0 in *. change (rw [R0] 0) with R0 in *. rewrite Hu in L3.
  destruct (K0 l _ u L1 ltac:(lia) L3) as (a & y & A1 & A2 & A3). rewrite L2 in A3.
  destruct (ci_rng _ _ _ _ _ _ _ CI t x OX) as (B1 & _ & _). change (gr [f] (cf true [R0]) 0) with f in B1. change (vb [f] (cf true [R0]) 0) with 0 in B1.
  assert (Pm : pm [f] [R0] (cf true [R0]) 0 t (map fst col) = false) by (unfold pm; change (rw [R0] 0) with R0; replace (zlen R0 - 1 =? t) with false by lia; reflexivity).
  assert (exists b, In b (garcs [f] [R0] (cf true [R0]) 0 t false (fst x)) /\ exists w, i_end b = Some w) as (b & Hb & w & Hw).
  { destruct Vf as (V1 & _). unfold all_arcs in A1. apply In_rd in A1 as (j & _ & A1). apply rd_concat_inv in A1 as (s & ls & m & F1 & F2 & _). pose proof (V1 _ _ _ F1 (rd_In _ _ _ F2)) as Es. rewrite A2 in Es. subst s.
    exists (garc [f] [R0] (cf true [R0]) 0 t false (fst x) m a). split.
    - apply (rd_In _ m). unfold garcs. rewrite rd_imap. assert (EO : outs [f] (cf true [R0]) 0 (fst x) = ls) by (unfold outs; change (gr [f] (cf true [R0]) 0) with f; change (vb [f] (cf true [R0]) 0) with 0; now rewrite F1). rewrite EO, F2, Z.add_0_l. reflexivity.
    - unfold garc. cbn [i_end]. change (rw [R0] 0) with R0. rewrite A3, Hu. cbn. eauto. }
  (* the best arc is kept *)
  pose proof (FC R0 W0 X0) as F. set (cut := cut_of [f] [R0] (cf true [R0]) 0 t (map fst col) beam) in *. assert (Ec : fst cut = kmax (map i_end (concat (map (garcs [f] [R0] (cf true [R0]) 0 t false) (map fst col))))) by (unfold cut, cut_of; rewrite Pm; reflexivity).
  assert (Hib : In (Some w) (map i_end (concat (map (garcs [f] [R0] (cf true [R0]) 0 t false) (map fst col))))).
  { rewrite <- Hw. apply in_map. apply in_concat. eexists. split; [apply in_map; apply in_map; exact Hx|exact Hb]. }
  pose proof (kmax_ge _ _ Hib) as KG. destruct (kmax (map i_end (concat (map (garcs [f] [R0] (cf true [R0]) 0 t false) (map fst col))))) as [M|] eqn:EM; [|destruct KG].
  apply kmax_in in EM. apply in_map_iff in EM as (ym & Em & Hm). apply in_concat in Hm as (lm & Lm & Hm). apply in_map_iff in Lm as (sm & <- & Lm).
  assert (AB1 : above (i_end ym) cut = true).
  { rewrite Em. unfold above. rewrite Ec. apply negb_true_iff. destruct (Qle_bool _ _) eqn:Q; [|reflexivity]. apply Qle_bool_iff in Q. exfalso. assert (P : (0 < snd cut)%Q) by (apply new_beam_pos; [reflexivity|exact Hsb|apply (si_beam _ _ _ _ SI)]). lra. }
  apply In_rd in Lm as (r & Br & Hr). destruct (Forall2_rd _ _ _ (fc_arcs _ _ _ _ _ _ _ _ _ _ F)) as (LL & FF). destruct (rd_in_bound C r) as (xx & Hxx); [lia|]. destruct (FF _ _ _ Hr Hxx) as (_ & G2). rewrite Pm in G2. destruct (Forall2_rd _ _ _ G2) as (L2' & G3).
  apply In_rd in Hm as (m & Bm & Hm). destruct (rd_in_bound (snd xx) m) as (a' & Ha'); [lia|]. destruct (G3 _ _ _ Hm Ha') as (dd & _ & [(_ & X)|(_ & s' & S1 & _)]); [fold cut in X; congruence|].
  exists (s', []). exists (map (fun s => (s, [])) nxt). split; [exact E3|]. apply in_map_iff. exists s'. split; [reflexivity|eapply rd_In; eauto].
Qed.

Lemma sinv_fwd : sinv (real ++ [row]) H' e beam'.
Proof.
  pose proof (si_len _ _ _ _ SI) as ZL. pose proof (si_e _ _ _ _ SI) as Le. assert (ZR : zlen (real ++ [row]) = t + 1) by (rewrite zlen_app, zlen_cons, zlen_nil; lia). split.
  - lia.
  - lia.
  - intros R D W X. destruct (ext_less R X) as (XL & TL). destruct (si_col _ _ _ _ SI R D W XL) as (pmf & CI & AL). destruct D as (Q1 & Q2 & Q3). exists (pmf' [f] [R] (cf true [R]) 0 pmf t col). change (rw [R] 0) with R in *.
    split; [eapply (cinv_fwd [f] [R] cols stride (cf true [R]) (su1 true R W) 0 ltac:(split; [lia|reflexivity]) Q2 Q3 pmf H H'); eauto; lia|].
    intros pp z [G1 G2 G3 G4 G5 G6 G7]. destruct (AL pp z) as (AL1 & AL2); [split; auto|]. change (rw [R] 0) with R in *.
    assert (HBm : t < zlen R -> (inject_Z sb <= beam)%Q) by (intros _; apply AL2; lia). split.
    + eapply (alive_fwd [f] [R] cols stride (cf true [R]) (su1 true R W) 0 Q1 Q2 Q3 pp z G1 G2 G3 G4 G5 G6 Hsb G7 pmf H H'); eauto; try lia; change (rw [R] 0) with R in *; lia.
    + intros Y. eapply (beam_fwd [f] [R] (cf true [R]) 0 Q2 Q3 pp z G1 G2 G3 G4 G5 Hsb G7 pmf H H'); eauto; try lia; change (rw [R] 0) with R in *; lia.
  - exact fwd_link.
  - rewrite ZR. exact fwd_ne.
  - rewrite (fc_beam _ _ _ _ _ _ _ _ _ _ (FC R0 W0 X0)). apply new_beam_pos; [reflexivity|exact Hsb|apply (si_beam _ _ _ _ SI)].
Qed.
End Fwd.
End Online.
