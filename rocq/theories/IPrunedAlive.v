(** * A path within the beams is never lost *)
From Coq Require Import ZArith List Lia Bool QArith Permutation.
From Coq Require Import ZifyBool ZifyNat Lqa.
From Verif Require Import Base RaggedModel RaggedSpec RaggedProofs FsaSpec FsaLemmas RaggedOpsModel OpsModel RaggedOpsProofs ConnectProofs ScoreSpec ScorePaths IDenseModel IDenseSpec IPrunedModel IPrunedNest IPrunedCut IPrunedMerge IPrunedFwd IPrunedCol IPrunedInv IPrunedPrune.
From Verif Require Import IDensePaths.
Import ListNotations.
Open Scope Z_scope.
Notation ole := IDensePaths.ole.

Lemma sas_inj col x x' : NoDup (sas col) -> In x col -> In x' col -> s_a (fst x) = s_a (fst x') -> x = x'.
Proof.
  unfold sas. induction col as [|y col IH]; intros ND H1 H2 E; [easy|]. inversion ND as [|? ? N1 N2]. subst. destruct H1 as [->|H1], H2 as [->|H2]; auto.
  - exfalso. apply N1. rewrite E. exact (in_map (fun x => s_a (fst x)) col x' H2).
  - exfalso. apply N1. rewrite <- E. exact (in_map (fun x => s_a (fst x)) col x H1).
Qed.
Lemma apath_fun f s l q q' : apath f s l q -> apath f s l q' -> q = q'.
Proof.
  intros H. revert q'. induction H as [s|j a p t Hj H IH]; intros q' H'; inversion H'; subst; [reflexivity|]. apply IH.
  match goal with A : rd (all_arcs f) j = Some ?b |- _ => rewrite Hj in A; injection A as A; subst end. assumption.
Qed.
Lemma new_beam_ge c t ft active beam : active <= c_max c -> t <> ft - 1 -> (0 <= inject_Z (c_sbeam c))%Q -> (inject_Z (c_sbeam c) <= beam)%Q -> (inject_Z (c_sbeam c) <= new_beam c t ft active beam)%Q.
Proof.
  intros Ha Ht H0 Hb. unfold new_beam. replace (t =? ft - 1) with false by lia. rewrite andb_false_r. replace (active <=? c_max c) with true by lia.
  destruct (_ || (active =? 0)); [lra|]. destruct (Qle_bool _ _); lra.
Qed.

Section A.
Context (V : list nfsa) (seqs : list frames) (cols stride : Z) (c : cfg) (SU : setup V seqs cols stride c).
Context (k : Z) (Hk : 0 <= k < zlen seqs).
Notation f := (gr V c k).
Notation rws := (rw seqs k).
Notation TT := (zlen (rw seqs k)).
Notation vbk := (vb V c k).
Notation ABk := (AB V c k).
Notation cinv := (cinv V seqs c k).
Hypothesis HT : 0 < TT.
Hypothesis HR1 : forall t, 0 <= t < TT - 1 -> frame rws t (-1) = None.
Hypothesis HR2 : forall l, l <> -1 -> frame rws (TT - 1) l = None.
Context (p : list Z) (z : Z).
Hypothesis Hp : apath f 0 p (zlen f - 1).
Hypothesis Zp : zlen p = TT.
Hypothesis Hz : dense_score f rws 0 p = Some z.
Definition pre (i : Z) : option Z := dense_score f rws 0 (firstn (Z.to_nat i) p).
Hypothesis HB1 : forall t l q x y, 0 < t < TT -> apath f 0 l q -> zlen l = t -> dense_score f rws 0 l = Some x -> pre t = Some y -> x - c_sbeam c < y.
Hypothesis HB2 : forall l x, apath f 0 l (zlen f - 1) -> zlen l = TT -> dense_score f rws 0 l = Some x -> x - c_obeam c <= z.
Hypothesis Hob : c_obeam c < 10 ^ 10.
Hypothesis Hsb : 0 < c_sbeam c.
Hypothesis Hmax : zlen f <= c_max c.

Definition alive (pmf : bool) (H : list (list nst)) : Prop :=
  (TT < zlen H -> pmf = false) /\
  forall i j, 0 <= i < zlen H - 1 -> rd p i = Some j -> exists x y, on H i x /\ In y (snd x) /\ i_arc y = ABk + j /\ 0 <= i_dst y.
Definition at_p (H : list (list nst)) (i : Z) (x : nst) : Prop :=
  on H i x /\ exists q, apath f 0 (firstn (Z.to_nat i) p) q /\ s_a (fst x) = vbk + q /\ ole (pre i) (s_f (fst x)).

(** the path, cut at position [i] *)
Lemma p_at i : 0 <= i < TT -> exists j a, rd p i = Some j /\ rd (all_arcs f) j = Some a /\ apath f 0 (firstn (Z.to_nat i) p) (src a) /\
  firstn (Z.to_nat (i + 1)) p = firstn (Z.to_nat i) p ++ [j] /\ pre (i + 1) = oadd (pre i) (ll seqs k false i a) /\ exists w, pre (i + 1) = Some w.
Proof.
  clear - Hp Zp Hz. intros Hi. destruct (rd_in_bound p i) as (j & Hj); [lia|]. assert (EF : firstn (Z.to_nat (i + 1)) p = firstn (Z.to_nat i) p ++ [j]).
  { replace (Z.to_nat (i + 1)) with (S (Z.to_nat i)) by lia. assert (N : nth_error p (Z.to_nat i) = Some j) by (rewrite <- rd_nth, Z2Nat.id by lia; exact Hj). revert N. clear. generalize (Z.to_nat i). intros n. revert p. induction n as [|n IH]; intros [|x p] N; try discriminate; cbn in *; [now injection N as ->|]. f_equal. now apply IH. }
  pose proof (firstn_skipn (Z.to_nat (i + 1)) p) as E. rewrite EF in E. pose proof Hp as Hp'. rewrite <- E in Hp'. apply apath_app in Hp' as (u & U1 & U2). apply apath_app in U1 as (u' & U3 & U4). inversion U4 as [|j0 a p0 t0 Ha Hr]. subst. inversion Hr. subst.
  exists j, a. split; [exact Hj|]. split; [exact Ha|]. split; [exact U3|]. split; [exact EF|]. assert (ZF : zlen (firstn (Z.to_nat i) p) = i) by (unfold zlen; rewrite firstn_length_le; unfold zlen in *; lia).
  assert (EP : pre (i + 1) = oadd (pre i) (ll seqs k false i a)).
  { unfold pre. rewrite EF, dense_app, ZF. cbn [dense_score]. rewrite Ha, oadd_0, Z.add_0_l. unfold ll. now rewrite (oadd_comm (Some (sc a))). }
  split; [exact EP|]. unfold pre. rewrite EF. rewrite <- E in Hz. rewrite dense_app in Hz. destruct (dense_score f rws 0 (firstn (Z.to_nat i) p ++ [j])) as [w|]; [eauto|discriminate].
Qed.
Lemma p_all : firstn (Z.to_nat TT) p = p.
Proof. clear - Zp. apply firstn_all2. unfold zlen in *. lia. Qed.

Lemma at_p_0 pmf H e : cinv pmf H e -> exists x, at_p H 0 x.
Proof.
  clear - Hp Zp Hz HT. intros CI. destruct (p_at 0) as (j & a & _ & Ha & _); [lia|]. destruct (ci_0 _ _ _ _ _ _ _ CI) as (col & A1 & A2 & A3). assert (Hf : sas col = [vbk]) by (destruct f; [change (all_arcs []) with (@nil arc) in Ha; rewrite rd_nil in Ha; discriminate|exact A2]).
  destruct col as [|x [|x' col]]; try discriminate. injection Hf as Hf. exists x. split; [exists [x]; split; [exact A1|apply in_eq]|]. exists 0. split; [constructor|]. split; [lia|]. rewrite (A3 x (in_eq _ _)). apply ole_refl.
Qed.
Lemma at_p_step pmf H e i x : cinv pmf H e -> alive pmf H -> at_p H i x -> 0 <= i < zlen H - 1 -> i < TT -> exists j a y col' x',
  rd p i = Some j /\ rd (all_arcs f) j = Some a /\ In y (snd x) /\ i_arc y = ABk + j /\ i_ll y = ll seqs k false i a /\ 0 <= i_dst y /\
  rd H (i + 1) = Some col' /\ rd col' (i_dst y) = Some x' /\ at_p H (i + 1) x' /\ pre (i + 1) = oadd (pre i) (i_ll y).
Proof.
  clear - Hp Zp Hz. intros CI (AL1 & AL2) (Ox & q & Q1 & Q2 & Q3) Hi HiT. destruct (p_at i) as (j & a & J1 & J2 & J3 & J4 & J5 & w & J6); [lia|]. destruct (AL2 i j Hi J1) as (x0 & y & O1 & Y1 & Y2 & Y3).
  destruct (ci_arc _ _ _ _ _ _ _ CI _ _ _ O1 Y1) as (j0 & a0 & B1 & B2 & B3 & (B4 & _) & B5). assert (j0 = j) as -> by lia. rewrite J2 in B2. injection B2 as <-.
  assert (q = src a) as -> by (eapply apath_fun; eauto). assert (x0 = x) as ->.
  { destruct O1 as (c1 & O1 & O2), Ox as (c2 & O3 & O4). rewrite O1 in O3. injection O3 as <-. eapply sas_inj; eauto; [eapply (ci_nd _ _ _ _ _ _ _ CI); eauto|lia]. }
  assert (EP : Pt seqs k pmf i = false). { unfold Pt. destruct (Z.eqb_spec i (TT - 1)) as [E|E]; [|now rewrite andb_false_r]. rewrite AL1 by lia. reflexivity. }
  rewrite EP in *. destruct B5 as [B5|(_ & col' & x' & D1 & D2 & D3 & D4)]; [lia|]. exists j, a, y, col', x'. repeat (split; [first [assumption|reflexivity]|]). split; [|now rewrite B4].
  split; [exists col'; split; [exact D1|eapply rd_In; eauto]|]. exists (dst a). rewrite J4. split; [apply ap_snoc; auto|]. split; [exact D3|].
  eapply ole_trans; [|exact D4]. rewrite J5, <- B4. apply ole_add; [exact Q3|apply ole_refl].
Qed.
Lemma at_p_ex pmf H e i : cinv pmf H e -> alive pmf H -> 0 <= i < zlen H -> i <= TT -> exists x, at_p H i x.
Proof.
  clear - Hp Zp Hz HT. intros CI AL Hi HiT. assert (exists n, i = Z.of_nat n) as (n & Ei) by (exists (Z.to_nat i); lia). rewrite Ei in *. clear Ei i. revert Hi HiT. induction n as [|n IH]; intros Hn HnT; [eapply at_p_0; eauto|].
  destruct IH as (x & Hx); [lia|lia|]. destruct (at_p_step _ _ _ _ _ CI AL Hx) as (j & a & y & col' & x' & _ & _ & _ & _ & _ & _ & _ & _ & H9 & _); [lia|lia|]. exists x'. replace (Z.of_nat (S n)) with (Z.of_nat n + 1) by lia. exact H9.
Qed.

Section Step.
Context (pmf : bool) (H H' : list (list nst)) (e t : Z) (col C : list nst) (nxt : list sinfo) (beam beam' : Q).
Hypothesis CI : cinv pmf H e.
Hypothesis He : e <= t.
Hypothesis Z1 : zlen H = t + 1.
Hypothesis Z2 : zlen H' = t + 2.
Hypothesis E0 : forall i, i < t -> rd H' i = rd H i.
Hypothesis E1 : rd H t = Some col.
Hypothesis E2 : rd H' t = Some C.
Hypothesis E3 : rd H' (t + 1) = Some (map (fun s => (s, [])) nxt).
Hypothesis FC : fcol V seqs c k t (map fst col) beam C nxt beam'.
Hypothesis Hbeam : t < TT -> (inject_Z (c_sbeam c) <= beam)%Q.
Notation S0 := (map fst col).
Notation p0 := (pm V seqs c k t (map fst col)).
Notation pmf' := (IPrunedInv.pmf' V seqs c k pmf t col).

Lemma active_le : zlen S0 <= c_max c.
Proof.
  rewrite zlen_map. assert (L : (length (sas col) <= length (map (Z.add vbk) (zrange (zlen f))))%nat).
  { apply NoDup_incl_length; [eapply (ci_nd _ _ _ _ _ _ _ CI); eauto|]. intros s Hs. unfold sas in Hs. apply in_map_iff in Hs as (x & <- & Hx). destruct (ci_rng _ _ _ _ _ _ _ CI t x) as (R & _); [exists col; auto|].
    apply in_map_iff. exists (s_a (fst x) - vbk). split; [lia|]. apply in_zrange. lia. }
  unfold sas in L. rewrite !map_length in L. pose proof (zlen_zrange (zlen f) (zlen_nonneg f)) as Zr. unfold zlen in *. lia.
Qed.
Lemma beam_fwd : t + 1 < TT -> (inject_Z (c_sbeam c) <= beam')%Q.
Proof.
  intros Ht. rewrite (fc_beam _ _ _ _ _ _ _ _ _ _ FC). cbn. apply new_beam_ge; [apply active_le|lia| |apply Hbeam; lia]. change 0%Q with (inject_Z 0). rewrite <- Zle_Qle. lia.
Qed.
Lemma p0_false x : at_p H t x -> t < TT -> p0 = false.
Proof.
  intros (Ox & q & Q1 & Q2 & Q3) Ht. destruct p0 eqn:Ep; [|reflexivity]. exfalso. unfold pm in Ep. apply andb_prop in Ep as (T1 & T2). apply andb_prop in T2 as (_ & T2). apply negb_true_iff in T2.
  pose proof (rd_Some_bound _ _ _ E1) as Bt. destruct (p_at t) as (j & a & J1 & J2 & J3 & J4 & J5 & w & J6); [lia|]. assert (q = src a) as -> by (eapply apath_fun; eauto).
  assert (In a (outs V c k (fst x))).
  { unfold outs. rewrite Q2. replace (vbk + src a - vbk) with (src a) by lia. apply rd_concat_inv in J2 as (s & l & m & F1 & F2 & F3). destruct (fvalid V seqs cols stride c SU k) as (V1 & _); [apply rd_Some_bound in F1; lia|].
    rewrite (V1 _ _ _ F1 (rd_In _ _ _ F2)). rewrite F1. eapply rd_In; eauto. }
  assert (La : lab a = -1).
  { destruct (Z.eq_dec (lab a) (-1)) as [|Hn]; [auto|]. exfalso. assert (ll seqs k false t a = None) by (unfold ll; replace t with (TT - 1) by lia; now rewrite HR2). rewrite J5, H1 in J6. destruct (pre t); discriminate. }
  assert (X : existsb (fun s => existsb (fun a => lab a =? -1) (outs V c k s)) S0 = true); [|congruence].
  apply existsb_exists. exists (fst x). split; [destruct Ox as (c1 & O1 & O2); rewrite E1 in O1; injection O1 as <-; now apply in_map|]. apply existsb_exists. exists a. split; [auto|lia].
Qed.
(** the last frame is not pruned, but online *)
Hypothesis Hon : t + 1 = TT -> c_online c = false.
Lemma alive_fwd : alive pmf H -> alive pmf' H'.
Proof.
  intros AL. pose proof (rd_Some_bound _ _ _ E1) as Bt. split.
  - intros HL. unfold IPrunedInv.pmf'. destruct (Z.eqb_spec t (TT - 1)) as [Et|Et]; [|apply AL; lia].
    destruct (at_p_ex pmf H e t CI AL) as (x & Hx); [lia|lia|]. eapply p0_false; [exact Hx|lia].
  - intros i j Hi Hj. assert (D : i < t \/ i = t) by lia. destruct D as [D|Ei].
    + destruct AL as (_ & AL). destruct (AL i j) as (x & y & (c1 & O1 & O2) & Y); [lia|exact Hj|]. exists x, y. split; [exists c1; rewrite E0 by exact D; auto|exact Y].
    + subst i. pose proof (rd_Some_bound _ _ _ Hj) as Bj. rewrite Zp in Bj. destruct (at_p_ex pmf H e t CI AL) as (x & Hx); [lia|lia|]. pose proof (p0_false x Hx ltac:(lia)) as P0. destruct Hx as (Ox & q & Q1 & Q2 & Q3).
      destruct (p_at t) as (j' & a & J1 & J2 & J3 & J4 & J5 & w & J6); [lia|]. rewrite Hj in J1. injection J1 as <-. assert (q = src a) as -> by (eapply apath_fun; eauto).
      destruct Ox as (c1 & O1 & O2). rewrite E1 in O1. injection O1 as <-. apply In_rd in O2 as (r & _ & Hr).
      destruct (Forall2_rd _ _ _ (fc_arcs _ _ _ _ _ _ _ _ _ _ FC)) as (LC & FA). assert (Hr' : rd S0 r = Some (fst x)) by (rewrite rd_map, Hr; reflexivity). destruct (rd_in_bound C r) as (x2 & Hx2); [apply rd_Some_bound in Hr'; lia|].
      destruct (FA _ _ _ Hr' Hx2) as (G1 & G2). assert (HM : exists m, rd (outs V c k (fst x)) m = Some a /\ j = off1 f (s_a (fst x) - vbk) + m).
      { unfold outs. rewrite Q2. replace (vbk + src a - vbk) with (src a) by lia. pose proof J2 as J2'. apply rd_concat_inv in J2' as (s & l & m & F1 & F2 & F3). destruct (fvalid V seqs cols stride c SU k) as (V1 & _); [apply rd_Some_bound in F1; lia|].
        rewrite (V1 _ _ _ F1 (rd_In _ _ _ F2)). rewrite F1. exists m. split; [exact F2|exact (proj1 F3)]. }
      destruct HM as (m & M1 & M2). assert (Hy : rd (garcs V seqs c k t p0 (fst x)) m = Some (garc V seqs c k t p0 (fst x) m a)) by (unfold garcs; rewrite rd_imap, M1, Z.add_0_l; reflexivity).
      set (y := garc V seqs c k t p0 (fst x) m a) in *. destruct (Forall2_rd _ _ _ G2) as (L2 & G3). destruct (rd_in_bound (snd x2) m) as (y2 & Hy2); [apply rd_Some_bound in Hy; lia|]. destruct (G3 _ _ _ Hy Hy2) as (d & Ed & D).
      exists x2, y2. split; [exists C; split; [exact E2|eauto using rd_In]|]. split; [eauto using rd_In|]. rewrite Ed. cbn [setd i_arc i_dst]. split; [unfold y; cbn; lia|]. destruct D as [(_ & D)|(D & _)]; [exfalso|exact D].
      assert (EY : i_end y = oadd (s_f (fst x)) (ll seqs k false t a)) by (unfold y; cbn; rewrite P0; reflexivity).
      assert (GE : ole (Some w) (i_end y)) by (rewrite <- J6, J5, EY; apply ole_add; [exact Q3|apply ole_refl]). destruct (i_end y) as [v|] eqn:Ev; [|destruct GE]. cbn in GE.
      assert (Iy : In (Some v) (map i_end (concat (map (garcs V seqs c k t p0) S0)))). { rewrite <- Ev. apply in_map. apply in_concat. eexists. split; [apply in_map; eapply rd_In; exact Hr'|eapply rd_In; exact Hy]. }
      unfold cut_of in D. pose proof (kmax_ge _ _ Iy) as KG. destruct (kmax (map i_end (concat (map (garcs V seqs c k t p0) S0)))) as [M|] eqn:EM; [|destruct KG]. cbn in KG. unfold above in D. cbn [fst snd] in D.
      apply kmax_in in EM. apply in_map_iff in EM as (ym & Em & Hm). apply in_concat in Hm as (lm & Lm & Hm). apply in_map_iff in Lm as (sm & <- & Lm). apply in_map_iff in Lm as (xm & <- & Lm).
      destruct (garcs_in V seqs cols stride c SU k _ _ _ _ Hm) as (jm & am & N1 & N2 & N3 & N4 & N5 & N6 & _). rewrite P0 in *. destruct (ci_gen _ _ _ _ _ _ _ CI t xm) as (_ & GN); [exists col; auto|]. destruct (GN ltac:(right; lia)) as (l & L1' & L2' & L3').
      assert (W1 : apath f 0 (l ++ [jm]) (dst am)) by (apply ap_snoc; [rewrite N3; exact L1'|exact N2]). assert (W2 : zlen (l ++ [jm]) = t + 1) by (rewrite zlen_app, zlen_cons, zlen_nil; lia).
      assert (W3 : dense_score f rws 0 (l ++ [jm]) = Some M). { rewrite dense_app, L2', L3'. cbn [dense_score]. rewrite N2, oadd_0, Z.add_0_l, (oadd_comm (Some (sc am))). unfold ll in N6. rewrite <- N6. exact Em. }
      apply negb_false_iff, Qle_bool_iff in D. destruct (Z_lt_ge_dec (t + 1) TT) as [Lt|Ge].
      * pose proof (HB1 (t + 1) _ _ _ _ ltac:(lia) W1 W2 W3 J6) as B. pose proof (beam_fwd Lt) as BF. rewrite (fc_beam _ _ _ _ _ _ _ _ _ _ FC) in BF. unfold cut_of in BF. cbn [snd] in BF.
        assert (X : (inject_Z v <= inject_Z M - inject_Z (c_sbeam c))%Q) by lra. unfold Qminus in X. rewrite <- inject_Z_opp, <- inject_Z_plus in X. rewrite <- Zle_Qle in X. lia.
      * assert (Wf : dst am = zlen f - 1). { destruct (ll seqs k false t am) as [wm|] eqn:Ew; [|rewrite N6 in Em; destruct (s_f (fst xm)); discriminate]. destruct (ll_fin V seqs cols stride c SU k HR1 HR2 false t am wm ltac:(lia) (rd_In _ _ _ N2) ltac:(discriminate) Ew) as (F1 & _). cbn in F1. apply F1. lia. }
        rewrite Wf in W1. pose proof (HB2 _ _ W1 ltac:(lia) W3) as B. assert (w = z) as ->. { unfold pre in J6. replace (t + 1) with TT in J6 by lia. rewrite p_all in J6. congruence. }
        unfold new_beam in D. rewrite Hon in D by lia. replace (t =? TT - 1) with true in D by lia. cbn [negb andb] in D. unfold Qminus in D. rewrite <- inject_Z_opp, <- inject_Z_plus in D. rewrite <- Zle_Qle in D. lia.
Qed.
End Step.

Section Win.
Context (pmf : bool) (H H' : list (list nst)) (e0 b e : Z) (cole : list nst) (W : list (list nst)).
Hypothesis CI : cinv pmf H e0.
Hypothesis Hb : 0 <= b < e.
Hypothesis Hb0 : b <= e0.
Hypothesis He0 : e0 <= e.
Hypothesis ZW : zlen W = e - b.
Hypothesis EW : forall m, 0 <= m < e - b -> rd W m = rd H (b + m).
Hypothesis Ee : rd H e = Some cole.
Notation L := (map (fun x : nst => IPrunedPrune.lf (fst x)) cole).
Notation nx := (nxat c W L).
Hypothesis ZH : zlen H' = zlen H.
Hypothesis E0 : forall i, i < b \/ e < i -> rd H' i = rd H i.
Hypothesis E1 : rd H' e = Some (map (fun x : nst => (IPrunedPrune.lf (fst x), snd x)) cole).
Hypothesis E2 : forall m, 0 <= m < e - b -> rd H' (b + m) = rd (prunedc c W L) m.
Hypothesis AL : alive pmf H.

(** a state of the path with the score of the best path into it *)
Lemma end_ok i x u v : 0 <= i <= TT -> i < zlen H -> at_p H i x -> s_f (fst x) = Some u -> pre i = Some v -> u - c_obeam c <= v.
Proof.
  intros Hi HiH (Ox & q & Q1 & Q2 & Q3) Eu Ev. destruct (ci_gen _ _ _ _ _ _ _ CI _ _ Ox) as (_ & G). destruct G as (l & G1 & G2 & G3). { destruct (Z_lt_ge_dec i TT); [now right|left]. apply AL. lia. }
  replace (s_a (fst x) - vbk) with q in G1 by lia. pose proof (firstn_skipn (Z.to_nat i) p) as E. pose proof Hp as Hp'. rewrite <- E in Hp'. apply apath_app in Hp' as (q' & P1 & P2). assert (q' = q) as -> by (eapply apath_fun; eauto).
  assert (ZF : zlen (firstn (Z.to_nat i) p) = i) by (unfold zlen in *; rewrite firstn_length_le; lia). pose proof Hz as Hz'. rewrite <- E, dense_app, ZF in Hz'. unfold pre in Ev. rewrite Ev in Hz'. destruct (dense_score f rws (0 + i) (skipn (Z.to_nat i) p)) as [s|] eqn:Es; [|discriminate]. cbn in Hz'. injection Hz' as Hz'.
  assert (X : u + s - c_obeam c <= z); [|lia]. apply (HB2 (l ++ skipn (Z.to_nat i) p)).
  - apply apath_app. eauto.
  - rewrite zlen_app. pose proof (f_equal zlen E) as EZ. rewrite zlen_app in EZ. lia.
  - rewrite dense_app, G2, G3, Eu, Es. reflexivity.
Qed.
Lemma back_ok m : 0 <= m <= Z.min (e - b) (TT - b) -> forall col x d, rd H (b + m) = Some col -> rd col d = Some x -> at_p H (b + m) x ->
  exists s y v, rd (nx m) d = Some s /\ s_b s = Some y /\ pre (b + m) = Some v /\ - c_obeam c <= y + v.
Proof.
  pose proof (rd_Some_bound _ _ _ Ee) as Be.
  assert (preS : forall i, 0 <= i <= TT -> exists v, pre i = Some v). { intros i Hi. destruct (Z.eq_dec i 0) as [->|]; [exists 0; reflexivity|]. destruct (p_at (i - 1)) as (j & a & _ & _ & _ & _ & _ & w & Hw); [lia|]. replace (i - 1 + 1) with i in Hw by lia. eauto. }
  destruct (Z_lt_ge_dec TT b) as [Hneg|Hpos]; [intros; lia|].
  revert m. apply (down (Z.min (e - b) (TT - b)) (fun m => forall col x d, rd H (b + m) = Some col -> rd col d = Some x -> at_p H (b + m) x -> exists s y v, rd (nx m) d = Some s /\ s_b s = Some y /\ pre (b + m) = Some v /\ - c_obeam c <= y + v)).
  - set (m := Z.min (e - b) (TT - b)). intros col x d Hc Hd Hx. pose proof (rd_Some_bound _ _ _ Hc) as Bm. destruct (preS (b + m)) as (v & Ev); [lia|]. pose proof (proj1 Hx) as Ox. destruct (ci_gen _ _ _ _ _ _ _ CI _ _ Ox) as ((u & Eu) & _). pose proof (end_ok (b + m) x u v ltac:(lia) ltac:(lia) Hx Eu Ev) as EO.
    destruct (Z.eq_dec m (e - b)) as [Em|Em].
    + assert (cole = col) as -> by (rewrite Em in Hc; replace (b + (e - b)) with e in Hc by lia; congruence). exists (IPrunedPrune.lf (fst x)), (- u), v. rewrite Em, (nx_e c H b e col W ZW EW), rd_map, Hd. cbn. rewrite Eu. cbn. repeat split; auto; [rewrite <- Em; exact Ev|lia].
    + rewrite (nx_lt c H b e cole W EW m col) by (auto; lia). rewrite rd_map, Hd. eexists _, (- u), v. split; [reflexivity|]. cbn [bst s_b].
      rewrite (fin_at V seqs cols stride c SU k Hk pmf H e0 b e W CI EW (b + m) x Ox). destruct (ci_rng _ _ _ _ _ _ _ CI _ _ Ox) as (_ & _ & R). replace (s_a (fst x) - vbk =? zlen f - 1) with true by lia. rewrite Eu. cbn. repeat split; auto. lia.
  - intros m Hm IH col x d Hc Hd Hx. pose proof (proj1 Hx) as Ox. destruct (at_p_step pmf H e0 (b + m) x CI AL Hx) as (j & a & y & col' & x' & S1 & S2 & S3 & S4 & S5 & S6 & S7 & S8 & S9 & S10); [lia|lia|].
    replace (b + m + 1) with (b + (m + 1)) in * by lia. destruct (IH _ _ _ S7 S8 S9) as (s & bs & v & I1 & I2 & I3 & I4). rewrite (nx_lt c H b e cole W EW m col) by (auto; lia). rewrite rd_map, Hd.
    destruct (ci_gen _ _ _ _ _ _ _ CI _ _ Ox) as ((u & Eu) & _). destruct Hx as (_ & q & _ & Q2 & Q3). rewrite I3 in S10. destruct (pre (b + m)) as [v0|] eqn:Ev0; [|discriminate]. destruct (i_ll y) as [w|] eqn:Ew; [|discriminate]. cbn in S10. injection S10 as S10. rewrite Eu in Q3. cbn in Q3.
    assert (EB : bl c (nx (m + 1)) (fst x) y = Some (w + bs)). { unfold bl. replace (i_dst y =? -1) with false by lia. rewrite I1, Ew, I2, Eu. cbn. replace (- c_obeam c <=? w + bs + u) with true by lia. reflexivity. }
    assert (EK : ole (Some (w + bs)) (kmax (map (bl c (nx (m + 1)) (fst x)) (snd x)))) by (apply kmax_ge; rewrite <- EB; now apply in_map).
    destruct (kmax (map (bl c (nx (m + 1)) (fst x)) (snd x))) as [ks|] eqn:Ek; [|destruct EK]. cbn in EK. eexists _, ks, v0. split; [reflexivity|]. cbn [bst s_b].
    rewrite (fin_at V seqs cols stride c SU k Hk pmf H e0 b e W CI EW (b + m) x Ox). destruct (ci_rng _ _ _ _ _ _ _ CI _ _ Ox) as (_ & _ & R). replace (s_a (fst x) - vbk =? zlen f - 1) with false by lia. rewrite Ek. repeat split; auto. lia.
Qed.
Lemma alive_prune : alive pmf H'.
Proof.
  pose proof (rd_Some_bound _ _ _ Ee) as Be. split; [rewrite ZH; apply AL|]. intros i j Hi Hj. rewrite ZH in Hi. pose proof (rd_Some_bound _ _ _ Hj) as Bj. rewrite Zp in Bj. assert (D : (i < b \/ e <= i) \/ b <= i < e) by lia. destruct D as [D|D].
  - destruct (proj2 AL i j Hi Hj) as (x & y & (c1 & O1 & O2) & Y1 & Y2 & Y3). assert (D' : (i < b \/ e < i) \/ i = e) by lia. destruct D' as [D'|Ei].
    + exists x, y. split; [exists c1; rewrite E0 by exact D'; auto|auto].
    + rewrite Ei in *. rewrite Ee in O1. injection O1 as <-. exists (IPrunedPrune.lf (fst x), snd x), y. split; [|auto]. eexists. split; [exact E1|]. apply in_map_iff. exists x. auto.
  - assert (exists m, i = b + m /\ 0 <= m < e - b) as (m & -> & Hm) by (exists (i - b); lia). destruct (at_p_ex pmf H e0 (b + m) CI AL) as (x & Hx); [lia|lia|].
    destruct (at_p_step pmf H e0 (b + m) x CI AL Hx) as (j' & a & y & col' & x' & S1 & S2 & S3 & S4 & S5 & S6 & S7 & S8 & S9 & S10); [lia|lia|]. rewrite Hj in S1. injection S1 as <-.
    pose proof Hx as ((col & O1 & O2) & _). apply In_rd in O2 as (d & _ & Hd). destruct (back_ok m ltac:(lia) _ _ _ O1 Hd Hx) as (s & bs & v & I1 & I2 & I3 & I4).
    replace (b + m + 1) with (b + (m + 1)) in * by lia. destruct (back_ok (m + 1) ltac:(lia) _ _ _ S7 S8 S9) as (s' & bs' & v' & I1' & I2' & I3' & I4').
    rewrite (nx_lt c H b e cole W EW m col), rd_map, Hd in I1 by (auto; lia). injection I1 as <-.
    destruct (ci_gen _ _ _ _ _ _ _ CI _ _ (proj1 Hx)) as ((u & Eu) & _). destruct Hx as (Ox & q & _ & Q2 & Q3). rewrite I3 in S10, Q3. rewrite I3' in S10. destruct (i_ll y) as [w|] eqn:Ew; [|discriminate]. cbn in S10. injection S10 as S10. rewrite Eu in Q3. cbn in Q3.
    assert (EB : bl c (nx (m + 1)) (fst x) y = Some (w + bs')). { unfold bl. replace (i_dst y =? -1) with false by lia. rewrite I1', Ew, I2', Eu. cbn. replace (- c_obeam c <=? w + bs' + u) with true by lia. reflexivity. }
    eexists _, (setd y (rmat c W L (m + 1) (i_dst y))). split.
    + eexists. split; [apply (row_at c H H' b e cole W EW E0 E2 m col Hm O1)|]. unfold keepc. apply in_map_iff. exists x. split; [reflexivity|]. apply filter_In. split; [eauto using rd_In|]. rewrite I2. apply orb_true_r.
    + cbn [snd setd i_arc i_dst]. split; [apply in_map_iff; exists y; split; [reflexivity|]; apply filter_In; split; [exact S3|rewrite EB; reflexivity]|]. split; [exact S4|].
      eapply (rm_at c H H' b e cole W); eauto; [lia|]. rewrite I2'. reflexivity.
Qed.
End Win.
End A.
