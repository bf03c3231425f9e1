(** * Determinization: strings and scores of the output *)
From Coq Require Import ZArith List Lia Bool Permutation.
From Verif Require Import Base RaggedModel RaggedSpec RaggedProofs FsaSpec FsaLemmas OpsModel ScoreSpec ScorePaths ShortestSpec IntersectPaths DetModel DetSpec DetProofs DetRun DetInv DetCreate.
Import ListNotations.
Open Scope Z_scope.

Lemma apath1 h s j t : apath h s [j] t <-> exists a, rd (all_arcs h) j = Some a /\ src a = s /\ dst a = t.
Proof.
  split; [intros H; destruct (apath_snoc h s [] j t H) as (a & Ha & H1 & H2); apply apath_nil in H1; eauto|]. intros (a & Ha & <- & <-). now apply apath_one.
Qed.

Section Lang.
Variables (f g : nfsa) (der : list (list Z)) (kg : Z -> option (Z * list Z * Z)).
Notation lb p := (labels (arcs_at f p)).
Notation scp p := (score (arcs_at f p)).
Notation lbg p := (labels (arcs_at g p)).
Notation scg p := (score (arcs_at g p)).
Notation back q := (concat (map (fun j => match rd der j with Some d => d | None => [] end) q)).

Hypothesis HV : valid f.
Hypothesis HVg : valid g.
Hypothesis HD : zlen der = zlen (all_arcs g).
Hypothesis H0 : kg 0 = Some (0, [], 0).
Hypothesis HF : kg (final g) = Some (final f, [], 0).
Hypothesis HA : forall k a D, rd (all_arcs g) k = Some a -> rd der k = Some D ->
  exists b w N b' w' N', kg (src a) = Some (b, w, N) /\ kg (dst a) = Some (b', w', N') /\ arc_ok f b w N b' w' N' (lab a) (sc a) D.
Hypothesis HAll : forall i b w N p s l, 0 <= i < nstates g -> kg i = Some (b, w, N) -> apath f b p s -> lb p = w ++ [l] -> exists a, In a (all_arcs g) /\ src a = i /\ lab a = l.

Lemma lang_fwd q : forall s, apath g 0 q s -> exists b w N, kg s = Some (b, w, N) /\ apath f 0 (back q) b /\ lb (back q) ++ w = lbg q /\ scg q = scp (back q) + N.
Proof.
  induction q as [|j q IH] using rev_ind; intros s Hq.
  - apply apath_nil in Hq. subst s. exists 0, [], 0. split; [exact H0|]. split; [constructor|]. split; reflexivity.
  - apply apath_app in Hq as (m & Hq & Hj). apply apath1 in Hj as (a & Ha & Hs & Hd). destruct (IH m Hq) as (b & w & N & K1 & P1 & L1 & S1).
    destruct (rd_in_bound der j) as (D & HDj); [rewrite HD; apply rd_Some_bound in Ha; exact Ha|].
    destruct (HA j a D Ha HDj) as (b1 & w1 & N1 & b' & w' & N' & K2 & K3 & A1 & A2 & A3 & _). rewrite Hs, K1 in K2. injection K2 as <- <- <-. rewrite Hd in K3.
    exists b', w', N'. split; [exact K3|]. rewrite map_app, concat_app. cbn [map concat]. rewrite HDj, app_nil_r.
    split; [apply apath_app; eauto|]. rewrite !lb_app, !scp_app, <- app_assoc, A2, app_assoc, L1, S1, (arcs_at_one g j a Ha). split; [reflexivity|]. cbn. lia.
Qed.
Lemma lang_opt q : forall s p s' b w N, apath g 0 q s -> apath f 0 p s' -> lb p = lbg q -> kg s = Some (b, w, N) ->
  exists p', apath f b p' s' /\ lb p' = w /\ scp p <= scp (back q) + scp p'.
Proof.
  induction q as [|j q IH] using rev_ind; intros s p s' b w N Hq Hp HL HK.
  - apply apath_nil in Hq. subst s. rewrite H0 in HK. injection HK as <- <- <-. exists p. split; [exact Hp|]. split; [exact HL|]. cbn. lia.
  - apply apath_app in Hq as (m & Hq & Hj). apply apath1 in Hj as (a & Ha & Hs & Hd). rewrite lb_app, (arcs_at_one g j a Ha) in HL. cbn [labels map] in HL.
    destruct (lb_snoc f 0 p s' _ _ Hp HL) as (p1 & i & x & -> & Hx & P1 & Hxd & L1 & Lx).
    destruct (lang_fwd q m Hq) as (b1 & w1 & N1 & K1 & _). destruct (IH m p1 (src x) b1 w1 N1 Hq P1 L1 K1) as (p1' & Q1 & Q2 & Q3).
    destruct (rd_in_bound der j) as (D & HDj); [rewrite HD; apply rd_Some_bound in Ha; exact Ha|].
    destruct (HA j a D Ha HDj) as (b2 & w2 & N2 & b' & w' & N' & K2 & K3 & A1 & A2 & A3 & A4 & _). rewrite Hs, K1 in K2. injection K2 as <- <- <-. rewrite Hd, HK in K3. injection K3 as <- <- <-.
    destruct (A4 (p1' ++ [i]) s') as (p' & R1 & R2 & R3).
    { apply apath_app. exists (src x). split; [exact Q1|]. rewrite <- Hxd. apply apath1. eauto. } { rewrite lb_app, Q2, (arcs_at_one f i x Hx). cbn. now rewrite Lx. }
    exists p'. split; [exact R1|]. split; [exact R2|]. rewrite map_app, concat_app. cbn [map concat]. rewrite HDj, app_nil_r, !scp_app in *. lia.
Qed.
Lemma lang_ex p : forall s, apath f 0 p s -> exists q t, apath g 0 q t /\ lbg q = lb p.
Proof.
  induction p as [|i p IH] using rev_ind; intros s Hp; [exists [], 0; split; [constructor|reflexivity]|].
  apply apath_app in Hp as (m & Hp & Hi). apply apath1 in Hi as (x & Hx & Hs & Hd). destruct (IH m Hp) as (q & t & Q1 & Q2).
  destruct (lang_fwd q t Q1) as (b & w & N & K1 & _). destruct (lang_opt q t p m b w N Q1 Hp (eq_sym Q2) K1) as (p' & R1 & R2 & _).
  destruct (HAll t b w N (p' ++ [i]) s (lab x)) as (a & A1 & A2 & A3).
  { exact (apath_range g HVg _ _ _ (state0 g HVg) Q1). } { exact K1. } { apply apath_app. exists m. split; [exact R1|]. apply apath1. eauto. } { rewrite lb_app, R2, (arcs_at_one f i x Hx). reflexivity. }
  apply In_rd in A1 as (j & Hj & A1). exists (q ++ [j]), (dst a). split; [apply apath_app; exists t; split; [exact Q1|]; apply apath1; eauto|]. rewrite !lb_app, Q2, (arcs_at_one f i x Hx), (arcs_at_one g j a A1). cbn. now rewrite A3.
Qed.

Lemma lang_ok : is_determinized f g der.
Proof.
  split; [exact HD|]. split.
  - intros q (_ & Hq). change (nstates g - 1) with (final g) in Hq. destruct (lang_fwd q _ Hq) as (b & w & N & K & P & L & S). rewrite HF in K. injection K as <- <- <-. rewrite app_nil_r in L.
    split; [split; [pose proof (state0 f HV); lia|exact P]|]. split; [exact L|lia].
  - intros p (_ & Hp). change (nstates f - 1) with (final f) in Hp. destruct (lang_ex p _ Hp) as (q & t & Q1 & Q2). exists q.
    assert (t = final g).
    { destruct p as [|i p] using rev_ind; [apply apath_nil in Hp; destruct HV as (_ & V & _); unfold nstates, final in *; lia|]. clear IHp.
      apply apath_app in Hp as (m & Hp & Hi). apply apath1 in Hi as (x & Hx & Hs & Hd). rewrite lb_app, (arcs_at_one f i x Hx) in Q2. cbn [labels map] in Q2.
      destruct (lb_snoc g 0 q t _ _ Q1 Q2) as (q1 & j & a & -> & Ha & _ & <- & _ & La). destruct HV as (_ & _ & V), HVg as (_ & _ & Vg). apply (Vg a (rd_In _ _ _ Ha)). rewrite La. apply (V x (rd_In _ _ _ Hx)). exact Hd. }
    subst t. split; [split; [pose proof (state0 g HVg); lia|exact Q1]|]. split; [exact Q2|]. destruct (lang_fwd q _ Q1) as (b & w & N & K & P & L & S). rewrite HF in K. injection K as <- <- <-.
    destruct (lang_opt q _ p _ _ _ _ Q1 Hp (eq_sym Q2) HF) as (p' & R1 & R2 & R3). destruct (lb_nil f _ _ _ R1 R2) as (-> & _). cbn in R3. lia.
Qed.
End Lang.
