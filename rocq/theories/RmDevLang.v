(** The arcs that the combination gives, and the paths they make *)
From Coq Require Import ZArith List Lia Bool.
From Coq Require Import ZifyBool ZifyNat.
From Verif Require Import Base RaggedModel RaggedSpec RaggedProofs FsaSpec FsaLemmas RmDevModel RmDevRagged RmDevEnc RmDevIter RmDevStep RmDevClos RmDevMap RmDevComb.
Import ListNotations.
Open Scope Z_scope.

Notation plab p := (strip (map ilab p)).
Lemma plab_app p q : plab (p ++ q) = plab p ++ plab q.
Proof. rewrite map_app. apply strip_app. Qed.
Lemma plab_zero p : (forall x, In x p -> ilab x = 0) -> plab p = [].
Proof. induction p as [|x p IH]; intros H; [reflexivity|]. cbn. rewrite (H x) by now left. cbn. apply IH. intros; apply H; now right. Qed.
Lemma plab_one x : ilab x <> 0 -> plab [x] = [ilab x].
Proof. intros H. cbn. destruct (ilab x =? 0) eqn:E; [lia|reflexivity]. Qed.
Lemma ipath_mono R R' s p t : (forall o x, In x (R o) -> In x (R' o)) -> ipath R s p t -> ipath R' s p t.
Proof. intros H. induction 1; econstructor; eauto. Qed.

Section Lang.
Variable fs : list nfsa.
Notation N := (NS fs).
Variable R0 : Z -> list item.
Hypothesis WF : wf fs T R0.
Hypothesis RNG : forall o, ~ (0 <= o < N) -> R0 o = [].
Notation Kn := (Ks fs R0 false).
Notation Ke := (Ks fs R0 true).
Notation Rn := (Rs R0 false).
Notation E := (Rs R0 true).
Variable C : Z -> list item.
Hypothesis HC : closed fs Ke E C.
Notation M := (Rm Kn C).
Notation P := (prec fs Kn Rn).
Definition Rf : Z -> list item := ex (ef fs Kn Rn) M.
Definition Rp (o : Z) : list item := filter P (M o).
Definition Rpn : Z -> list item := ex (ep Rp) Rn.
Definition Rpf : Z -> list item := ex (ep Rp) Rf.
Definition Rl : list (Z -> list item) := [Rf; Rpn; Rpf; Rn].
Definition Rall (o : Z) : list item := concat (map (fun R : Z -> list item => R o) Rl).

Lemma wC : wf fs Ke C. Proof. apply HC. Qed.
Lemma wN : wf fs Kn Rn. Proof. now apply wf_Rs. Qed.
Lemma wE : wf fs Ke E. Proof. now apply wf_Rs. Qed.
Lemma KeR o : Ke o = true -> 0 <= o < N. Proof. apply Ks_range. Qed.
Lemma wM : wf fs Kn M. Proof. apply (wf_Rm fs Ke); [apply wC|apply KeR]. Qed.
Lemma wF : wf fs Kn Rf. Proof. apply wf_ef; [apply wM|apply wN]. Qed.
Lemma wP : wf fs Kn Rp.
Proof. split; [intros o Ho; unfold Rp; now rewrite (proj1 wM o Ho)|]. intros o x B Hx. apply filter_In in Hx as (Hx & _). now apply wM. Qed.
Lemma wPn : wf fs Kn Rpn. Proof. apply wf_ep; [apply wP|apply wN]. Qed.
Lemma wPf : wf fs Kn Rpf. Proof. apply wf_ep; [apply wP|apply wF]. Qed.
Lemma wl R : In R Rl -> wf fs Kn R.
Proof. intros [<-|[<-|[<-|[<-|[]]]]]; [apply wF|apply wPn|apply wPf|apply wN]. Qed.
Lemma wAll : wf fs Kn Rall. Proof. apply wf_cat. apply wl. Qed.
Lemma in_all o (y : item) : In y (Rall o) <-> In y (Rf o) \/ In y (Rpn o) \/ In y (Rpf o) \/ In y (Rn o).
Proof. unfold Rall, Rl. cbn [map concat]. rewrite !in_app_iff. cbn [In]. intuition. Qed.
Lemma in_ex e (R : Z -> list item) o (y : item) : In y (ex e R o) <-> exists x, In x (R o) /\ In y (e x).
Proof. unfold ex. rewrite in_concat. split; [intros (l & H & I); apply in_map_iff in H as (x & <- & Hx); eauto|intros (x & H & I); exists (e x); split; auto; now apply in_map]. Qed.
Lemma in_Rn o x : In x (Rn o) <-> In x (R0 o) /\ ilab x <> 0.
Proof. unfold Rs. rewrite filter_In. unfold PL, label_keep. change (lab (fst x)) with (ilab x). split; intros (A & B); split; auto; lia. Qed.
Lemma in_E o x : In x (E o) <-> In x (R0 o) /\ ilab x = 0.
Proof. unfold Rs. rewrite filter_In. unfold PL, label_keep. change (lab (fst x)) with (ilab x). split; intros (A & B); split; auto; lia. Qed.
Lemma E_lab o p t : ipath E o p t -> forall x, In x p -> ilab x = 0.
Proof. induction 1 as [|o x p t Hx Hp IH]; intros y Hy; [destruct Hy|]. destruct Hy as [<-|Hy]; [|auto]. now apply in_E in Hx. Qed.
Lemma R0_rng o x : In x (R0 o) -> 0 <= o < N /\ isrc x = o /\ 0 <= idst x < N /\ so fs (idst x) = so fs o.
Proof.
  intros H. destruct (Z_lt_dec o 0) as [B|B]; [rewrite RNG in H by lia; destruct H|]. destruct (Z_lt_dec o N) as [B2|B2]; [|rewrite RNG in H by lia; destruct H]. destruct (proj2 WF o x ltac:(lia) H) as (A1 & A2 & _ & A3). split; [lia|]. auto.
Qed.

(** ** Sound *)
Definition derived (o : Z) (y : item) : Prop := ilab y <> 0 /\ exists xs, ipath R0 o xs (idst y) /\ pmap xs = snd y /\ plab xs = [ilab y] /\ psc xs = isc y.
Lemma M_path o z : In z (M o) -> exists xs, ipath R0 o xs (idst z) /\ pmap xs = snd z /\ plab xs = [] /\ psc xs = isc z.
Proof.
  intros Hz. destruct (in_Rm fs Ke Kn C wC KeR o z Hz) as (Hc & _ & B & _). destruct HC as (_ & S & _). destruct (S o z B Hc) as (_ & p & _ & P1 & P2 & P3). exists p. split; [eapply ipath_mono; [|exact P1]; intros ? ? Hx; now apply in_E in Hx|]. split; [exact P3|]. split; [apply plab_zero; eapply E_lab; eauto|exact P2].
Qed.
Lemma dN o y : In y (Rn o) -> derived o y.
Proof. intros H. apply in_Rn in H as (H & L). split; [exact L|]. exists [y]. split; [now apply ipath_one|]. split; [unfold pmap; cbn; now rewrite app_nil_r|]. split; [now apply plab_one|]. unfold psc. cbn. lia. Qed.
Lemma dF o y : In y (Rf o) -> derived o y.
Proof.
  intros H. unfold Rf in H. apply in_ex in H as (z & Hz & Hy). unfold ef in Hy. destruct (P z); [destruct Hy|]. apply in_map_iff in Hy as (n & <- & Hn). destruct (M_path o z Hz) as (xs & P1 & P2 & P3 & P4). apply in_Rn in Hn as (Hn & L). split; [exact L|]. exists (xs ++ [n]). split; [change (idst (combf z n)) with (idst n); eapply ipath_app; [exact P1|now apply ipath_one]|]. rewrite pmap_app, plab_app, psc_app, P2, P3, P4, plab_one by auto. unfold pmap, psc. cbn. rewrite app_nil_r, Z.add_0_r. auto.
Qed.
Lemma dP (R : Z -> list item) o (y : item) : (forall o y, In y (R o) -> derived o y) -> In y (ex (ep Rp) R o) -> derived o y.
Proof.
  intros D H. apply in_ex in H as (n & Hn & Hy). unfold ep in Hy. apply in_map_iff in Hy as (z & <- & Hz). apply filter_In in Hz as (Hz & _). destruct (M_path _ z Hz) as (xs & P1 & P2 & P3 & P4). destruct (D o n Hn) as (L & ys & Q1 & Q2 & Q3 & Q4). split; [exact L|]. exists (ys ++ xs). split; [eapply ipath_app; eauto|]. rewrite pmap_app, plab_app, psc_app, P2, P3, P4, Q2, Q3, Q4, app_nil_r. auto.
Qed.
Lemma all_derived o y : In y (Rall o) -> derived o y.
Proof. intros H. apply in_all in H as [H|[H|[H|H]]]; [now apply dF|apply (dP Rn); auto; apply dN|apply (dP Rf); auto; apply dF|now apply dN]. Qed.
Lemma lift o ys t : ipath Rall o ys t -> exists xs, ipath R0 o xs t /\ pmap xs = pmap ys /\ plab xs = map ilab ys /\ psc xs = psc ys.
Proof.
  induction 1 as [o|o y ys t Hy Hp IH]; [exists []; split; [constructor|auto]|]. destruct IH as (xs & P1 & P2 & P3 & P4). destruct (all_derived o y Hy) as (_ & zs & Q1 & Q2 & Q3 & Q4). exists (zs ++ xs). split; [eapply ipath_app; eauto|]. rewrite pmap_app, plab_app, psc_app, P2, P3, P4, Q2, Q3, Q4. auto.
Qed.

(** ** Complete *)
Definition ends_ok (p : list item) : Prop := forall p0 x, p = p0 ++ [x] -> ilab x <> 0.
Lemma split_eps p : ends_ok p -> p = [] \/ exists e n p', p = e ++ n :: p' /\ (forall x, In x e -> ilab x = 0) /\ ilab n <> 0 /\ ends_ok p'.
Proof.
  induction p as [|x p IH]; intros H; [now left|]. right. destruct (Z.eq_dec (ilab x) 0) as [Z0|Z0].
  - destruct IH as [->|(e & n & p' & -> & H1 & H2 & H3)]; [intros p0 y ->; apply (H (x :: p0)); reflexivity|exfalso; apply (H [] x); auto|]. exists (x :: e), n, p'. split; [reflexivity|]. split; [intros y [<-|Hy]; auto|auto].
  - exists [], x, p. split; [reflexivity|]. split; [intros y []|]. split; [auto|]. intros p0 y ->. apply (H (x :: p0)). reflexivity.
Qed.
Lemma epath o e t : ipath R0 o e t -> (forall x, In x e -> ilab x = 0) -> ipath E o e t.
Proof. induction 1 as [|o x p t Hx Hp IH]; intros H; constructor; [apply in_E; split; auto; apply H; now left|]. apply IH. intros; apply H; now right. Qed.
Lemma complete n : forall p s t, (length p <= n)%nat -> Kn s = true -> ipath R0 s p t -> ends_ok p ->
  (exists ys, ipath Rall s ys t /\ map ilab ys = plab p /\ psc p <= psc ys) \/
  (exists z ys, In z (M s) /\ P z = true /\ ipath Rall (idst z) ys t /\ map ilab ys = plab p /\ psc p <= isc z + psc ys).
Proof.
  induction n as [|n IH]; intros p s t Ln Ks Hp He; destruct (split_eps p He) as [->|(e & x & p' & -> & H1 & H2 & H3)]; [| rewrite app_length in Ln; cbn in Ln; lia| |].
  1,2: left; exists []; split; [inversion Hp; subst; constructor|]; split; [reflexivity|unfold psc; cbn; lia].
  apply ipath_split in Hp as (u & Pe & Pn). apply ipath_inv in Pn as (Hx & Pp). pose proof (R0_rng _ _ Hx) as (Bu & Su & Bd & _). pose proof (epath s e u Pe H1) as PE.
  assert (IF : In x (fl fs R0)) by (apply in_flat; eauto). destruct (Ks_ends fs R0 false WF x IF) as (Ku & Kd). { unfold PL, label_keep. change (lab (fst x)) with (ilab x). lia. } rewrite Su in Ku. assert (HN : In x (Rn u)) by (now apply in_Rn).
  assert (Bs : 0 <= s < N) by (eapply Ks_range; exact Ks). destruct HC as (_ & _ & CC & CY).
  assert (LB : plab (e ++ x :: p') = ilab x :: plab p') by (change (x :: p') with ([x] ++ p'); rewrite !plab_app, (plab_zero e H1), plab_one by auto; reflexivity).
  assert (PS : psc (e ++ x :: p') = psc e + isc x + psc p') by (rewrite psc_app, psc_cons; lia). rewrite LB, PS.
  (* the arc and what follows it *)
  assert (NX : exists y ys, (forall z, In z (M s) -> P z = false -> idst z = u -> exists y', In y' (Rall s) /\ idst y' = idst y /\ ilab y' = ilab y /\ isc y' = isc z + isc y) /\ In y (Rall u) /\ ipath Rall (idst y) ys t /\ ilab y = ilab x /\ map ilab ys = plab p' /\ isc x + psc p' <= isc y + psc ys).
  { destruct (IH p' (idst x) t) as [(ys & Y1 & Y2 & Y3)|(z' & ys & Z1 & Z2 & Y1 & Y2 & Y3)]; auto. { rewrite app_length in Ln. cbn in Ln. lia. }
    - exists x, ys. split; [|split; [apply in_all; auto|]; split; [auto|]; split; [auto|]; split; [auto|lia]]. intros z Hz Pz Dz. exists (combf z x). split; [|auto]. apply in_all. left. unfold Rf. apply in_ex. exists z. split; [auto|]. unfold ef. rewrite Pz, Dz. now apply in_map.
    - exists (combp x z'), ys. assert (ZP : In z' (Rp (idst x))) by (apply filter_In; auto). split.
      + intros z Hz Pz Dz. exists (combp (combf z x) z'). split; [|split; [auto|split; [auto|unfold combp, combf, isc; cbn; lia]]]. apply in_all. right; right; left. unfold Rpf. apply in_ex. exists (combf z x). split; [unfold Rf; apply in_ex; exists z; split; [auto|]; unfold ef; rewrite Pz, Dz; now apply in_map|]. unfold ep. now apply in_map.
      + split; [apply in_all; right; left; unfold Rpn; apply in_ex; exists x; split; [auto|]; unfold ep; now apply in_map|]. split; [auto|]. split; [reflexivity|]. split; [auto|]. change (isc (combp x z')) with (isc x + isc z'). lia. }
  destruct NX as (y & ys & NF & Y1 & Y2 & Y3 & Y4 & Y5). destruct (Z.eq_dec s u) as [Eq|NE].
  - left. rewrite <- Eq in Y1, PE. exists (y :: ys). split; [constructor; assumption|]. split; [cbn; congruence|]. rewrite psc_cons. pose proof (CY s e Bs PE). lia.
  - destruct (CC s e u Bs PE NE) as (z & Z1 & Z2 & Z3). assert (ZM : In z (M s)). { unfold Rm. apply filter_In. split; [auto|]. unfold Pm. destruct (proj2 wC s z Bs Z1) as (S1 & _). rewrite S1, Z2, Ks, Ku. reflexivity. }
    destruct (P z) eqn:Pz.
    + right. exists z, (y :: ys). split; [auto|]. split; [auto|]. rewrite Z2. split; [constructor; auto|]. split; [cbn; congruence|]. rewrite psc_cons. lia.
    + left. destruct (NF z ZM Pz Z2) as (y' & N1 & N2 & N3 & N4). exists (y' :: ys). split; [constructor; [auto|now rewrite N2]|]. split; [cbn; congruence|]. rewrite psc_cons. lia.
Qed.
Lemma complete_start p s t : Kn s = true -> so fs s = s -> ipath R0 s p t -> ends_ok p -> exists ys, ipath Rall s ys t /\ map ilab ys = plab p /\ psc p <= psc ys.
Proof.
  intros Ks So Hp He. destruct (complete (length p) p s t (le_n _) Ks Hp He) as [H|(z & ys & Z1 & Z2 & _)]; [exact H|]. exfalso. unfold prec in Z2. destruct (in_Rm fs Ke Kn C wC KeR s z Z1) as (_ & _ & _ & S1 & _). rewrite S1, So, Z.eqb_refl in Z2. discriminate.
Qed.
End Lang.
