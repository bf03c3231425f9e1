(** * Determinization: the main loop *)
From Coq Require Import ZArith List Lia Bool Permutation.
From Verif Require Import Base RaggedModel RaggedSpec RaggedProofs FsaSpec FsaLemmas OpsModel ScoreSpec ScorePaths ShortestSpec IntersectPaths DetModel DetSpec DetProofs.
Import ListNotations.
Open Scope Z_scope.

Section Run.
Variable f : nfsa.
Hypothesis HV : valid f.
Hypothesis HC : coaccessible f.
Hypothesis HN : no_collision f.
Variable wp : pushing.
Variables (ordE : elements -> elements) (ordL : list (Z * elements) -> list (Z * elements)).
Hypothesis HE : forall l, Permutation l (ordE l).
Hypothesis HL : forall l, Permutation l (ordL l).
Notation A := (all_arcs f).
Notation lb p := (labels (arcs_at f p)).
Notation scp p := (score (arcs_at f p)).

Lemma compact_loop_ok w : forall u0 t B a b, tbk f (u0 ++ w) t -> anc (length w) t = Some B ->
  compact_loop A (length w) t a b = Some (let r := key_loop (rev w) a b in (u64 (t_state B + 14051 * fst r), snd r)).
Proof.
  induction w as [|l w IH] using rev_ind; intros u0 t B a b HT HA; [cbn in *; injection HA as ->; reflexivity|].
  rewrite app_length in *. cbn [length] in *. rewrite Nat.add_1_r in *. inversion HT as [E|u p j x Hp Hx Hs E Et]; [destruct u0; [destruct w|]; discriminate|].
  rewrite app_assoc in E. apply app_inj_tail in E as (-> & EL). subst t. cbn [anc compact_loop] in *. rewrite Hx. rewrite (IH u0 p B _ _ Hp HA). rewrite rev_app_distr. cbn [rev app key_loop]. rewrite EL. reflexivity.
Qed.

(** the largest score from [b] along [w] *)
Definition ismax (b : Z) (w : list Z) (N : Z) : Prop :=
  (exists p s, apath f b p s /\ lb p = w /\ scp p = N) /\ (forall p s, apath f b p s -> lb p = w -> scp p <= N).
Definition N_ok (b : Z) (w : list Z) (N : Z) : Prop := match wp with NoWeight => N = 0 | MaxWeight => ismax b w N end.
Lemma N_fun b w N N' : N_ok b w N -> N_ok b w N' -> N = N'.
Proof.
  unfold N_ok. destruct wp; [congruence|]. intros ((p & s & P1 & P2 & P3) & M) ((p' & s' & P1' & P2' & P3') & M'). pose proof (M _ _ P1' P2'). pose proof (M' _ _ P1 P2). lia.
Qed.

Definition D_ok (d : dstate) (u : list Z) (B : tb) (w : list Z) (N : Z) : Prop :=
  els_ok f u (d_els d) /\ (forall s t, In (s, t) (d_els d) -> anc (length w) t = Some B) /\ d_len d = zlen w /\
  (exists u0, u = u0 ++ w /\ tbk f u0 B) /\ N_ok (t_state B) w N /\ match wp with NoWeight => True | MaxWeight => d_nz d = t_fp B + N end.

Definition arc_ok (b : Z) (w : list Z) (N : Z) (b' : Z) (w' : list Z) (N' : Z) (l x : Z) (D : list Z) : Prop :=
  apath f b D b' /\ lb D ++ w' = w ++ [l] /\ x = scp D + N' - N /\
  (forall p s, apath f b p s -> lb p = w ++ [l] -> exists p', apath f b' p' s /\ lb p' = w' /\ scp p <= scp D + scp p') /\
  (l = -1 -> b' = final f /\ w' = []).

Lemma fold_max (els : elements) : forall x, (forall e, In e els -> t_fp (snd e) <= fold_left (fun m e => Z.max m (t_fp (snd e))) els x) /\
  x <= fold_left (fun m e => Z.max m (t_fp (snd e))) els x /\
  (fold_left (fun m e => Z.max m (t_fp (snd e))) els x = x \/ exists e, In e els /\ t_fp (snd e) = fold_left (fun m e => Z.max m (t_fp (snd e))) els x).
Proof.
  induction els as [|e els IH]; intros x; cbn [fold_left]; [split; [intros e []|split; [lia|now left]]|].
  destruct (IH (Z.max x (t_fp (snd e)))) as (I1 & I2 & I3). split; [intros e' [<-|H]; [lia|auto]|]. split; [lia|]. destruct I3 as [I3|(e' & I3 & I4)].
  - destruct (Z.max_spec x (t_fp (snd e))) as [(M1 & M2)|(M1 & M2)]; rewrite M2 in *; [right; exists e; split; [now left|congruence]|left; exact I3].
  - right. exists e'. split; [now right|exact I4].
Qed.

(** the child of [d] along [l]: everything process_label computes *)
Lemma child_ok d u B w N l els0 : D_ok d u B w N -> els_ok f (u ++ [l]) els0 ->
  (forall s t, In (s, t) els0 -> exists t0, In (t_state t0, t0) (d_els d) /\ t_prev t = Some t0) ->
  let els := ordE els0 in
  exists B' w' N' D nz,
    common_ancestor (S (S (match els with [] => O | x :: _ => t_depth (snd x) end))) (map snd els) = Some (B', zlen w') /\
    zlen w' <= d_len d + 1 /\ trace_back (Z.to_nat (d_len d + 1 - zlen w')) B' [] = Some (D, B) /\
    normalizer wp els = Some nz /\ compact A (zlen w') els = Some (hash_key (t_state B') w') /\
    arc_ok (t_state B) w N (t_state B') w' N' l (match wp with NoWeight => t_fp B' - t_fp B | MaxWeight => nz - d_nz d end) D /\
    (forall id, D_ok (mkD id (zlen w') els nz) (u ++ [l]) B' w' N') /\
    0 <= t_state B' < nstates f /\ (exists p s, apath f (t_state B') p s /\ lb p = w').
Proof.
  intros (D1 & D2 & D3 & (u0 & D4 & D5) & D6 & D7) HE0 HP els. assert (EO : els_ok f (u ++ [l]) els) by (eapply els_ok_perm; [apply HE|exact HE0]).
  assert (HP' : forall s t, In (s, t) els -> exists t0, In (t_state t0, t0) (d_els d) /\ t_prev t = Some t0) by (intros s t Ht; apply (HP s t); eapply Permutation_in; [apply Permutation_sym, HE|exact Ht]).
  destruct EO as (E1 & E2 & E3 & E4).
  assert (ANC : forall t, In t (map snd els) -> anc (S (length w)) t = Some B).
  { intros t Ht. apply in_map_iff in Ht as ((s, t') & <- & Ht). destruct (HP' s t' Ht) as (t0 & T1 & T2). cbn [snd]. destruct t'; [discriminate|]. cbn in T2. injection T2 as <-. cbn. exact (D2 _ _ T1). }
  destruct els as [|(s1, t1) els'] eqn:Eels; [congruence|]. destruct (E3 s1 t1 (or_introl eq_refl)) as (TS1 & TK1). pose proof (tbk_depth f _ _ TK1) as DEP. cbn [snd].
  destruct (ancestor_ok f (S (S (t_depth t1))) (u ++ [l]) (map snd ((s1, t1) :: els'))) as (B' & n & C1 & C2 & C3).
  { discriminate. } { intros t Ht. apply in_map_iff in Ht as ((s, t') & <- & Ht). apply (E3 s t' Ht). } { lia. }
  pose proof (C3 _ _ ANC) as Hn. destruct (anc_ok f n _ _ B' TK1 (C2 t1 (or_introl eq_refl))) as (u0' & w' & r1 & R1 & R2 & R3 & R4 & R5 & R6 & R7).
  assert (AB : anc (S (length w) - n) B' = Some B).
  { apply (anc_add n _ t1 B' B (C2 t1 (or_introl eq_refl))). replace (n + (S (length w) - n))%nat with (S (length w)) by lia. apply ANC. now left. }
  destruct (trace_back_ok _ B' B [] AB) as (D & T1 & T2). rewrite app_nil_r in T1.
  destruct (anc_ok f _ _ _ B R3 AB) as (v0 & v & D' & V1 & V2 & V3 & V4 & V5 & V6 & V7).
  assert (D' = D) by (rewrite V4 in T2; now apply app_inv_head in T2). subst D'.
  destruct (tbk_path f _ _ D5) as (PB1 & PB2 & PB3). destruct (tbk_path f _ _ R3) as (PB1' & PB2' & PB3'). destruct (tbk_path f _ _ V3) as (_ & PV & _). assert (EQv : v0 = u0) by congruence.
  assert (LW : lb D ++ w' = w ++ [l]) by (rewrite V6; apply (app_inv_head u0); rewrite !app_assoc, <- D4, R1, V1, EQv; reflexivity).
  assert (ZW : zlen w' = Z.of_nat n) by (unfold zlen; lia).
  (* elements and paths from the base *)
  assert (EL1 : forall s t, In (s, t) ((s1, t1) :: els') -> exists r, apath f (t_state B') r s /\ lb r = w' /\ t_fp t = t_fp B' + scp r).
  { intros s t Ht. destruct (E3 s t Ht) as (TS & TK). assert (AT : anc n t = Some B') by (apply C2; change t with (snd (s, t)); now apply in_map).
    destruct (anc_ok f n _ _ B' TK AT) as (x0 & x & r & X1 & X2 & X3 & X4 & X5 & X6 & X7). exists r. rewrite <- TS. split; [exact X5|]. split; [|exact X7].
    rewrite X6. destruct (tbk_path f _ _ X3) as (_ & PX & _). assert (EQ : x0 = u0') by congruence. rewrite R1, EQ in X1. now apply app_inv_head in X1. }
  assert (EL2 : forall p s, apath f (t_state B') p s -> lb p = w' -> exists t, In (s, t) ((s1, t1) :: els') /\ t_fp B' + scp p <= t_fp t).
  { intros p s P1 P2. destruct (E4 (tpath B' ++ p) s) as (t & Ht & LE); [apply apath_app; eauto|rewrite lb_app; congruence|]. exists t. split; [exact Ht|]. rewrite scp_app in LE. lia. }
  assert (NZ : exists nz N', normalizer wp ((s1, t1) :: els') = Some nz /\ N_ok (t_state B') w' N' /\ match wp with NoWeight => N' = 0 | MaxWeight => nz = t_fp B' + N' end).
  { unfold normalizer, N_ok. destruct wp; [exists 0, 0; auto|]. cbn [snd]. destruct (fold_max els' (t_fp t1)) as (F1 & F2 & F3). set (nz := fold_left (fun m e => Z.max m (t_fp (snd e))) els' (t_fp t1)) in *.
    exists nz, (nz - t_fp B'). split; [reflexivity|]. split; [|lia]. split.
    - assert (X : exists s t, In (s, t) ((s1, t1) :: els') /\ t_fp t = nz) by (destruct F3 as [F3|((s, t) & F3 & F4)]; [exists s1, t1; split; [now left|congruence]|exists s, t; split; [now right|exact F4]]).
      destruct X as (s & t & X1 & X2). destruct (EL1 s t X1) as (r & Y1 & Y2 & Y3). exists r, s. split; [exact Y1|]. split; [exact Y2|lia].
    - intros p s P1 P2. destruct (EL2 p s P1 P2) as (t & X1 & X2). cut (t_fp t <= nz); [lia|]. destruct X1 as [X1|X1]; [injection X1 as <- <-; exact F2|exact (F1 (s, t) X1)]. }
  destruct NZ as (nz & N' & Z1 & Z2 & Z3).
  exists B', w', N', D, nz. rewrite C1, ZW. split; [reflexivity|].
  assert (DL : d_len d = Z.of_nat (length w)) by exact D3. split; [lia|]. split; [rewrite <- T1; f_equal; lia|]. split; [exact Z1|]. split.
  { cbn [compact snd]. rewrite Nat2Z.id, <- R2. rewrite (compact_loop_ok w' u0' t1 B'); [|now rewrite <- R1|rewrite R2; apply C2; now left]. unfold hash_key. rewrite ZW, R2. reflexivity. }
  split; [|split; [|split; [exact (tbk_state f HV _ _ R3)|exists r1, (t_state t1); auto]]].
  - split; [exact V5|]. split; [exact LW|]. split.
    { unfold N_ok in D6. destruct wp; [lia|]. lia. }
    split.
    + intros p s P1 P2. destruct (E4 (tpath B ++ p) s) as (t & Ht & LE); [apply apath_app; eauto|rewrite lb_app, PB2, P2, D4, app_assoc; reflexivity|]. destruct (EL1 s t Ht) as (r & Y1 & Y2 & Y3). exists r. split; [exact Y1|]. split; [exact Y2|]. rewrite scp_app in LE. lia.
    + intros ->. destruct HV as (_ & _ & V).
      assert (FIN : forall s t, In (s, t) ((s1, t1) :: els') -> s = final f).
      { intros s t Ht. destruct (E3 s t Ht) as (TS & TK). destruct (tbk_path f _ _ TK) as (Q1 & Q2 & _). destruct (lb_snoc f 0 _ _ _ _ Q1 Q2) as (p1 & j & a & _ & Ha & _ & Hd & _ & Hl). rewrite <- TS, <- Hd. apply (V a (rd_In _ _ _ Ha)). exact Hl. }
      assert (els' = []).
      { destruct els' as [|(s2, t2) els'']; [reflexivity|]. exfalso. pose proof (FIN s1 t1 (or_introl eq_refl)). pose proof (FIN s2 t2 (or_intror (or_introl eq_refl))). subst. cbn [map fst] in E1. inversion E1 as [|? ? X _]. apply X. now left. }
      subst els'. assert (n = O) by (assert (X : (n <= 0)%nat); [|lia]; apply (C3 O t1); intros t [<-|[]]; reflexivity). subst n. destruct w'; [|discriminate]. split; [|reflexivity].
      pose proof (C2 t1 (or_introl eq_refl)) as X. cbn in X. injection X as <-. rewrite TS1. exact (FIN s1 t1 (or_introl eq_refl)).
  - intros id. split; [exact (conj E1 (conj E2 (conj E3 E4)))|]. cbn [d_els d_len d_nz]. split; [intros s t Ht; rewrite R2; apply C2; change t with (snd (s, t)); now apply in_map|]. split; [now rewrite ZW|].
    split; [exists u0'; auto|]. split; [exact Z2|]. destruct wp; auto.
Qed.
End Run.
