From Coq Require Import ZArith List Lia Bool.
From Coq Require Import ZifyBool ZifyNat.
From Verif Require Import Base RaggedOpsProofs OpsModel RnntModel RnntSpec.
Import ListNotations.
Open Scope Z_scope.

(** ** _monotonic_lower_bound *)
Lemma rd_cons_pos {A} (x : A) l i : 0 < i -> rd (x :: l) i = rd l (i - 1).
Proof. intros. rewrite rd_cons. now replace (i =? 0) with false by lia. Qed.

Lemma last_cons_def (l : list Z) : forall x d, last (x :: l) d = last l x.
Proof. induction l as [|y l IH]; intros x d; [reflexivity|]. change (last (x :: y :: l) d) with (last (y :: l) d). rewrite !IH. reflexivity. Qed.

Lemma cummin_from_app l : forall m x, cummin_from m (l ++ [x]) = cummin_from m l ++ [Z.min (last (cummin_from m l) m) x].
Proof.
  induction l as [|y l IH]; intros m x; [reflexivity|]. cbn [app cummin_from]. rewrite IH. cbn [app]. do 3 f_equal.
  now rewrite last_cons_def.
Qed.

Fixpoint mlb (l : list Z) : list Z :=
  match l with
  | [] => []
  | x :: l' => (match mlb l' with [] => x | y :: _ => Z.min x y end) :: mlb l'
  end.

Lemma last_rev_hd (l : list Z) d : last (rev l) d = hd d l.
Proof. destruct l as [|x l]; [reflexivity|]. cbn [rev hd]. apply last_last. Qed.

Lemma mlb_eq l : monotonic_lower_bound l = mlb l.
Proof.
  unfold monotonic_lower_bound. induction l as [|x l IH]; [reflexivity|]. cbn [rev mlb].
  assert (E : forall l x, cummin (l ++ [x]) = cummin l ++ [match cummin l with [] => x | _ => Z.min (last (cummin l) 0) x end]).
  { clear. intros [|y l] x; [reflexivity|]. cbn [app cummin]. rewrite cummin_from_app. cbn [app]. do 3 f_equal.
    now rewrite last_cons_def. }
  rewrite E, rev_app_distr. cbn [rev app]. rewrite IH. f_equal.
  assert (EM : cummin (rev l) = rev (mlb l)) by (rewrite <- IH, rev_involutive; reflexivity). rewrite EM, last_rev_hd.
  destruct (mlb l) as [|y m] eqn:Em; [reflexivity|]. cbn [rev hd]. destruct (rev m ++ [y]) eqn:E0; [destruct (rev m); discriminate|].
  apply Z.min_comm.
Qed.

Lemma zlen_mlb l : zlen (mlb l) = zlen l.
Proof. induction l as [|x l IH]; [reflexivity|]. cbn [mlb]. rewrite !zlen_cons, IH. reflexivity. Qed.

(** [mlb l] at [t] is the least of the values from [t] on. *)
Lemma mlb_min l : forall t v, rd (mlb l) t = Some v ->
  (forall u x, t <= u -> rd l u = Some x -> v <= x) /\ (exists u, t <= u /\ rd l u = Some v).
Proof.
  induction l as [|x l IH]; intros t v H; [cbn [mlb] in H; rewrite rd_nil in H; discriminate|].
  cbn [mlb] in H. pose proof (rd_Some_bound _ _ _ H) as B. destruct (Z.eq_dec t 0) as [->|N].
  - rewrite rd_cons_0 in H. injection H as <-. destruct (mlb l) as [|y m] eqn:E.
    + assert (l = []) by (apply zlen_0_nil; rewrite <- zlen_mlb, E; reflexivity). subst l. split.
      * intros u z Hu Hz. pose proof (rd_Some_bound _ _ _ Hz) as Bz. change (zlen [x]) with 1 in Bz.
        replace u with 0 in Hz by lia. rewrite rd_cons_0 in Hz. injection Hz. lia.
      * exists 0. split; [lia|reflexivity].
    + destruct (IH 0 y) as (I1 & u & I2 & I3); [reflexivity|]. split.
      * intros u' z Hu Hz. destruct (Z.eq_dec u' 0) as [->|]; [rewrite rd_cons_0 in Hz; injection Hz; lia|].
        pose proof (rd_Some_bound _ _ _ Hz).
        rewrite rd_cons_pos in Hz by lia. pose proof (I1 (u' - 1) z ltac:(lia) Hz). lia.
      * destruct (Z_le_gt_dec x y).
        -- exists 0. split; [lia|]. rewrite rd_cons_0. f_equal. lia.
        -- exists (u + 1). split; [lia|]. rewrite rd_cons_pos by lia. replace (u + 1 - 1) with u by lia. rewrite I3. f_equal. lia.
  - rewrite rd_cons_pos in H by lia. destruct (IH _ _ H) as (I1 & u & I2 & I3). split.
    + intros u' z Hu Hz. rewrite rd_cons_pos in Hz by lia. apply (I1 (u' - 1)); auto. lia.
    + exists (u + 1). split; [lia|]. rewrite rd_cons_pos by lia. replace (u + 1 - 1) with u by lia. auto.
Qed.

Lemma mlb_mono l t v w : 0 <= t -> rd (mlb l) t = Some v -> rd (mlb l) (t + 1) = Some w ->
  v <= w /\ (v = w \/ rd l t = Some v).
Proof.
  intros Ht Hv Hw. destruct (mlb_min l t v Hv) as (A1 & u & A2 & A3). destruct (mlb_min l (t + 1) w Hw) as (B1 & u' & B2 & B3).
  pose proof (A1 u' w ltac:(lia) B3). split; auto. destruct (Z.eq_dec u t) as [->|]; auto.
  pose proof (B1 u v ltac:(lia) A3). left; lia.
Qed.

(** ** _adjust_pruning_lower_bound *)
Section Adjust.
Variables (r M : Z) (x : list Z).
Hypothesis R1 : 1 <= r.
Hypothesis X : forall t v, rd x t = Some v -> 0 <= v <= M.
Let n := zlen x.
Let m := mlb x.
Let y := magic r m.
Let z := mlb y.
Let a := adjust_pruning_lower_bound r x.

Lemma rd_magic l t v : rd l t = Some v -> rd (magic r l) t = Some ((r - 1) * t - v).
Proof. intros H. unfold magic. rewrite rd_imap, H. cbn [option_map]. f_equal. lia. Qed.
Lemma zlen_magic l : zlen (magic r l) = zlen l.
Proof. apply zlen_imap. Qed.

Lemma a_eq : a = magic r (map (Z.max 0) z).
Proof. unfold a, adjust_pruning_lower_bound. rewrite !mlb_eq. reflexivity. Qed.
Lemma zlen_a : zlen a = n.
Proof. rewrite a_eq, zlen_magic, zlen_map. unfold z, y, m. now rewrite zlen_mlb, zlen_magic, zlen_mlb. Qed.

Lemma parts t : 0 <= t < n -> exists mt zt, rd m t = Some mt /\ rd z t = Some zt /\ rd y t = Some ((r - 1) * t - mt) /\
  rd a t = Some ((r - 1) * t - Z.max 0 zt).
Proof.
  intros Ht. destruct (rd_in_bound m t) as (mt & Hm); [unfold m; rewrite zlen_mlb; auto|].
  destruct (rd_in_bound z t) as (zt & Hz); [unfold z, y, m; rewrite zlen_mlb, zlen_magic, zlen_mlb; auto|].
  exists mt, zt. split; auto. split; auto. split; [apply rd_magic; auto|].
  rewrite a_eq. apply rd_magic. now rewrite rd_map, Hz.
Qed.

Lemma m_range t mt : rd m t = Some mt -> 0 <= mt <= M.
Proof. intros H. destruct (mlb_min x t mt H) as (_ & u & _ & Hu). eauto. Qed.

Lemma z_bounds t zt : rd z t = Some zt -> (exists u mu, t <= u /\ rd m u = Some mu /\ zt = (r - 1) * u - mu) /\
  forall u mu, t <= u -> rd m u = Some mu -> zt <= (r - 1) * u - mu.
Proof.
  intros H. destruct (mlb_min y t zt H) as (H1 & u & H2 & H3). split.
  - pose proof (rd_Some_bound _ _ _ H3) as B. unfold y in B. rewrite zlen_magic in B.
    destruct (rd_in_bound m u B) as (mu & Hm). exists u, mu. split; auto. split; auto.
    unfold y in H3. rewrite (rd_magic m u mu Hm) in H3. now injection H3.
  - intros u' mu Hu Hm. apply (H1 u'); auto. unfold y. now apply rd_magic.
Qed.

Lemma a_first : 0 < n -> rd a 0 = Some 0.
Proof.
  intros H. destruct (parts 0) as (mt & zt & H1 & H2 & H3 & H4); [lia|]. rewrite H4. f_equal.
  pose proof (m_range _ _ H1). destruct (z_bounds 0 zt H2) as (_ & B). pose proof (B 0 mt ltac:(lia) H1). lia.
Qed.

Lemma a_step t v w : 0 <= t -> rd a t = Some v -> rd a (t + 1) = Some w -> v <= w <= v + (r - 1).
Proof.
  intros Ht Hv Hw. pose proof (rd_Some_bound _ _ _ Hw) as B. rewrite zlen_a in B.
  destruct (parts t) as (mt & zt & H1 & H2 & H3 & H4); [lia|]. destruct (parts (t + 1)) as (mt' & zt' & H1' & H2' & H3' & H4'); [lia|].
  rewrite H4 in Hv. injection Hv as <-. rewrite H4' in Hw. injection Hw as <-.
  destruct (mlb_mono y t zt zt' Ht H2 H2') as (Z1 & Z2).
  destruct (mlb_mono x t mt mt' Ht H1 H1') as (M1 & _).
  assert (zt' <= zt + (r - 1)).
  { destruct Z2 as [->|Z2]; [lia|]. rewrite H3 in Z2. injection Z2 as <-.
    destruct (z_bounds _ _ H2') as (_ & Bz). pose proof (Bz (t + 1) mt' ltac:(lia) H1'). lia. }
  lia.
Qed.

Lemma a_nonneg t v : rd a t = Some v -> 0 <= v.
Proof.
  intros H. pose proof (rd_Some_bound _ _ _ H) as B. rewrite zlen_a in B.
  assert (G : forall d v, Z.of_nat d < n -> rd a (Z.of_nat d) = Some v -> 0 <= v).
  { clear t v H B. induction d as [|d IH]; intros v Hd H.
    - change (Z.of_nat 0) with 0 in *. rewrite a_first in H by lia. injection H. lia.
    - replace (Z.of_nat (S d)) with (Z.of_nat d + 1) in * by lia.
      destruct (rd_in_bound a (Z.of_nat d)) as (v' & Hv'); [rewrite zlen_a; lia|].
      pose proof (IH v' ltac:(lia) Hv'). pose proof (a_step (Z.of_nat d) v' v ltac:(lia) Hv' H). lia. }
  apply (G (Z.to_nat t)); [lia|]. replace (Z.of_nat (Z.to_nat t)) with t by lia. auto.
Qed.

Lemma a_upper t v : rd a t = Some v -> v <= M.
Proof.
  intros H. pose proof (rd_Some_bound _ _ _ H) as B. rewrite zlen_a in B.
  destruct (parts t B) as (mt & zt & H1 & H2 & H3 & H4). rewrite H4 in H. injection H as <-.
  destruct (z_bounds t zt H2) as ((u & mu & U1 & U2 & ->) & _). pose proof (m_range _ _ U2). nia.
Qed.

(** From frame [e] on the input is constant. *)
Lemma a_const e c : 0 <= e < n -> (forall t v, e <= t -> rd x t = Some v -> v = c) -> rd a e = Some (Z.min ((r - 1) * e) c).
Proof.
  intros He HC. destruct (parts e He) as (mt & zt & H1 & H2 & H3 & H4). rewrite H4. f_equal.
  assert (MC : forall t v, e <= t -> rd m t = Some v -> v = c).
  { intros t v Ht Hv. destruct (mlb_min x t v Hv) as (_ & u & U1 & U2). apply (HC u v); auto. lia. }
  rewrite (MC e mt) in H3 by (auto; lia).
  destruct (z_bounds e zt H2) as ((u & mu & U1 & U2 & E) & Bz). rewrite (MC u mu U1 U2) in E.
  pose proof (Bz e mt ltac:(lia) H1) as B2. rewrite (MC e mt) in B2 by (auto; lia). nia.
Qed.
End Adjust.

(** ** The rows of get_rnnt_prune_ranges *)
Lemma tabM_all {A} n (f : Z -> option A) : 0 <= n -> (forall i, 0 <= i < n -> exists x, f i = Some x) ->
  exists l, tabM n f = Some l /\ zlen l = n /\ forall i x, rd l i = Some x -> f i = Some x.
Proof.
  intros Hn H. unfold tabM.
  assert (E : exists l, mapM f (zrange n) = Some l).
  { assert (G : forall l, (forall i, In i l -> exists x, f i = Some x) -> exists l', mapM f l = Some l').
    { induction l as [|i l IH]; intros HI; [now exists []|]. destruct (HI i) as (x & Hx); [now left|].
      destruct IH as (l' & E); [intros; apply HI; now right|]. exists (x :: l'). cbn [mapM]. now rewrite Hx, E. }
    apply G. intros i Hi. apply in_zrange in Hi. auto. }
  destruct E as (l & E). exists l. split; auto. pose proof (mapM_length _ _ _ E) as L. rewrite zrange_length in L.
  split; [unfold zlen; lia|].
  intros i x Hx. pose proof (rd_Some_bound _ _ _ Hx) as B. destruct (mapM_rd _ _ _ _ _ E Hx) as (j & Hj & Hf).
  rewrite rd_zrange in Hj by (unfold zlen in B; lia). injection Hj as <-. exact Hf.
Qed.

Lemma shape1_ok {A} n (x : list A) : shape1 n x = true -> zlen x = n.
Proof. unfold shape1. lia. Qed.
Lemma shape2_ok {A} n m (x : list (list A)) : shape2 n m x = true ->
  zlen x = n /\ forall i j, 0 <= i < n -> 0 <= j < m -> exists v, rd2 x i j = Some v.
Proof.
  unfold shape2. intros H. apply andb_prop in H as (H1 & H2). rewrite forallb_forall in H2. split; [lia|].
  intros i j Hi Hj. destruct (rd_in_bound x i) as (row & Hr); [lia|]. pose proof (shape1_ok _ _ (H2 row (rd_In _ _ _ Hr))).
  unfold rd2. rewrite Hr. apply rd_in_bound. lia.
Qed.
Lemma shape3_ok {A} n m k (x : list (list (list A))) : shape3 n m k x = true ->
  zlen x = n /\ forall i y, rd x i = Some y -> shape2 m k y = true.
Proof.
  unfold shape3. intros H. apply andb_prop in H as (H1 & H2). rewrite forallb_forall in H2. split; [lia|].
  intros i y Hy. apply H2. eapply rd_In; eauto.
Qed.

Section Rows.
Context {G : Type} (gzero : G) (gadd gsub : G -> G -> G) (argmax : list G -> Z).
Hypothesis AM : forall l, l <> [] -> 0 <= argmax l < zlen l.

Lemma s_begin_row_ok S T T1 r px py b : 0 <= S -> T <= T1 -> 1 <= r <= S + 1 -> 1 <= b_T b <= T -> 0 <= b_S b <= S ->
  shape2 S T1 px = true -> shape2 (S + 1) T py = true ->
  exists x, s_begin_row gzero gadd gsub argmax S T r px py b = Some x /\ zlen x = T /\
    (forall t v, rd x t = Some v -> 0 <= v <= S - r + 1) /\
    (forall t v, b_T b - 1 <= t -> rd x t = Some v -> v = Z.max 0 (b_S b - r + 1)).
Proof.
  intros HS HT Hr HTb HSb Hx Hy. apply shape2_ok in Hx as (X1 & X2). apply shape2_ok in Hy as (Y1 & Y2).
  unfold s_begin_row.
  match goal with |- context [tabM T ?f] => destruct (tabM_all T f) as (x & E & L & P) end; [lia| |].
  { intros t Ht. match goal with |- context [tabM (S + 1 - r + 1) ?f] => destruct (tabM_all (S + 1 - r + 1) f) as (col & E & L & P) end; [lia| |].
    { intros s Hs. match goal with |- context [tabM r ?f] => destruct (tabM_all r f) as (blk & -> & _) end; [lia| |].
      - intros j Hj. apply Y2; lia.
      - assert (EP : exists p, rd2 (repeat gzero (Z.to_nat T) :: px) s t = Some p).
        { unfold rd2. rewrite rd_cons. destruct (s =? 0) eqn:E; [exists gzero; apply rd_repeat; lia|].
          destruct (X2 (s - 1) t) as (v & Hv); [lia|lia|]. unfold rd2 in Hv. exists v. exact Hv. }
        destruct EP as (p & ->). eexists. reflexivity. }
    rewrite E. eexists. reflexivity. }
  rewrite E. eexists. split; [reflexivity|]. rewrite zlen_imap. split; [auto|]. split.
  - intros t v Hv. rewrite rd_imap in Hv. destruct (rd x t) as [s|] eqn:Hs; [|discriminate]. cbn [option_map] in Hv.
    injection Hv as <-. destruct (0 + t <? b_T b - 1) eqn:Em; [|lia].
    apply P in Hs. match type of Hs with context [tabM ?n ?f] => destruct (tabM n f) as [col|] eqn:Ec; [|discriminate] end.
    injection Hs as <-. assert (zlen col = S + 1 - r + 1).
    { unfold tabM in Ec. apply mapM_length in Ec. rewrite zrange_length in Ec. unfold zlen. lia. }
    pose proof (AM col). assert (col <> []) by (intros ->; change (zlen (@nil G)) with 0 in *; lia). intuition lia.
  - intros t v Ht Hv. rewrite rd_imap in Hv. destruct (rd x t) as [s|] eqn:Hs; [|discriminate]. cbn [option_map] in Hv.
    injection Hv as <-. replace (0 + t <? b_T b - 1) with false by lia. reflexivity.
Qed.
End Rows.

(** ** Alignments through the windows *)
Lemma aligns_run (ok : Z -> Z -> Prop) t s' t' : forall d s, (forall i, s <= i < s + Z.of_nat d -> ok i t) ->
  aligns Regular ok (s + Z.of_nat d) t s' t' -> aligns Regular ok s t s' t'.
Proof.
  induction d as [|d IH]; intros s H HA.
  - replace (s + Z.of_nat 0) with s in HA by lia. exact HA.
  - apply al_emit; auto. { apply H. lia. } apply IH.
    + intros i Hi. apply H. lia.
    + replace (s + 1 + Z.of_nat d) with (s + Z.of_nat (S d)) by lia. exact HA.
Qed.

Section Align.
Variables (w : Z -> Z) (r Sb Tb : Z).
Variable ok : Z -> Z -> Prop.
Hypothesis OK : forall s t, 0 <= t < Tb -> w t <= s <= w t + r - 1 -> ok s t.
Hypothesis T1 : 1 <= Tb.
Hypothesis W0 : w 0 = 0.
Hypothesis WE : w (Tb - 1) <= Sb.

Lemma regular_survives : (forall t, 0 <= t -> t + 1 < Tb -> w t <= w (t + 1) <= w t + (r - 1)) ->
  1 <= r -> Sb <= w (Tb - 1) + r - 1 -> aligns Regular ok 0 0 Sb Tb.
Proof.
  intros WS R1 HE.
  assert (G : forall d, 0 <= Tb - 1 - Z.of_nat d -> aligns Regular ok (w (Tb - 1 - Z.of_nat d)) (Tb - 1 - Z.of_nat d) Sb Tb).
  { induction d as [|d IH]; intros Hd.
    - replace (Tb - 1 - Z.of_nat 0) with (Tb - 1) by lia. apply aligns_run with (d := Z.to_nat (Sb - w (Tb - 1))).
      + intros i Hi. apply OK; lia.
      + replace (w (Tb - 1) + Z.of_nat (Z.to_nat (Sb - w (Tb - 1)))) with Sb by lia. apply al_blank; [apply OK; lia|].
        replace (Tb - 1 + 1) with Tb by lia. constructor.
    - set (t := Tb - 1 - Z.of_nat (S d)) in *. pose proof (WS t ltac:(lia) ltac:(lia)) as W.
      replace (Tb - 1 - Z.of_nat d) with (t + 1) in IH by lia. specialize (IH ltac:(lia)).
      apply aligns_run with (d := Z.to_nat (w (t + 1) - w t)); [intros i Hi; apply OK; lia|].
      replace (w t + Z.of_nat (Z.to_nat (w (t + 1) - w t))) with (w (t + 1)) by lia.
      apply al_blank; [apply OK; lia|]. exact IH. }
  specialize (G (Z.to_nat (Tb - 1)) ltac:(lia)). replace (Tb - 1 - Z.of_nat (Z.to_nat (Tb - 1))) with 0 in G by lia.
  rewrite W0 in G. exact G.
Qed.

Lemma modified_survives k : (forall t, 0 <= t -> t + 1 < Tb -> w t <= w (t + 1) <= w t + 1) ->
  0 <= Sb <= Tb -> (k = Modified /\ 1 <= r \/ k = Constrained /\ 2 <= r) ->
  Z.min (Tb - 1) (Sb - r + 1) <= w (Tb - 1) -> aligns k ok 0 0 Sb Tb.
Proof.
  intros WS HS HK HE. set (q := fun t => Z.max (w t) (Sb - Tb + t)).
  assert (LB : forall d, 0 <= Tb - 1 - Z.of_nat d -> w (Tb - 1) - Z.of_nat d <= w (Tb - 1 - Z.of_nat d)).
  { induction d as [|d IH]; intros Hd; [replace (Tb - 1 - Z.of_nat 0) with (Tb - 1) by lia; lia|].
    pose proof (WS (Tb - 1 - Z.of_nat (S d)) ltac:(lia) ltac:(lia)) as W.
    replace (Tb - 1 - Z.of_nat (S d) + 1) with (Tb - 1 - Z.of_nat d) in W by lia. specialize (IH ltac:(lia)). lia. }
  assert (UB : forall t, 0 <= t < Tb -> q t < Sb -> q t + 1 <= w t + r - 1 \/ (q t <= w t + r - 1 /\ k = Modified)).
  { intros t Ht Hq. pose proof (LB (Z.to_nat (Tb - 1 - t)) ltac:(lia)) as L.
    replace (Tb - 1 - Z.of_nat (Z.to_nat (Tb - 1 - t))) with t in L by lia. unfold q in *.
    destruct HK as [(EK & HR)|(EK & HR)]; [|left; lia].
    right. split; auto. lia. }
  assert (LE : forall d, 0 <= Tb - 1 - Z.of_nat d -> w (Tb - 1 - Z.of_nat d) <= Sb).
  { induction d as [|d IH]; intros Hd; [replace (Tb - 1 - Z.of_nat 0) with (Tb - 1) by lia; lia|].
    pose proof (WS (Tb - 1 - Z.of_nat (S d)) ltac:(lia) ltac:(lia)) as W.
    replace (Tb - 1 - Z.of_nat (S d) + 1) with (Tb - 1 - Z.of_nat d) in W by lia. specialize (IH ltac:(lia)). lia. }
  assert (emit : forall t, 0 <= t < Tb -> q t < Sb -> aligns k ok (q t + 1) (t + 1) Sb Tb -> aligns k ok (q t) t Sb Tb).
  { intros t Ht Hq HA. destruct (UB t Ht Hq) as [U|(U & EK)].
    - destruct HK as [(-> & _)|(-> & _)].
      + apply al_emit_mod; auto. apply OK; unfold q in *; lia.
      + apply al_emit_con; auto; apply OK; unfold q in *; lia.
    - apply al_emit_mod; auto. apply OK; unfold q in *; lia. }
  assert (blank : forall t, 0 <= t < Tb -> q t <= w t + r - 1 -> aligns k ok (q t) (t + 1) Sb Tb -> aligns k ok (q t) t Sb Tb).
  { intros t Ht Hq HA. apply al_blank; auto. apply OK; unfold q in *; lia. }
  assert (QB : forall t, 0 <= t < Tb -> q t <= w t + r - 1).
  { intros t Ht. pose proof (LB (Z.to_nat (Tb - 1 - t)) ltac:(lia)) as L.
    replace (Tb - 1 - Z.of_nat (Z.to_nat (Tb - 1 - t))) with t in L by lia. unfold q in *. lia. }
  assert (G : forall d, 0 <= Tb - 1 - Z.of_nat d -> aligns k ok (q (Tb - 1 - Z.of_nat d)) (Tb - 1 - Z.of_nat d) Sb Tb).
  { induction d as [|d IH]; intros Hd.
    - replace (Tb - 1 - Z.of_nat 0) with (Tb - 1) by lia. destruct (Z_lt_ge_dec (q (Tb - 1)) Sb).
      + apply emit; [lia|auto|]. replace (q (Tb - 1) + 1) with Sb by (unfold q in *; lia). replace (Tb - 1 + 1) with Tb by lia. constructor.
      + apply blank; [lia|apply QB; lia|]. replace (q (Tb - 1)) with Sb by (unfold q in *; lia). replace (Tb - 1 + 1) with Tb by lia. constructor.
    - set (t := Tb - 1 - Z.of_nat (S d)) in *. pose proof (WS t ltac:(lia) ltac:(lia)) as W.
      replace (Tb - 1 - Z.of_nat d) with (t + 1) in IH by lia. specialize (IH ltac:(lia)).
      assert (LE' := LE (S d) ltac:(lia)). fold t in LE'.
      destruct (Z.eq_dec (q (t + 1)) (q t)) as [E|E].
      + apply blank; [lia|apply QB; lia|]. rewrite <- E. exact IH.
      + assert (E' : q (t + 1) = q t + 1) by (unfold q in *; lia). apply emit; [lia| |rewrite <- E'; exact IH].
        pose proof (LE d ltac:(lia)) as LE2. replace (Tb - 1 - Z.of_nat d) with (t + 1) in LE2 by lia. unfold q in *. lia. }
  specialize (G (Z.to_nat (Tb - 1)) ltac:(lia)). replace (Tb - 1 - Z.of_nat (Z.to_nat (Tb - 1))) with 0 in G by lia.
  replace (q 0) with 0 in G by (unfold q; lia). exact G.
Qed.
End Align.
