(** * The lattice of two Levenshtein graphs is top-sorted once its epsilon self-loops are removed *)
From Coq Require Import ZArith List Lia Bool.
From Coq Require Import ZifyBool.
From Verif Require Import Base RaggedModel RaggedSpec RaggedProofs FsaSpec FsaLemmas ConnectProofs RaggedOpsModel RaggedOpsProofs PropsSpec GraphModel FstSpec GraphProofs LevProofs GraphProps IDevStep IDevPair UnionEpsProps.
Import ListNotations.
Open Scope Z_scope.

Definition lev_like (g : nfsa) (n : Z) : Prop :=
  zlen g = n + 2 /\ 0 <= n /\
  (forall x, In x (all_arcs g) -> 0 <= src x <= n /\ ((dst x = src x /\ lab x = 0) \/ dst x = src x + 1) /\ (lab x = -1 <-> dst x = n + 1)) /\
  (forall i i' x x', rd (all_arcs g) i = Some x -> rd (all_arcs g) i' = Some x' -> src x = src x' -> i < i' ->
     dst x <= dst x' /\ (lab x' = 0 -> dst x = src x /\ dst x' = src x + 1)) /\
  (forall s, 0 <= s <= n -> exists x, In x (all_arcs g) /\ src x = s /\ dst x = s /\ lab x = 0) /\
  (forall s, 0 <= s < n -> exists x, In x (all_arcs g) /\ src x = s /\ dst x = s + 1 /\ lab x = 0).

Lemma lev_is_like h d syms : Forall (fun a => 1 <= a) syms -> lev_like (map (map fst) (lev_nested h d syms)) (zlen syms).
Proof.
  intros H. pose proof (zlen_nonneg syms) as Z0. assert (SY : forall s, 0 <= s < zlen syms -> 1 <= at_or syms s).
  { intros s Hs. unfold at_or. destruct (rd_in_bound syms s Hs) as (x & E). rewrite E. rewrite Forall_forall in H. apply H. eapply rd_In; eauto. }
  set (g := map (map fst) (lev_nested h d syms)).
  assert (ROW : forall s, 0 <= s < zlen syms + 2 -> rd g s = Some (map fst (lev_state h d syms s))). { intros s Hs. unfold g, lev_nested. rewrite rd_map, rd_tab by lia. reflexivity. }
  assert (ZG : zlen g = zlen syms + 2) by (unfold g; rewrite zlen_map; apply zlen_lev).
  assert (POS : forall i x, rd (all_arcs g) i = Some x -> exists j, rd (map fst (lev_state h d syms (src x))) j = Some x /\ i = off1 g (src x) + j /\ 0 <= src x <= zlen syms /\
     ((j = 0 /\ x = mkArc (src x) (src x) 0 d) \/ (src x = zlen syms /\ j = 1 /\ x = mkArc (src x) (src x + 1) (-1) 0) \/
      (src x < zlen syms /\ j = 1 /\ x = mkArc (src x) (src x + 1) 0 (- h)) \/ (src x < zlen syms /\ j = 2 /\ x = mkArc (src x) (src x + 1) (at_or syms (src x)) 0))).
  { intros i x Hx. destruct (rd_concat_inv g i x Hx) as (r & l & j & A1 & A2 & A3 & A4). pose proof (rd_Some_bound _ _ _ A1) as Br. rewrite ZG in Br. rewrite (ROW r Br) in A1. injection A1 as <-.
    assert (X : 0 <= r <= zlen syms /\ ((j = 0 /\ x = mkArc r r 0 d) \/ (r = zlen syms /\ j = 1 /\ x = mkArc r (r + 1) (-1) 0) \/ (r < zlen syms /\ j = 1 /\ x = mkArc r (r + 1) 0 (- h)) \/ (r < zlen syms /\ j = 2 /\ x = mkArc r (r + 1) (at_or syms r) 0))).
    { pose proof (rd_Some_bound _ _ _ A2) as Bj. unfold lev_state in A2, Bj. destruct (r =? zlen syms + 1) eqn:E1; [cbn in A2; rewrite rd_nil in A2; discriminate|]. split; [lia|]. cbn [map fst] in A2. rewrite rd_cons in A2. destruct (j =? 0) eqn:J0; [injection A2 as <-; left; split; [lia|auto]|].
      destruct (r =? zlen syms) eqn:E2; cbn [map fst] in A2; rewrite rd_cons in A2.
      - destruct (j - 1 =? 0) eqn:J1; [injection A2 as <-; right; left; split; [lia|split; [lia|auto]]|]. rewrite rd_nil in A2. discriminate.
      - destruct (j - 1 =? 0) eqn:J1; [injection A2 as <-; right; right; left; split; [lia|split; [lia|auto]]|]. rewrite rd_cons in A2. destruct (j - 1 - 1 =? 0) eqn:J2; [injection A2 as <-; right; right; right; split; [lia|split; [lia|auto]]|]. rewrite rd_nil in A2. discriminate. }
    destruct X as (X1 & X2). assert (SX : src x = r) by (destruct X2 as [(_ & ->)|[(_ & _ & ->)|[(_ & _ & ->)|(_ & _ & ->)]]]; reflexivity). rewrite SX. exists j. split; auto. }
  assert (INP : forall x, In x (all_arcs g) -> exists i, rd (all_arcs g) i = Some x) by (intros x Hx; apply In_rd in Hx as (i & _ & Hx); eauto).
  assert (INR : forall s x, 0 <= s < zlen syms + 2 -> In x (map fst (lev_state h d syms s)) -> In x (all_arcs g)) by (intros s x Hs Hx; apply in_concat; eexists; split; [eapply rd_In, ROW; eauto|auto]).
  split; [exact ZG|]. split; [exact Z0|]. split; [|split; [|split]].
  - intros x Hx. destruct (INP x Hx) as (i & Hi). destruct (POS i x Hi) as (j & _ & _ & B & C). split; [exact B|]. assert (A1 := SY (src x)). destruct C as [(_ & C)|[(S1 & _ & C)|[(S1 & _ & C)|(S1 & _ & C)]]]; assert (D := f_equal dst C); assert (E := f_equal lab C); cbn [dst lab] in D, E; rewrite D, E; split; lia.
  - intros i i' x x' Hi Hi' S L. destruct (POS i x Hi) as (j & J1 & J2 & J3 & J4). destruct (POS i' x' Hi') as (j' & J1' & J2' & J3' & J4'). rewrite <- S in J2', J4'. assert (JJ : j < j') by lia. assert (A1 := SY (src x)).
    destruct J4 as [(C1 & C)|[(C0 & C1 & C)|[(C0 & C1 & C)|(C0 & C1 & C)]]]; destruct J4' as [(C1' & C')|[(C0' & C1' & C')|[(C0' & C1' & C')|(C0' & C1' & C')]]]; try lia;
      assert (D := f_equal dst C); assert (D' := f_equal dst C'); assert (E' := f_equal lab C'); cbn [dst lab] in D, D', E'; rewrite D, D', E'; split; lia.
  - intros s Hs. exists (mkArc s s 0 d). split; [|repeat split]. apply (INR s); [lia|]. unfold lev_state. replace (s =? zlen syms + 1) with false by lia. now left.
  - intros s Hs. exists (mkArc s (s + 1) 0 (- h)). split; [|repeat split]. apply (INR s); [lia|]. unfold lev_state. replace (s =? zlen syms + 1) with false by lia. replace (s =? zlen syms) with false by lia. right. now left.
Qed.

Section O.
Variables (a b c : nfsa) (n m : Z).
Hypothesis (La : lev_like a n) (Lb : lev_like b m) (Vc : valid c) (N : numbered a b c).

Lemma ord_aux A B A' B' sj si' sj' : B <= sj + 1 -> sj' <= B' -> Z.max 1 (Z.max A B) <= Z.max 1 (Z.max A' B') ->
  Z.max 1 (Z.max A' B') = Z.max 1 (Z.max si' sj') + 1 -> A' <= A -> B' <= B -> ~ (A' = A /\ B' = B) -> sj < sj' -> False.
Proof.
  intros H2 H4 M E L1 L2 NE D. assert (EB : B' = sj') by lia. assert (EB2 : B = B') by lia. assert (LT : A' < A) by (destruct (Z.eq_dec A' A); [exfalso; apply NE; auto|lia]). clear NE L1 L2.
  assert (P1 : B' <= Z.max 1 (Z.max si' sj')) by lia. assert (P2 : 1 <= Z.max 1 (Z.max si' sj')) by lia. generalize dependent (Z.max 1 (Z.max si' sj')). intros. lia.
Qed.
Lemma lev_topsorted u : In u (all_arcs c) -> ~ eps_self_loop u -> src u < dst u.
Proof.
  destruct La as (ZA & Z0a & A1 & A2 & A3 & A4). destruct Lb as (ZB & Z0b & B1 & B2 & B3 & B4). destruct N as (St & lv & Cr & N1 & N2 & N3 & N4 & N5 & N6 & N7 & N8 & N9). destruct Vc as (V1 & V2 & V3). unfold nstates, final in *.
  set (k := zlen c - 1) in *.
  (* pairs of the states in the middle *)
  assert (MID : forall p, 1 <= p < k -> exists s, rd St p = Some s /\ 0 <= fst s <= n /\ 0 <= snd s <= m).
  { intros p Hp. destruct (N8 p Hp) as (w & s & x & y & _ & _ & _ & X1 & X2 & X3 & X4 & X5 & X6 & X7 & _). exists (dst x, dst y). split; auto. cbn [fst snd]. destruct (A1 x (rd_In _ _ _ X1)) as (Q1 & Q2 & Q3). destruct (B1 y (rd_In _ _ _ X2)) as (R1 & R2 & R3). lia. }
  assert (K1 : 1 < k).
  { destruct (A3 0 ltac:(lia)) as (x & X1 & X2 & X3 & X4). destruct (B3 0 ltac:(lia)) as (y & Y1 & Y2 & Y3 & Y4). destruct (N5 0 (0, 0) x y N2 X1 Y1 ltac:(cbn; lia) ltac:(cbn; lia) ltac:(lia)) as (v & U1 & U2 & U3 & _). destruct (N4 v U1) as (s & x' & y' & _ & _ & _ & _ & _ & _ & _ & _ & _ & Q). specialize (Q ltac:(lia)). lia. }
  (* levels *)
  assert (LOW : forall q p s, (Z.to_nat p < q)%nat -> 1 <= p < k -> rd St p = Some s -> 1 <= lv p /\ fst s <= lv p /\ snd s <= lv p).
  { induction q as [|q IH]; intros p s Hq Hp Hs; [lia|]. destruct (N8 p Hp) as (w & s0 & x & y & _ & W & X0 & X1 & X2 & X3 & X4 & X5 & X6 & X7 & X8). assert (s = (dst x, dst y)) by congruence. subst s. cbn [fst snd].
    destruct (A1 x (rd_In _ _ _ X1)) as (Q1 & Q2 & Q3). destruct (B1 y (rd_In _ _ _ X2)) as (R1 & R2 & R3). destruct (Z.eq_dec (fst w) 0) as [E0|].
    - rewrite E0, N2 in X0. injection X0 as <-. rewrite E0, N3 in X8. cbn [fst snd] in *. lia.
    - destruct (IH (fst w) s0 ltac:(lia) ltac:(lia) X0) as (I1 & I2 & I3). lia. }
  assert (UP : forall q i j, (Z.to_nat (Z.max i j) <= q)%nat -> 0 <= i <= n -> 0 <= j <= m -> exists p, 1 <= p < k /\ rd St p = Some (i, j) /\ lv p <= Z.max 1 (Z.max i j)).
  { assert (STEP : forall p i j i' j', 0 <= p < k -> rd St p = Some (i, j) -> 0 <= i' <= n -> 0 <= j' <= m -> (i' = i \/ i' = i + 1) -> (j' = j \/ j' = j + 1) -> 0 <= i -> 0 <= j -> exists v, 1 <= v < k /\ rd St v = Some (i', j') /\ lv v <= lv p + 1).
    { intros p i j i' j' Bp Hp Bi Bj Ei Ej Pi Pj. assert (X : exists x, In x (all_arcs a) /\ src x = i /\ dst x = i' /\ lab x = 0) by (destruct Ei as [->| ->]; [apply A3|apply A4]; lia). assert (Y : exists y, In y (all_arcs b) /\ src y = j /\ dst y = j' /\ lab y = 0) by (destruct Ej as [->| ->]; [apply B3|apply B4]; lia).
      destruct X as (x & X1 & X2 & X3 & X4). destruct Y as (y & Y1 & Y2 & Y3 & Y4). destruct (N5 p (i, j) x y Hp X1 Y1 X2 Y2 ltac:(lia)) as (v & U1 & U2 & U3 & U4). destruct (N4 v U1) as (s & x' & y' & _ & _ & _ & _ & _ & _ & _ & _ & _ & Q). specialize (Q ltac:(lia)). exists (dst v). rewrite X3, Y3 in U4. rewrite U2 in Q. split; [lia|split; [auto|lia]]. }
    induction q as [|q IH]; intros i j Hq Bi Bj.
    - destruct (STEP 0 0 0 i j ltac:(lia) N2 Bi Bj ltac:(lia) ltac:(lia) ltac:(lia) ltac:(lia)) as (v & ? & ? & ?). exists v. split; [lia|split; [auto|lia]].
    - destruct (Z_le_gt_dec (Z.max i j) 1) as [L|L].
      + destruct (STEP 0 0 0 i j ltac:(lia) N2 Bi Bj ltac:(lia) ltac:(lia) ltac:(lia) ltac:(lia)) as (v & ? & ? & ?). exists v. split; [lia|split; [auto|lia]].
      + destruct (IH (Z.max 0 (i - 1)) (Z.max 0 (j - 1)) ltac:(lia) ltac:(lia) ltac:(lia)) as (p & P1 & P2 & P3). destruct (STEP p _ _ i j ltac:(lia) P2 Bi Bj ltac:(lia) ltac:(lia) ltac:(lia) ltac:(lia)) as (v & ? & ? & ?). exists v. split; [lia|split; [auto|lia]]. }
  assert (LV : forall p i j, 1 <= p < k -> rd St p = Some (i, j) -> lv p = Z.max 1 (Z.max i j) /\ 0 <= i <= n /\ 0 <= j <= m).
  { intros p i j Hp Hs. destruct (MID p Hp) as (s & S1 & S2 & S3). assert (s = (i, j)) by congruence. subst s. cbn [fst snd] in *. split; [|auto]. destruct (LOW _ p (i, j) (Nat.lt_succ_diag_r _) Hp Hs) as (L1 & L2 & L3). cbn [fst snd] in *. destruct (UP _ i j (Nat.le_refl _) S2 S3) as (p' & P1 & P2 & P3). assert (p = p') by (apply (N6 p p' (i, j)); auto; lia). subst p'. lia. }
  (* order *)
  assert (ORD : forall q p p' i j i' j', (Z.to_nat p' < q)%nat -> 1 <= p -> p < p' -> p' < k -> rd St p = Some (i, j) -> rd St p' = Some (i', j') -> i' <= i -> j' <= j -> False).
  { induction q as [|q IH]; intros p p' i j i' j' Hq P1 P2 P3 H1 H2 Li Lj; [lia|].
    assert (BP : 1 <= p < k) by lia. assert (BP' : 1 <= p' < k) by lia.
    assert (NE : ~ (i' = i /\ j' = j)). { intros (-> & ->). assert (p = p') by (apply (N6 p p' (i, j)); auto; lia). lia. }
    destruct (N8 p ltac:(lia)) as (w & s & x & y & C & W & X0 & X1 & X2 & X3 & X4 & X5 & X6 & X7 & X8). destruct (N8 p' ltac:(lia)) as (w' & s' & x' & y' & C' & W' & X0' & X1' & X2' & X3' & X4' & X5' & X6' & X7' & X8'). pose proof (N9 _ _ _ _ P2 C C') as EA.
    pose proof H1 as E1. rewrite X7 in E1. injection E1 as <- <-. pose proof H2 as E2. rewrite X7' in E2. injection E2 as <- <-.
    destruct (A1 x (rd_In _ _ _ X1)) as (Q1 & Q2 & Q3). destruct (B1 y (rd_In _ _ _ X2)) as (R1 & R2 & R3). destruct (A1 x' (rd_In _ _ _ X1')) as (Q1' & Q2' & Q3'). destruct (B1 y' (rd_In _ _ _ X2')) as (R1' & R2' & R3').
    destruct (LV p _ _ BP H1) as (LVp & _). destruct (LV p' _ _ BP' H2) as (LVp' & _).
    destruct EA as [EA|(EA & EB)].
    - destruct (Z.eq_dec (fst w) 0) as [W0|W0].
      + rewrite W0, N2 in X0. injection X0 as <-. rewrite W0, N3 in X8. cbn [fst snd] in *. destruct s' as (si & sj). assert (BW : 1 <= fst w' < k) by (clear - W' EA W0 P3; lia). destruct (LV (fst w') si sj BW X0') as (L1 & _). clear - W0 X8 X8' LVp LVp' L1 Li Lj. lia.
      + destruct s as (si & sj), s' as (si' & sj'). cbn [fst snd] in *. assert (BW : 1 <= fst w < k) by (clear - W W0 P2 P3; lia). assert (BW' : 1 <= fst w' < k) by (clear - W' BW EA P3; lia). destruct (LV (fst w) si sj BW X0) as (L1 & _). destruct (LV (fst w') si' sj' BW' X0') as (L1' & _). assert (PP : 0 <= p) by (clear - P1; lia). assert (PP2 : p <= p') by (clear - P2; lia). assert (PP3 : p' < k) by (clear - P3; lia). pose proof (N7 p p' PP PP2 PP3) as MONO.
        destruct (Z_le_gt_dec si' si) as [D1|D1]; [destruct (Z_le_gt_dec sj' sj) as [D2|D2]|].
        * refine (IH _ _ _ _ _ _ _ (proj1 BW) EA (proj2 BW') X0 X0' D1 D2). clear - Hq W'; lia.
        * rewrite LVp, LVp' in MONO. rewrite LVp', L1' in X8'. refine (ord_aux (dst x) (dst y) (dst x') (dst y') sj si' sj' _ _ MONO X8' Li Lj NE _); [clear - R2 X4; lia|clear - R2' X4'; lia|clear - D2; lia].
        * rewrite LVp, LVp' in MONO. rewrite LVp', L1' in X8'. rewrite (Z.max_comm (dst x)), (Z.max_comm (dst x')) in MONO. rewrite (Z.max_comm (dst x')), (Z.max_comm si') in X8'. refine (ord_aux (dst y) (dst x) (dst y') (dst x') si sj' si' _ _ MONO X8' Lj Li _ _); [clear - Q2 X3; lia|clear - Q2' X3'; lia|clear - NE; lia|clear - D1; lia].
    - rewrite <- EA in X0'. rewrite X0 in X0'. injection X0' as <-. destruct EB as [EB|EB].
      + assert (ES : src x = src x') by (clear - X3 X3'; congruence). assert (ES2 : src y = src y') by (clear - X4 X4'; congruence). destruct (A2 _ _ _ _ X1 X1' ES EB) as (D1 & D2). assert (LT : dst y' < dst y) by (clear - NE D1 Li Lj; lia). assert (L0 : lab x' = 0) by (clear - LT ES2 R2 R2' X5'; lia). specialize (D2 L0). clear - D2 Li; lia.
      + assert (ES : src x = src x') by (clear - X3 X3'; congruence). assert (ES2 : src y = src y') by (clear - X4 X4'; congruence). destruct (B2 _ _ _ _ X2 X2' ES2 EB) as (D1 & D2). assert (LT : dst x' < dst x) by (clear - NE D1 Li Lj; lia). assert (L0 : lab y' = 0) by (clear - LT ES Q2 Q2' X5'; lia). specialize (D2 L0). clear - D2 Lj; lia. }
  intros Hu NL. destruct (N4 u Hu) as (s & x & y & H1 & H2 & H3 & H4 & H5 & H6 & H7 & _ & H9 & H10). destruct (V3 u Hu) as (U1 & U2 & U3 & U4). fold k in U3, U4. pose proof (rd_Some_bound _ _ _ H1) as Bs. rewrite N1 in Bs.
  destruct (Z.eq_dec (lab u) (-1)) as [EL|NE]; [lia|]. specialize (H10 NE). destruct (Z.eq_dec (src u) 0) as [|S0]; [lia|].
  destruct (A1 x H2) as (Q1 & Q2 & Q3). destruct (B1 y H3) as (R1 & R2 & R3). destruct s as (si & sj). cbn [fst snd] in *.
  destruct (Z_lt_le_dec (src u) (dst u)) as [|LE]; auto. exfalso. destruct (Z.eq_dec (src u) (dst u)) as [ES|n0].
  - apply NL. split; [|auto]. rewrite <- ES, H1 in H9. injection H9 as E1 E2. clear - Q2 H4 H7 E1. lia.
  - assert (LT : dst u < src u) by (clear - LE n0; lia). assert (BK : src u < k) by (unfold k in *; clear - Bs U4; lia). apply (ORD _ (dst u) (src u) (dst x) (dst y) si sj (Nat.lt_succ_diag_r _) (proj1 (proj1 H10)) LT BK H9 H1); [clear - Q2 H4; lia|clear - R2 H5; lia].
Qed.
End O.
