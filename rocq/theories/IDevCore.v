(** * IntersectDevice: the pairs of arcs of one iteration *)
From Coq Require Import ZArith List Lia Bool Sorted.
From Coq Require Import ZifyBool.
From Verif Require Import Base RaggedModel RaggedSpec FsaSpec FsaLemmas RaggedOpsModel GraphProofs PropsModel PropsSpec IntersectProofs IDevModel.
From Verif Require EpsLoopProofs IDenseInit PathSums.
Import ListNotations.
Open Scope Z_scope.

Lemma geo fs k f s st : rd fs k = Some f -> rd f s = Some st ->
  let e := off1 fs k + s in let o := off1 (concat fs) e in
  rd (concat fs) e = Some st /\ rd (ids_of fs) e = Some k /\ 0 <= e < zlen (concat fs) /\
  rd (splits_of (concat fs)) e = Some o /\ rd (splits_of (concat fs)) (e + 1) = Some (o + zlen st) /\
  o = off1 (map all_arcs fs) k + off1 f s /\
  forall j x, rd st j = Some x -> rd (concat (concat fs)) (o + j) = Some x /\ rd (ids_of (concat fs)) (o + j) = Some e /\ rd (all_arcs f) (off1 f s + j) = Some x.
Proof.
  intros Hk Hs e o. destruct (rd_concat_off fs k f s st Hk Hs) as (E1 & E2). fold e in E1, E2. pose proof (rd_Some_bound _ _ _ E1) as B.
  split; auto. split; auto. split; auto. split; [rewrite rd_splits_off by lia; reflexivity|]. split; [rewrite rd_splits_off by lia; f_equal; now apply off1_next|].
  split; [unfold o, e; pose proof (rd_Some_bound _ _ _ Hs); rewrite (off1_concat fs k f s Hk) by lia; rewrite <- off1_map_concat; reflexivity|].
  intros j x Hx. destruct (rd_concat_off (concat fs) e st j x E1 Hx) as (E3 & E4). split; auto. split; auto. now destruct (rd_concat_off f s st j x Hs Hx).
Qed.

Lemma NoDup_filter_map {X Y} (g : X -> Y) p l : NoDup l -> (forall x y, In x l -> In y l -> p x = true -> p y = true -> g x = g y -> x = y) -> NoDup (map g (filter p l)).
Proof.
  intros N H. induction N as [|x l Hx N IH]; cbn [filter]; [constructor|]. destruct (p x) eqn:E; [|apply IH; intros; apply H; auto; now right]. cbn [map].
  constructor; [|apply IH; intros; apply H; auto; now right]. intros Hin. apply in_map_iff in Hin as (y & Ey & Hy). apply filter_In in Hy as (Hy & Py). apply Hx. rewrite (H x y); auto; [now left|now right].
Qed.

(** ** The ranges of matching arcs *)
Section M.
Variables (arcs : list arc) (lo hi : Z).
Hypothesis R : 0 <= lo <= hi.
Hypothesis B : forall i, lo <= i < hi -> exists a, rd arcs i = Some a.
Hypothesis SRT : forall i j a b, lo <= i <= j -> j < hi -> rd arcs i = Some a -> rd arcs j = Some b -> u32 (lab a) <= u32 (lab b).

Lemma lower_bound_ok l : forall fuel x y, lo <= x <= y -> y <= hi -> y - x <= Z.of_nat fuel ->
  (forall i a, lo <= i < x -> rd arcs i = Some a -> u32 (lab a) < l) -> (forall i a, y <= i < hi -> rd arcs i = Some a -> l <= u32 (lab a)) ->
  exists r, lower_bound fuel arcs l x y = Some r /\ lo <= r <= hi /\ (forall i a, lo <= i < r -> rd arcs i = Some a -> u32 (lab a) < l) /\ (forall i a, r <= i < hi -> rd arcs i = Some a -> l <= u32 (lab a)).
Proof.
  induction fuel as [|n IH]; intros x y H1 H2 H3 H4 H5; cbn [lower_bound].
  - destruct (x <? y) eqn:E; [lia|]. exists x. assert (x = y) by lia. subst y. repeat split; auto; lia.
  - destruct (x <? y) eqn:E; [|exists x; assert (x = y) by lia; subst y; repeat split; auto; lia].
    assert (x <= (x + y) / 2 < y) by (split; [apply Z.div_le_lower_bound|apply Z.div_lt_upper_bound]; lia). set (mid := (x + y) / 2) in *.
    destruct (B mid ltac:(lia)) as (a & Ha). rewrite Ha. destruct (u32 (lab a) <? l) eqn:El.
    + apply IH; try lia; auto. intros i b Hi Hb. pose proof (SRT i mid b a ltac:(lia) ltac:(lia) Hb Ha). lia.
    + apply IH; try lia; auto. intros i b Hi Hb. pose proof (SRT mid i a b ltac:(lia) ltac:(lia) Ha Hb). lia.
Qed.
Lemma run_end_ok l : forall fuel x, lo <= x <= hi -> hi - x <= Z.of_nat fuel ->
  exists r, run_end fuel arcs l x hi = Some r /\ x <= r <= hi /\ (forall i a, x <= i < r -> rd arcs i = Some a -> u32 (lab a) = l) /\ (r < hi -> exists a, rd arcs r = Some a /\ u32 (lab a) <> l).
Proof.
  induction fuel as [|n IH]; intros x H1 H2; cbn [run_end].
  - destruct (x <? hi) eqn:E; [lia|]. exists x. repeat split; auto; lia.
  - destruct (x <? hi) eqn:E; [|exists x; repeat split; auto; lia]. destruct (B x ltac:(lia)) as (a & Ha). rewrite Ha. destruct (u32 (lab a) =? l) eqn:El.
    + destruct (IH (x + 1) ltac:(lia) ltac:(lia)) as (r & E1 & E2 & E3 & E4). exists r. split; auto. split; [lia|]. split; auto. intros i b Hi Hb. destruct (Z.eq_dec i x) as [->|]; [assert (b = a) by congruence; subst b; lia|]. apply (E3 i); auto; lia.
    + exists x. repeat split; auto; try lia. intros _. exists a. split; auto. lia.
Qed.
Lemma matching_ok l : exists r c, matching arcs l lo hi = Some (r, c) /\ lo <= r /\ 0 <= c /\ r + c <= hi /\
  forall i a, lo <= i < hi -> rd arcs i = Some a -> (u32 (lab a) = l <-> r <= i < r + c).
Proof.
  unfold matching. destruct (lower_bound_ok l (Z.to_nat (hi - lo)) lo hi) as (r & -> & R1 & R2 & R3); try lia.
  replace (if r <? hi then x <- rd arcs r;; Some (l <=? u32 (lab x)) else Some true) with (Some true).
  2:{ destruct (r <? hi) eqn:E; auto. destruct (B r ltac:(lia)) as (a & Ha). rewrite Ha. f_equal. pose proof (R3 r a ltac:(lia) Ha). lia. }
  replace (if lo <? r - 1 then x <- rd arcs (r - 1);; Some (u32 (lab x) <? l) else Some true) with (Some true).
  2:{ destruct (lo <? r - 1) eqn:E; auto. destruct (B (r - 1) ltac:(lia)) as (a & Ha). rewrite Ha. f_equal. pose proof (R2 (r - 1) a ltac:(lia) Ha). lia. }
  destruct (run_end_ok l (Z.to_nat (hi - lo)) r) as (e & -> & E1 & E2 & E3); try lia. exists r, (e - r). split; auto. split; [lia|]. split; [lia|]. split; [lia|]. intros i a Hi Ha. split; [|intros Hr; apply (E2 i); auto; lia]. intros El. split.
  - destruct (Z_lt_le_dec i r) as [L|L]; auto. pose proof (R2 i a ltac:(lia) Ha). lia.
  - destruct (Z_lt_le_dec i e) as [L|L]; [lia|]. destruct (E3 ltac:(lia)) as (b & Hb & Nb). pose proof (SRT e i b a ltac:(lia) ltac:(lia) Hb Ha). pose proof (R3 e b ltac:(lia) Hb). lia.
Qed.
End M.

Section G.
Variables (al bl : list nfsa) (m : list Z).
Hypothesis HA : forall a, In a al -> a = [] \/ valid a.
Hypothesis HB : forall b, In b bl -> b = [] \/ valid b.
Hypothesis Hm1 : zlen m = zlen bl.
Hypothesis Hm2 : forall i, In i m -> 0 <= i < zlen al.
Let va := flat_vec al.
Let vb := flat_vec bl.

(** The FSAs of pair [k] *)
Definition mk (k : Z) : Z := match rd m k with Some i => i | None => 0 end.
Definition fa (k : Z) : nfsa := match rd al (mk k) with Some a => a | None => [] end.
Definition fb (k : Z) : nfsa := match rd bl k with Some b => b | None => [] end.
Lemma pair_k k : 0 <= k < zlen bl -> rd m k = Some (mk k) /\ rd al (mk k) = Some (fa k) /\ rd bl k = Some (fb k).
Proof.
  clear HA HB. intros H. unfold fa, fb, mk. destruct (rd_in_bound m k ltac:(lia)) as (i & Hi). rewrite Hi. split; auto. pose proof (Hm2 i (rd_In _ _ _ Hi)). destruct (rd_in_bound al i ltac:(lia)) as (a & ->). destruct (rd_in_bound bl k H) as (b & ->). auto.
Qed.

(** A state: pair [tk], state [ta] of one FSA and [tb] of the other *)
Record tr := T3 { tk : Z; ta : Z; tb : Z }.
Definition any (T : tr) : Prop := 0 <= tk T < zlen bl /\ 0 <= ta T < zlen (fa (tk T)) /\ 0 <= tb T < zlen (fb (tk T)).
Definition okT (T : tr) : Prop := 0 <= tk T < zlen bl /\ 0 <= ta T < zlen (fa (tk T)) - 1 /\ 0 <= tb T < zlen (fb (tk T)) - 1.
Lemma ok_any T : okT T -> any T.
Proof. clear. unfold okT, any. lia. Qed.
Definition ea (T : tr) : Z := off1 al (mk (tk T)) + ta T.
Definition eb (T : tr) : Z := off1 bl (tk T) + tb T.
Definition enT (T : tr) : Z * Z := (ea T, eb T).
Definition la (T : tr) : list arc := match rd (fa (tk T)) (ta T) with Some l => l | None => [] end.
Definition lb (T : tr) : list arc := match rd (fb (tk T)) (tb T) with Some l => l | None => [] end.
Definition a0 (T : tr) : Z := off1 (concat al) (ea T).
Definition b0 (T : tr) : Z := off1 (concat bl) (eb T).

Lemma geoA T : any T ->
  rd (v_rs2 va) (ea T) = Some (a0 T) /\ rd (v_rs2 va) (ea T + 1) = Some (a0 T + zlen (la T)) /\ rd (v_rs1 va) (mk (tk T)) = Some (ea T - ta T) /\
  a0 T = off1 (map all_arcs al) (mk (tk T)) + off1 (fa (tk T)) (ta T) /\ rd (fa (tk T)) (ta T) = Some (la T) /\ 0 <= a0 T /\
  forall j x, rd (la T) j = Some x -> rd (v_arcs va) (a0 T + j) = Some x /\ rd (all_arcs (fa (tk T))) (off1 (fa (tk T)) (ta T) + j) = Some x.
Proof.
  intros (H1 & H2 & H3). destruct (pair_k _ H1) as (E1 & E2 & E3). destruct (rd_in_bound (fa (tk T)) (ta T) H2) as (st & Hst).
  assert (L : la T = st) by (unfold la; now rewrite Hst). destruct (geo al _ _ _ _ E2 Hst) as (G1 & G2 & G3 & G4 & G5 & G6 & G7). fold (ea T) in *. fold (a0 T) in *. rewrite L. cbn [va flat_vec v_rs1 v_rs2 v_arcs].
  split; auto. split; auto. split; [rewrite rd_splits_off by (apply rd_Some_bound in E2; lia); f_equal; unfold ea; lia|]. split; auto. split; auto. split; [apply off1_nonneg|]. intros j x Hx. destruct (G7 j x Hx) as (? & ? & ?). auto.
Qed.
Lemma geoB T : any T ->
  rd (v_rs2 vb) (eb T) = Some (b0 T) /\ rd (v_rs2 vb) (eb T + 1) = Some (b0 T + zlen (lb T)) /\ rd (ids_of bl) (eb T) = Some (tk T) /\ 0 <= eb T < zlen (concat bl) /\
  b0 T = off1 (map all_arcs bl) (tk T) + off1 (fb (tk T)) (tb T) /\ rd (fb (tk T)) (tb T) = Some (lb T) /\ 0 <= b0 T /\
  forall j x, rd (lb T) j = Some x -> rd (v_arcs vb) (b0 T + j) = Some x /\ rd (ids_of (concat bl)) (b0 T + j) = Some (eb T) /\ rd (all_arcs (fb (tk T))) (off1 (fb (tk T)) (tb T) + j) = Some x.
Proof.
  intros (H1 & H2 & H3). destruct (pair_k _ H1) as (E1 & E2 & E3). destruct (rd_in_bound (fb (tk T)) (tb T) H3) as (st & Hst).
  assert (L : lb T = st) by (unfold lb; now rewrite Hst). destruct (geo bl _ _ _ _ E3 Hst) as (G1 & G2 & G3 & G4 & G5 & G6 & G7). fold (eb T) in *. fold (b0 T) in *. rewrite L. cbn [vb flat_vec v_rs1 v_rs2 v_arcs].
  split; auto. split; auto. split; auto. split; auto. split; auto. split; auto. split; [apply off1_nonneg|auto].
Qed.
Lemma validA k : 0 <= k < zlen bl -> 0 < zlen (fa k) -> valid (fa k).
Proof. clear HB. intros H1 H2. destruct (pair_k _ H1) as (_ & E & _). destruct (HA _ (rd_In _ _ _ E)) as [E'|]; auto. rewrite E' in H2. change (zlen []) with 0 in H2. lia. Qed.
Lemma validB k : 0 <= k < zlen bl -> 0 < zlen (fb k) -> valid (fb k).
Proof. clear HA. intros H1 H2. destruct (pair_k _ H1) as (_ & _ & E). destruct (HB _ (rd_In _ _ _ E)) as [E'|]; auto. rewrite E' in H2. change (zlen []) with 0 in H2. lia. Qed.
Lemma srcA T j x : any T -> rd (la T) j = Some x -> src x = ta T.
Proof. intros H Hx. destruct (geoA T H) as (_ & _ & _ & _ & E & _). destruct H as (H1 & H2 & H3). destruct (validA _ H1 ltac:(lia)) as (S & _). apply (S _ _ _ E (rd_In _ _ _ Hx)). Qed.
Lemma srcB T j x : any T -> rd (lb T) j = Some x -> src x = tb T.
Proof. intros H Hx. destruct (geoB T H) as (_ & _ & _ & _ & _ & E & _). destruct H as (H1 & H2 & H3). destruct (validB _ H1 ltac:(lia)) as (S & _). apply (S _ _ _ E (rd_In _ _ _ Hx)). Qed.

(** Matching arcs, as numbers in the batches *)
Definition Mt (T : tr) (ai bi : Z) (x y : arc) : Prop :=
  exists ja jb, rd (la T) ja = Some x /\ rd (lb T) jb = Some y /\ ai = a0 T + ja /\ bi = b0 T + jb /\ lab x = lab y.
Definition dT (T : tr) (x y : arc) : tr := T3 (tk T) (dst x) (dst y).
Lemma dT_ok T ai bi x y : any T -> Mt T ai bi x y -> lab x <> -1 -> okT (dT T x y).
Proof.
  intros H (ja & jb & H1 & H2 & _ & _ & E) L. destruct (geoA T H) as (_ & _ & _ & _ & _ & _ & GA). destruct (geoB T H) as (_ & _ & _ & _ & _ & _ & _ & GB).
  destruct (GA _ _ H1) as (_ & A). destruct (GB _ _ H2) as (_ & _ & B). apply rd_In in A, B. pose proof H as (K1 & K2 & K3).
  destruct (validA _ K1 ltac:(lia)) as (_ & _ & VA). destruct (validB _ K1 ltac:(lia)) as (_ & _ & VB). specialize (VA _ A). specialize (VB _ B). unfold okT, dT, final, nstates in *. cbn [tk ta tb]. lia.
Qed.
Lemma fin_dest T ai bi x y : any T -> Mt T ai bi x y -> lab x = -1 -> dst x = zlen (fa (tk T)) - 1 /\ dst y = zlen (fb (tk T)) - 1.
Proof.
  intros H (ja & jb & H1 & H2 & _ & _ & E) L. destruct (geoA T H) as (_ & _ & _ & _ & _ & _ & GA). destruct (geoB T H) as (_ & _ & _ & _ & _ & _ & _ & GB).
  destruct (GA _ _ H1) as (_ & A). destruct (GB _ _ H2) as (_ & _ & B). apply rd_In in A, B. pose proof H as (K1 & K2 & K3).
  destruct (validA _ K1 ltac:(lia)) as (_ & _ & VA). destruct (validB _ K1 ltac:(lia)) as (_ & _ & VB). specialize (VA _ A). specialize (VB _ B). unfold final, nstates in *. lia.
Qed.

Definition keyT (T : tr) : Z := ta T * multiple vb + eb T.
Lemma multiple_gt e : 0 <= e < zlen (concat bl) -> e < multiple vb.
Proof.
  clear. intros H. unfold multiple. cbn [vb flat_vec v_rs2]. rewrite zlen_splits_of. replace (zlen (concat bl) + 1 - 1) with (zlen (concat bl)) by lia.
  set (n := zlen (concat bl)) in *. assert (n <= Z.lor n 1); [|lia].
  assert (G : Z.ldiff n (Z.lor n 1) = 0). { apply Z.bits_inj'. intros i Hi. rewrite Z.ldiff_spec, Z.lor_spec, Z.bits_0. destruct (Z.testbit n i); reflexivity. }
  apply Z.ldiff_le in G; [lia|]. apply Z.lor_nonneg. lia.
Qed.
Lemma keyT_inj T T' : any T -> any T' -> keyT T = keyT T' -> T = T'.
Proof.
  intros H H' E. destruct (geoB T H) as (_ & _ & I & B & _). destruct (geoB T' H') as (_ & _ & I' & B' & _). pose proof (multiple_gt _ B). pose proof (multiple_gt _ B'). unfold keyT in E.
  assert (ta T = ta T' /\ eb T = eb T') as (E1 & E2).
  { set (M := multiple vb) in *. assert (ta T = ta T') by nia. split; auto. rewrite H2 in E. lia. }
  rewrite E2 in I. assert (E3 : tk T = tk T') by congruence. unfold eb in E2. destruct T, T'; cbn [tk ta tb] in *. subst. f_equal. lia.
Qed.

(** ** Candidates *)
Definition good_c (T : tr) (id : Z) (c : cand) : Prop :=
  c_st c = id /\ exists ja jb x y, rd (la T) ja = Some x /\ rd (lb T) jb = Some y /\ c_a c = a0 T + ja /\ c_b c = b0 T + jb /\ c_keep c = (lab x =? lab y).
(** the order of the candidates of a state *)
Definition row_ord (l : list cand) : Prop := forall q q' c c', q < q' -> rd l q = Some c -> rd l q' = Some c' -> c_a c < c_a c' \/ c_b c < c_b c'.
Definition row_ok (T : tr) (id : Z) (l : list cand) : Prop :=
  (NoDup l /\ row_ord l) /\ (forall c, In c l -> good_c T id c) /\ forall ai bi x y, Mt T ai bi x y -> In (mkCand id ai bi true) l.
Definition cs_ok (sb : Z) (cur : list tr) (cs : list cand) : Prop :=
  exists PP, cs = concat PP /\ zlen PP = zlen cur /\ forall i T l, rd cur i = Some T -> rd PP i = Some l -> row_ok T (sb + i) l.

Definition labA (T : tr) (j : Z) : Z := match rd (la T) j with Some x => lab x | None => 0 end.
Definition labB (T : tr) (j : Z) : Z := match rd (lb T) j with Some x => lab x | None => 0 end.
Definition allrow (id : Z) (T : tr) : list cand :=
  map (fun p => mkCand id (a0 T + p / zlen (lb T)) (b0 T + p mod zlen (lb T)) (labA T (p / zlen (lb T)) =? labB T (p mod zlen (lb T)))) (zrange (zlen (lb T) * zlen (la T))).
Lemma allrow_ok id T : row_ok T id (allrow id T).
Proof.
  clear. set (n := zlen (lb T)). set (k := zlen (la T)). assert (N0 : 0 <= n) by apply zlen_nonneg. assert (K0 : 0 <= k) by apply zlen_nonneg. unfold row_ok, allrow. fold n k.
  assert (DM : forall p, 0 <= p < n * k -> 0 < n /\ 0 <= p / n < k /\ 0 <= p mod n < n /\ p = n * (p / n) + p mod n).
  { intros p Hp. assert (0 < n) by nia. pose proof (Z.mod_pos_bound p n H). pose proof (Z.div_mod p n ltac:(lia)). split; auto. split; [|lia]. split; [apply Z.div_pos; lia|apply Z.div_lt_upper_bound; lia]. }
  split; [split|split].
  2:{ intros q q' c c' Hq H1 H2. pose proof (rd_Some_bound _ _ _ H1) as B1. pose proof (rd_Some_bound _ _ _ H2) as B2. rewrite zlen_map, zlen_zrange in B1, B2 by nia. rewrite rd_map, rd_zrange in H1 by lia. rewrite rd_map, rd_zrange in H2 by lia. cbn in H1, H2. injection H1 as <-. injection H2 as <-. cbn [c_a c_b].
      destruct (DM q B1) as (_ & _ & _ & D1). destruct (DM q' B2) as (_ & _ & _ & D2). destruct (Z_lt_le_dec (q / n) (q' / n)); [left; lia|right]. assert (q / n >= q' / n) by lia. nia. }
  - apply NoDup_nth_error. intros i j Hi E. rewrite map_length in Hi. unfold zrange in *. rewrite map_length, seq_length in Hi.
    assert (Hj : (j < Z.to_nat (n * k))%nat). { destruct (Nat.lt_ge_cases j (Z.to_nat (n * k))) as [|L]; auto. exfalso. rewrite (proj2 (nth_error_None _ j)) in E by (rewrite !map_length, seq_length; lia). apply nth_error_None in E. rewrite !map_length, seq_length in E. lia. }
    rewrite !nth_error_map in E. rewrite (nth_error_nth' (seq 0 (Z.to_nat (n * k))) 0%nat) in E by (rewrite seq_length; lia). rewrite (nth_error_nth' (seq 0 (Z.to_nat (n * k))) 0%nat) in E by (rewrite seq_length; lia). rewrite !seq_nth in E by lia. cbn [option_map Nat.add] in E.
    injection E as E1 E2 _. destruct (DM (Z.of_nat i)) as (_ & _ & _ & Q1); [lia|]. destruct (DM (Z.of_nat j)) as (_ & _ & _ & Q2); [lia|]. assert (Q : Z.of_nat i / n = Z.of_nat j / n) by lia. assert (Q' : Z.of_nat i mod n = Z.of_nat j mod n) by lia. rewrite Q, Q' in Q1. lia.
  - intros c Hc. apply in_map_iff in Hc as (p & <- & Hp). apply in_zrange in Hp. destruct (DM p Hp) as (P0 & P1 & P2 & P3). split; auto. cbn [c_a c_b c_keep].
    destruct (rd_in_bound (la T) (p / n) P1) as (x & Hx). destruct (rd_in_bound (lb T) (p mod n) P2) as (y & Hy). exists (p / n), (p mod n), x, y. unfold labA, labB. rewrite Hx, Hy. auto.
  - intros ai bi x y (ja & jb & H1 & H2 & -> & -> & E). apply in_map_iff. pose proof (rd_Some_bound _ _ _ H1) as B1. pose proof (rd_Some_bound _ _ _ H2) as B2. fold n in B2. fold k in B1. exists (n * ja + jb).
    assert (D : (n * ja + jb) / n = ja) by (symmetry; apply Z.div_unique with (r := jb); lia). assert (D' : (n * ja + jb) mod n = jb) by (symmetry; apply Z.mod_unique with (q := ja); lia).
    rewrite D, D'. split; [|apply in_zrange; nia]. unfold labA, labB. rewrite H1, H2. f_equal. lia.
Qed.

Lemma cands_all_ok pre cur : (forall T, In T cur -> any T) -> exists cs,
  cands_all va vb (map enT (pre ++ cur)) (zlen pre) (zlen pre + zlen cur) = Some cs /\ cs_ok (zlen pre) cur cs.
Proof.
  intros HC. set (PP := imap (fun i T => allrow (zlen pre + i) T) 0 cur). exists (concat PP).
  assert (ST : forall i T, rd cur i = Some T -> rd (map enT (pre ++ cur)) (zlen pre + i) = Some (enT T)).
  { intros i T Hi. pose proof (rd_Some_bound _ _ _ Hi). rewrite rd_map, rd_app_r by lia. replace (zlen pre + i - zlen pre) with i by lia. now rewrite Hi. }
  split.
  - unfold cands_all. replace (zlen pre + zlen cur - zlen pre) with (zlen (map (fun T => (zlen (lb T), zlen (lb T) * zlen (la T))) cur)) by (rewrite zlen_map; lia).
    rewrite mapM_zrange with (l := map (fun T => (zlen (lb T), zlen (lb T) * zlen (la T))) cur).
    2:{ intros i x Hx. rewrite rd_map in Hx. destruct (rd cur i) as [T|] eqn:ET; [|discriminate]. injection Hx as <-. rewrite (ST i T ET). cbn [enT fst snd].
        destruct (geoA T (HC T (rd_In _ _ _ ET))) as (A1 & A2 & _). destruct (geoB T (HC T (rd_In _ _ _ ET))) as (B1 & B2 & _). unfold va, vb in *. rewrite A1, A2, B1, B2. f_equal. f_equal; nia. }
    assert (ES : exsum (map snd (map (fun T => (zlen (lb T), zlen (lb T) * zlen (la T))) cur)) = splits_of PP).
    { unfold splits_of. f_equal. rewrite map_map. unfold PP. rewrite map_imap. cbn [snd]. symmetry. rewrite <- (imap_const (fun T => zlen (lb T) * zlen (la T)) cur 0). apply imap_ext. intros i T _. unfold allrow. rewrite zlen_map, zlen_zrange; auto. pose proof (zlen_nonneg (lb T)). pose proof (zlen_nonneg (la T)). nia. }
    rewrite ES. rewrite zlen_map. assert (ZP : zlen PP = zlen cur) by (unfold PP; apply zlen_imap). rewrite rd_splits_off by (pose proof (zlen_nonneg cur); lia). rewrite <- ZP, EpsLoopProofs.off1_all.
    rewrite row_ids_of_splits. apply mapM_zrange. intros i x Hx. apply rd_concat_inv in Hx as (r & l & j & H1 & H2 & -> & H4). rewrite H4. pose proof (rd_Some_bound _ _ _ H1). rewrite rd_splits_off by lia. cbv zeta. replace (off1 PP r + j - off1 PP r) with j by lia.
    unfold PP in H1. rewrite rd_imap in H1. destruct (rd cur r) as [T|] eqn:ET; [|discriminate]. cbn [option_map] in H1. injection H1 as <-. rewrite rd_map, ET. cbn [option_map fst].
    replace (r + zlen pre) with (zlen pre + r) by lia. rewrite (ST r T ET). cbn [enT fst snd]. pose proof (rd_Some_bound _ _ _ H2) as BJ. unfold allrow in H2, BJ. rewrite zlen_map in BJ. pose proof (zlen_nonneg (lb T)) as N1. pose proof (zlen_nonneg (la T)) as N2. rewrite zlen_zrange in BJ by nia.
    rewrite rd_map, rd_zrange in H2 by auto. cbn [option_map] in H2. injection H2 as <-.
    destruct (geoA T (HC T (rd_In _ _ _ ET))) as (A1 & A2 & _ & _ & _ & _ & A3). destruct (geoB T (HC T (rd_In _ _ _ ET))) as (B1 & B2 & _ & _ & _ & _ & _ & B3). unfold va, vb in *. rewrite A1, B1.
    assert (P0 : 0 < zlen (lb T)) by nia. pose proof (Z.mod_pos_bound j _ P0) as P1. assert (P2 : 0 <= j / zlen (lb T) < zlen (la T)) by (split; [apply Z.div_pos; lia|apply Z.div_lt_upper_bound; lia]).
    destruct (rd_in_bound (la T) _ P2) as (x & Hx). destruct (rd_in_bound (lb T) _ P1) as (y & Hy). rewrite (proj1 (A3 _ _ Hx)), (proj1 (B3 _ _ Hy)). unfold labA, labB. rewrite Hx, Hy. do 2 f_equal; lia.
  - exists PP. split; auto. split; [apply zlen_imap|]. intros i T l Hi Hl. unfold PP in Hl. rewrite rd_imap, Hi in Hl. cbn [option_map] in Hl. injection Hl as <-. replace (zlen pre + (0 + i)) with (zlen pre + i) by lia. apply allrow_ok.
Qed.

(** ** Candidates, arcs of [a] sorted *)
Section S.
Hypothesis SA : forall a, In a al -> p_arcsorted a /\ int32_labels a.
Hypothesis SB : forall b, In b bl -> int32_labels b.
Definition mf (T : tr) (jb : Z) : Z * Z :=
  match matching (v_arcs va) (u32 (labB T jb)) (a0 T) (a0 T + zlen (la T)) with Some p => p | None => (0, 0) end.
Lemma StronglySorted_rd {X} (R : X -> X -> Prop) l : StronglySorted R l -> forall i j x y, i < j -> rd l i = Some x -> rd l j = Some y -> R x y.
Proof.
  clear. induction 1 as [|z l S IH F]; intros i j x y L Hx Hy; [rewrite rd_nil in Hx; discriminate|]. pose proof (rd_Some_bound _ _ _ Hx). pose proof (rd_Some_bound _ _ _ Hy).
  assert (EJ : j = (j - 1) + 1) by lia. rewrite EJ, rd_cons_S in Hy by lia. destruct (Z.eq_dec i 0) as [->|].
  - rewrite rd_cons_0 in Hx. injection Hx as <-. rewrite Forall_forall in F. apply F. eapply rd_In; eauto.
  - assert (EI : i = (i - 1) + 1) by lia. rewrite EI, rd_cons_S in Hx by lia. apply (IH (i - 1) (j - 1)); auto. lia.
Qed.
Lemma mf_ok T jb y : any T -> rd (lb T) jb = Some y ->
  matching (v_arcs va) (u32 (lab y)) (a0 T) (a0 T + zlen (la T)) = Some (mf T jb) /\ a0 T <= fst (mf T jb) /\ 0 <= snd (mf T jb) /\ fst (mf T jb) + snd (mf T jb) <= a0 T + zlen (la T) /\
  forall ja x, rd (la T) ja = Some x -> (lab x = lab y <-> fst (mf T jb) <= a0 T + ja < fst (mf T jb) + snd (mf T jb)).
Proof.
  intros H Hy. destruct (geoA T H) as (_ & _ & _ & _ & G1 & G2 & G3). destruct (geoB T H) as (_ & _ & _ & _ & _ & _ & _ & G4). pose proof (zlen_nonneg (la T)) as Z0.
  destruct (pair_k _ (proj1 H)) as (_ & Ea & Eb). destruct (SA _ (rd_In _ _ _ Ea)) as (S1 & S2). pose proof (SB _ (rd_In _ _ _ Eb)) as S3.
  assert (US : usorted (la T)) by (eapply arcsorted_usorted; eauto using rd_In). 
  assert (RB : forall i a, a0 T <= i < a0 T + zlen (la T) -> rd (v_arcs va) i = Some a -> rd (la T) (i - a0 T) = Some a).
  { intros i a Hi Ha. destruct (rd_in_bound (la T) (i - a0 T) ltac:(lia)) as (x & Hx). destruct (G3 _ _ Hx) as (E & _). replace (a0 T + (i - a0 T)) with i in E by lia. congruence. }
  destruct (matching_ok (v_arcs va) (a0 T) (a0 T + zlen (la T)) ltac:(lia)) with (l := u32 (lab y)) as (r & c & E & R1 & R2 & R3 & R4).
  - intros i Hi. destruct (rd_in_bound (la T) (i - a0 T) ltac:(lia)) as (x & Hx). destruct (G3 _ _ Hx) as (Ex & _). exists x. rewrite <- Ex. f_equal. lia.
  - intros i j a b Hij Hj Ha Hb. apply RB in Ha, Hb; try lia. destruct (Z.eq_dec i j) as [->|]; [assert (a = b) by congruence; subst; lia|]. apply (StronglySorted_rd _ _ US (i - a0 T) (j - a0 T)); auto. lia.
  - unfold mf. unfold labB. rewrite Hy, E. cbn [fst snd]. split; auto. split; auto. split; auto. split; auto. intros ja x Hx. pose proof (rd_Some_bound _ _ _ Hx). rewrite <- (R4 (a0 T + ja) x); [|lia|exact (proj1 (G3 _ _ Hx))].
    symmetry. apply u32_inj; [apply S2; eapply rd_In; apply (proj2 (G3 _ _ Hx))|apply S3; eapply rd_In; apply (proj2 (proj2 (G4 _ _ Hy)))].
Qed.
Definition srow (id : Z) (T : tr) : list (list cand) :=
  map (fun jb => map (fun q => mkCand id (fst (mf T jb) + q) (b0 T + jb) true) (zrange (snd (mf T jb)))) (zrange (zlen (lb T))).
Lemma srow_ok id T : any T -> row_ok T id (concat (srow id T)).
Proof.
  intros H. unfold srow. rewrite <- flat_map_concat_map. split; [split|split].
  2:{ intros q q' c c' Hq H1 H2. rewrite flat_map_concat_map in H1, H2. apply rd_concat_inv in H1 as (r & l & j & A1 & A2 & A3 & _). apply rd_concat_inv in H2 as (r' & l' & j' & B1 & B2 & B3 & _).
      pose proof (rd_Some_bound _ _ _ A2) as J1. pose proof (rd_Some_bound _ _ _ B2) as J2. set (P := map _ _) in *.
      assert (RR : r <= r'). { destruct (Z_le_gt_dec r r') as [|L]; [lia|]. exfalso. pose proof (off1_next P r' l' B1). pose proof (off1_mono P (r' + 1) r ltac:(lia)). lia. }
      assert (CR : forall r l j c, rd P r = Some l -> rd l j = Some c -> c_b c = b0 T + r /\ c_a c = fst (mf T r) + j).
      { clear. intros r l j c H1 H2. unfold P in H1. pose proof (rd_Some_bound _ _ _ H1) as B. rewrite zlen_map, zlen_zrange in B by apply zlen_nonneg. rewrite rd_map, rd_zrange in H1 by lia. cbn in H1. injection H1 as <-. pose proof (rd_Some_bound _ _ _ H2) as B'. rewrite zlen_map in B'. assert (0 <= snd (mf T r)). { destruct (Z_lt_le_dec (snd (mf T r)) 0) as [X|]; [|lia]. exfalso. unfold zrange in B'. replace (Z.to_nat (snd (mf T r))) with 0%nat in B' by lia. cbn [seq map] in B'. rewrite zlen_nil in B'. lia. }
        rewrite zlen_zrange in B' by lia. rewrite rd_map, rd_zrange in H2 by lia. cbn in H2. injection H2 as <-. auto. }
      destruct (CR _ _ _ _ A1 A2) as (X1 & X2). destruct (CR _ _ _ _ B1 B2) as (Y1 & Y2). destruct (Z.eq_dec r r') as [->|]; [left|right; lia]. assert (j < j') by lia. lia. }
  - apply PathSums.NoDup_flat_map; [apply NoDup_zrange| |].
    + intros jb _. apply FinFun.Injective_map_NoDup; [|apply NoDup_zrange]. intros q q' E. injection E. lia.
    + intros jb jb' c _ _ H1 H2. apply in_map_iff in H1 as (q & <- & _). apply in_map_iff in H2 as (q' & E & _). injection E. lia.
  - intros c Hc. apply in_flat_map in Hc as (jb & Hj & Hc). apply in_map_iff in Hc as (q & <- & Hq). apply in_zrange in Hj, Hq. destruct (rd_in_bound (lb T) jb Hj) as (y & Hy). destruct (mf_ok T jb y H Hy) as (_ & M1 & M2 & M3 & M4).
    split; auto. cbn [c_a c_b c_keep]. destruct (rd_in_bound (la T) (fst (mf T jb) + q - a0 T) ltac:(lia)) as (x & Hx). exists (fst (mf T jb) + q - a0 T), jb, x, y. repeat split; auto; try lia. symmetry. apply Z.eqb_eq. apply (M4 _ _ Hx). lia.
  - intros ai bi x y (ja & jb & H1 & H2 & -> & -> & E). destruct (mf_ok T jb y H H2) as (_ & M1 & M2 & M3 & M4). apply in_flat_map. exists jb. split; [apply in_zrange; now apply rd_Some_bound in H2|].
    apply in_map_iff. exists (a0 T + ja - fst (mf T jb)). apply (M4 _ _ H1) in E. split; [f_equal; lia|apply in_zrange; lia].
Qed.
Lemma same_sizes {X Y} (ll : list (list X)) (mm : list (list Y)) : map zlen ll = map zlen mm -> splits_of ll = splits_of mm /\ ids_of ll = ids_of mm.
Proof. clear. intros E. split; [unfold splits_of; now rewrite E|]. unfold ids_of. rewrite <- !ids_sizes_ids_from. now rewrite E. Qed.

Lemma cands_sorted_ok pre cur : (forall T, In T cur -> any T) -> exists cs,
  cands_sorted va vb (map enT (pre ++ cur)) (zlen pre) (zlen pre + zlen cur) = Some cs /\ cs_ok (zlen pre) cur cs.
Proof.
  intros HC. set (XX := imap (fun i T => srow (zlen pre + i) T) 0 cur). set (MM := map (fun T => map (mf T) (zrange (zlen (lb T)))) cur). exists (concat (concat XX)).
  assert (ST : forall i T, rd cur i = Some T -> rd (map enT (pre ++ cur)) (zlen pre + i) = Some (enT T)).
  { intros i T Hi. pose proof (rd_Some_bound _ _ _ Hi). rewrite rd_map, rd_app_r by lia. replace (zlen pre + i - zlen pre) with i by lia. now rewrite Hi. }
  assert (ZZ : map zlen XX = map zlen MM).
  { unfold XX, MM. rewrite map_imap, map_map, <- (imap_const (fun T => zlen (map (mf T) (zrange (zlen (lb T))))) cur 0). apply imap_ext. intros i T _. unfold srow. now rewrite !zlen_map. }
  destruct (same_sizes XX MM ZZ) as (E1 & E2).
  assert (ZX : zlen XX = zlen cur) by (unfold XX; apply zlen_imap).
  assert (RX : forall r l, rd XX r = Some l -> exists T, rd cur r = Some T /\ any T /\ l = srow (zlen pre + r) T).
  { intros r l H. unfold XX in H. rewrite rd_imap in H. destruct (rd cur r) as [T|] eqn:ET; [|discriminate]. cbn in H. injection H as <-. exists T. repeat split; auto; apply HC; eapply rd_In; eauto. }
  split.
  - unfold cands_sorted. replace (zlen pre + zlen cur - zlen pre) with (zlen (map (fun T => zlen (lb T)) cur)) by (rewrite zlen_map; lia).
    rewrite mapM_zrange with (l := map (fun T => zlen (lb T)) cur).
    2:{ intros i x Hx. rewrite rd_map in Hx. destruct (rd cur i) as [T|] eqn:ET; [|discriminate]. injection Hx as <-. rewrite (ST i T ET). cbn [enT fst snd].
        destruct (geoB T (HC T (rd_In _ _ _ ET))) as (B1 & B2 & _). unfold va, vb in *. rewrite B1, B2. f_equal. lia. }
    assert (ES : exsum (map (fun T => zlen (lb T)) cur) = splits_of XX).
    { unfold splits_of. f_equal. unfold XX. rewrite map_imap, <- (imap_const (fun T => zlen (lb T)) cur 0). apply imap_ext. intros i T _. unfold srow. rewrite zlen_map, zlen_zrange by apply zlen_nonneg. reflexivity. }
    rewrite ES, zlen_map. rewrite rd_splits_off by (pose proof (zlen_nonneg cur); lia). rewrite <- ZX, EpsLoopProofs.off1_all. rewrite row_ids_of_splits. cbv zeta.
    assert (ZC : zlen (concat XX) = zlen (concat MM)) by (rewrite <- !zsum_zlen_concat; now rewrite ZZ).
    rewrite ZC at 1. rewrite mapM_zrange with (l := concat MM).
    2:{ intros i x Hx. apply rd_concat_inv in Hx as (r & l & j & H1 & H2 & -> & H4). rewrite E2, H4. rewrite E1. pose proof (rd_Some_bound _ _ _ H1). rewrite rd_splits_off by lia. replace (off1 MM r + j - off1 MM r) with j by lia.
        unfold MM in H1. rewrite rd_map in H1. destruct (rd cur r) as [T|] eqn:ET; [|discriminate]. cbn [option_map] in H1. injection H1 as <-. rewrite (ST r T ET). cbn [enT fst snd].
        pose proof (rd_Some_bound _ _ _ H2) as BJ. rewrite zlen_map, zlen_zrange in BJ by apply zlen_nonneg. rewrite rd_map, rd_zrange in H2 by auto. cbn [option_map] in H2. injection H2 as <-.
        destruct (geoA T (HC T (rd_In _ _ _ ET))) as (A1 & A2 & _). destruct (geoB T (HC T (rd_In _ _ _ ET))) as (B1 & B2 & _ & _ & _ & _ & _ & B3). destruct (rd_in_bound (lb T) j BJ) as (y & Hy).
        unfold va, vb in *. rewrite A1, A2, B1, (proj1 (B3 _ _ Hy)). apply (proj1 (mf_ok T j y (HC T (rd_In _ _ _ ET)) Hy)). }
    assert (EM : exsum (map snd (concat MM)) = splits_of (concat XX)).
    { unfold splits_of. f_equal. rewrite !concat_map. f_equal. unfold XX, MM. rewrite map_map, map_imap, <- (imap_const (fun T => map snd (map (mf T) (zrange (zlen (lb T))))) cur 0). apply imap_ext. intros i T HT.
      unfold srow. rewrite !map_map. apply map_ext_in. intros jb Hj. apply in_zrange in Hj. rewrite zlen_map. destruct (rd_in_bound (lb T) jb Hj) as (y & Hy). destruct (mf_ok T jb y (HC T (rd_In _ _ _ HT)) Hy) as (_ & _ & ? & _). now rewrite zlen_zrange. }
    rewrite EM. rewrite rd_splits_off by (pose proof (zlen_nonneg (concat XX)); lia). rewrite EpsLoopProofs.off1_all, row_ids_of_splits. apply mapM_zrange.
    intros i x Hx. apply rd_concat_inv in Hx as (u & grp & q & H1 & H2 & -> & H4). rewrite H4. pose proof (rd_Some_bound _ _ _ H1). rewrite rd_splits_off by lia.
    pose proof H1 as H1'. apply rd_concat_inv in H1' as (r & l & j & G1 & G2 & -> & G4). rewrite G4. pose proof (rd_Some_bound _ _ _ G1). rewrite rd_splits_off by lia.
    destruct (RX r l G1) as (T & ET & AT & ->). rewrite (ST r T ET). cbn [enT fst snd]. pose proof (rd_Some_bound _ _ _ G2) as BJ. unfold srow in BJ, G2. rewrite zlen_map, zlen_zrange in BJ by apply zlen_nonneg.
    rewrite rd_map, rd_zrange in G2 by auto. cbn [option_map] in G2. injection G2 as <-. destruct (rd_in_bound (lb T) j BJ) as (y & Hy). destruct (mf_ok T j y AT Hy) as (_ & M1 & M2 & M3 & M4).
    pose proof (rd_Some_bound _ _ _ H2) as BQ. rewrite zlen_map, zlen_zrange in BQ by auto. rewrite rd_map, rd_zrange in H2 by auto. cbn [option_map] in H2. injection H2 as <-.
    destruct (geoA T AT) as (A1 & A2 & _ & _ & _ & _ & A3). destruct (geoB T AT) as (B1 & B2 & _ & _ & _ & _ & _ & B3). unfold va, vb in *. rewrite B1.
    assert (RM : rd (concat MM) (off1 XX r + j) = Some (mf T j)).
    { rewrite (IDenseInit.off1_same XX MM r ZZ). apply (rd_concat_off MM r (map (mf T) (zrange (zlen (lb T))))); [unfold MM; now rewrite rd_map, ET|]. now rewrite rd_map, rd_zrange by auto. }
    rewrite RM. replace (off1 XX r + j - off1 XX r) with j by lia. rewrite (proj1 (B3 _ _ Hy)). replace (off1 (concat XX) (off1 XX r + j) + q - off1 (concat XX) (off1 XX r + j)) with q by lia.
    destruct (rd_in_bound (la T) (fst (mf T j) + q - a0 T) ltac:(lia)) as (x & Hx). destruct (A3 _ _ Hx) as (Ex & _). replace (a0 T + (fst (mf T j) + q - a0 T)) with (fst (mf T j) + q) in Ex by lia. rewrite Ex.
    assert (EL : lab y =? lab x = true) by (apply Z.eqb_eq; symmetry; apply (M4 _ _ Hx); lia). rewrite EL. reflexivity.
  - exists (map (@concat cand) XX). split; [symmetry; apply concat_map_concat|]. split; [rewrite zlen_map; apply ZX|]. intros i T l Hi Hl. rewrite rd_map in Hl. destruct (rd XX i) as [l'|] eqn:EX; [|discriminate]. cbn in Hl. injection Hl as <-.
    destruct (RX i l' EX) as (T' & ET & AT & ->). replace T' with T in * by congruence. now apply srow_ok.
Qed.
End S.
End G.
