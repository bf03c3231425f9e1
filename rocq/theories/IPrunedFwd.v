(** * A forward step of the pruned intersection on nested frames *)
From Coq Require Import ZArith List Lia Bool QArith Permutation.
From Coq Require Import ZifyBool ZifyNat.
From Verif Require Import Base RaggedModel RaggedSpec RaggedProofs FsaSpec FsaLemmas RaggedOpsModel OpsModel RaggedOpsProofs ConnectProofs IDenseModel IDenseSpec IPrunedModel IPrunedNest IPrunedCut IPrunedMerge.
From Verif Require GraphProofs RmDevRagged RmDevMap EpsLoopProofs IDenseInit IDenseOut IDensePaths IDevCore IDevStep UniqueProps ComposeProps PropsProps ExtractProofs.
Import ListNotations.
Open Scope Z_scope.

(** the members of the intersecter for the graphs [V] and the sequences [seqs] *)
Record setup (V : list nfsa) (seqs : list frames) (cols stride : Z) (c : cfg) : Prop := {
  su_v : c_v c = flat_vec V; su_ids : c_ids1 c = ids_of V; su_b : c_b c = flat_dense cols stride seqs; su_n : c_n c = zlen seqs;
  su_sh : (zlen V = 1 /\ c_astride c = 0 /\ c_kstride c = zlen (concat V)) \/ (zlen V = zlen seqs /\ c_astride c = 1 /\ c_kstride c = 0);
  su_val : forall f, In f V -> f = [] \/ valid f;
  su_lab : forall f a, In f V -> In a (all_arcs f) -> lab a < cols - 1;
  su_rows : forall s r, In s seqs -> In r s -> zlen r = stride;
  su_cols : cols <= stride;
  su_bits : c_bits c = 32 }.

Lemma off1_uniform {A} (ll : list (list A)) st : (forall r, In r ll -> zlen r = st) -> forall k, 0 <= k <= zlen ll -> off1 ll k = k * st.
Proof.
  intros H k Hk. replace k with (Z.of_nat (Z.to_nat k)) by lia. assert (Hn : (Z.to_nat k <= length ll)%nat) by (unfold zlen in Hk; lia). revert Hn. generalize (Z.to_nat k) as n. clear k Hk.
  induction n as [|n IH]; intros Hn; [reflexivity|]. destruct (nth_error ll n) as [r|] eqn:E; [|apply nth_error_None in E; lia].
  assert (E' : rd ll (Z.of_nat n) = Some r) by (rewrite rd_nth; exact E). replace (Z.of_nat (S n)) with (Z.of_nat n + 1) by lia. rewrite (off1_next _ _ _ E'), IH by lia. rewrite (H _ (rd_In _ _ _ E')). lia.
Qed.

Section Fwd.
Context (V : list nfsa) (seqs : list frames) (cols stride : Z) (c : cfg) (SU : setup V seqs cols stride c).

(** what belongs to sequence [k] *)
Definition gi (k : Z) : Z := k * c_astride c.
Definition gr (k : Z) : nfsa := match rd V (gi k) with Some f => f | None => [] end.
Definition rw (k : Z) : frames := match rd seqs k with Some r => r | None => [] end.
Definition vb (k : Z) : Z := off1 V (gi k).
Definition AB (k : Z) : Z := off1 (concat V) (vb k).
Definition outs (k : Z) (s : sinfo) : list arc := match rd (gr k) (s_a s - vb k) with Some l => l | None => [] end.
Definition okst (k t : Z) (s : sinfo) : Prop := vb k <= s_a s < vb k + zlen (gr k) /\ (t < zlen (rw k) \/ outs k s = []).

Lemma col_at k : 0 <= k < zlen seqs -> rd V (gi k) = Some (gr k) /\ rd seqs k = Some (rw k).
Proof.
  intros Hk. unfold gr, rw, gi. split.
  - destruct (su_sh _ _ _ _ _ SU) as [(A & B & _)|(A & B & _)]; rewrite B; [rewrite Z.mul_0_r|rewrite Z.mul_1_r].
    + destruct (rd_in_bound V 0) as (f & ->); [lia|reflexivity].
    + destruct (rd_in_bound V k) as (f & ->); [lia|reflexivity].
  - destruct (rd_in_bound seqs k) as (f & ->); [lia|reflexivity].
Qed.
Lemma gr_valid k : gr k = [] \/ valid (gr k).
Proof. unfold gr. destruct (rd V (gi k)) as [f|] eqn:E; [|now left]. apply (su_val _ _ _ _ _ SU), (rd_In _ _ _ E). Qed.
Lemma gr_lab k a : In a (all_arcs (gr k)) -> lab a < cols - 1.
Proof. unfold gr. destruct (rd V (gi k)) as [f|] eqn:E; [|easy]. apply (su_lab _ _ _ _ _ SU), (rd_In _ _ _ E). Qed.

Lemma st_at k t s : 0 <= k < zlen seqs -> okst k t s ->
  rd (concat V) (s_a s) = Some (outs k s) /\ rd (gr k) (s_a s - vb k) = Some (outs k s) /\
  rd (v_rs2 (c_v c)) (s_a s) = Some (AB k + off1 (gr k) (s_a s - vb k)) /\
  rd (v_rs2 (c_v c)) (s_a s + 1) = Some (AB k + off1 (gr k) (s_a s - vb k) + zlen (outs k s)) /\
  (forall m a, rd (outs k s) m = Some a -> rd (v_arcs (c_v c)) (AB k + off1 (gr k) (s_a s - vb k) + m) = Some a) /\
  rd (c_ids1 c) (s_a s) = Some (gi k) /\ rd (v_rs1 (c_v c)) (gi k) = Some (vb k) /\ rd (v_rs1 (c_v c)) (gi k + 1) = Some (vb k + zlen (gr k)).
Proof.
  intros Hk (H1 & _). destruct (col_at k Hk) as (E1 & _). assert (E2 : rd (gr k) (s_a s - vb k) = Some (outs k s)).
  { unfold outs. destruct (rd_in_bound (gr k) (s_a s - vb k)) as (l & ->); [lia|reflexivity]. }
  destruct (rd_concat_off _ _ _ _ _ E1 E2) as (E3 & E4). fold (vb k) in E3, E4. replace (vb k + (s_a s - vb k)) with (s_a s) in E3, E4 by lia.
  rewrite (su_v _ _ _ _ _ SU), (su_ids _ _ _ _ _ SU). cbn. destruct (RmDevRagged.splits_nth _ _ _ E3) as (S1 & S2). destruct (RmDevRagged.splits_nth _ _ _ E1) as (S3 & S4).
  assert (EO : off1 (concat V) (s_a s) = AB k + off1 (gr k) (s_a s - vb k)).
  { unfold AB, vb. pose proof (off1_concat V (gi k) (gr k) (s_a s - vb k) E1) as X. pose proof (off1_concat V (gi k) (gr k) 0 E1) as Y. unfold vb in *.
    replace (off1 V (gi k) + (s_a s - off1 V (gi k))) with (s_a s) in X by lia. rewrite Z.add_0_r in Y. rewrite X, Y by lia. change (off1 (gr k) 0) with 0. lia. }
  rewrite EO in S1, S2. repeat split; auto.
  intros m a Hm. destruct (rd_concat_off _ _ _ _ _ E3 Hm) as (E5 & _). rewrite EO in E5. exact E5.
Qed.

Lemma outs_arc k s m a : rd (outs k s) m = Some a -> In a (all_arcs (gr k)) /\ src a = s_a s - vb k /\ rd (all_arcs (gr k)) (off1 (gr k) (s_a s - vb k) + m) = Some a.
Proof.
  intros H. unfold outs in H. destruct (rd (gr k) (s_a s - vb k)) as [l|] eqn:E; [|rewrite rd_nil in H; discriminate].
  destruct (rd_concat_off _ _ _ _ _ E H) as (E1 & _). split; [exact (rd_In _ _ _ E1)|]. split; [|exact E1].
  destruct (gr_valid k) as [X|(X & _)]; [rewrite X in E; rewrite rd_nil in E; discriminate|]. exact (X _ _ _ E (rd_In _ _ _ H)).
Qed.

Lemma mem_at k t a : 0 <= k < zlen seqs -> 0 <= t < zlen (rw k) -> In a (all_arcs (gr k)) ->
  rd (b_data (c_b c)) ((off1 seqs k + t) * stride + (lab a + 1)) = Some (frame (rw k) t (lab a)).
Proof.
  intros Hk Ht Ha. destruct (col_at k Hk) as (_ & E). rewrite (su_b _ _ _ _ _ SU). cbn. unfold frame. destruct (rd_in_bound _ _ Ht) as (r & Hr). rewrite Hr.
  assert (Zr : zlen r = stride) by (apply (su_rows _ _ _ _ _ SU (rw k)); eauto using rd_In). pose proof (gr_lab k a Ha). pose proof (su_cols _ _ _ _ _ SU).
  destruct (gr_valid k) as [X|(_ & _ & X)]; [rewrite X in Ha; easy|]. destruct (X a Ha) as (_ & B & _).
  destruct (rd_in_bound r (lab a + 1)) as (y & Hy); [lia|]. rewrite Hy. destruct (rd_concat_off _ _ _ _ _ E Hr) as (R & _). pose proof (rd_Some_bound _ _ _ R) as BR.
  destruct (rd_concat_off (concat seqs) _ _ _ _ R Hy) as (M & _). rewrite (off1_uniform _ stride) in M; [exact M| |lia].
  intros r' Hr'. apply in_concat in Hr' as (s & Hs & Hr'). exact (su_rows _ _ _ _ _ SU s r' Hs Hr').
Qed.

Lemma final_at k : 0 <= k < zlen seqs -> final_t c k = Some (zlen (rw k)) /\ rd (b_rs (c_b c)) k = Some (off1 seqs k).
Proof.
  intros Hk. destruct (col_at k Hk) as (_ & E). unfold final_t. rewrite (su_b _ _ _ _ _ SU). cbn. destruct (RmDevRagged.splits_nth _ _ _ E) as (-> & ->). split; [f_equal; lia|reflexivity].
Qed.

(** the arcs of a state *)
Definition pm (k t : Z) (S : list sinfo) : bool :=
  (zlen (rw k) - 1 =? t) && (c_partial c && negb (existsb (fun s => existsb (fun a => lab a =? -1) (outs k s)) S)).
Definition garc (k t : Z) (p : bool) (s : sinfo) (m : Z) (a : arc) : ainfo :=
  let ll := oadd (if p then Some 0 else frame (rw k) t (lab a)) (Some (sc a)) in
  mkA (AB k + off1 (gr k) (s_a s - vb k) + m) ll (vb k + (if p then zlen (gr k) - 1 else dst a)) (oadd (s_f s) ll).
Definition garcs (k t : Z) (p : bool) (s : sinfo) : list ainfo := imap (garc k t p s) 0 (outs k s).
Definition expand {X} (t : Z) (N : list (list (sinfo * list X))) : nframe :=
  imap (fun k p => map (fun x => (fst x, garcs k t (pm k t (map fst p)) (fst x))) p) 0 N.

Lemma rd_expand {X} t (N : list (list (sinfo * list X))) k q : rd (expand t N) k = Some q ->
  exists p, rd N k = Some p /\ q = map (fun x => (fst x, garcs k t (pm k t (map fst p)) (fst x))) p.
Proof. unfold expand. rewrite rd_imap. destruct (rd N k) as [p|]; [|discriminate]. intros [= <-]. rewrite Z.add_0_l. eauto. Qed.

Lemma get_arcs_ok {X} f (N : list (list (sinfo * list X))) t : isS f N -> zlen N = zlen seqs -> 0 <= t ->
  (forall k p x, rd N k = Some p -> In x p -> okst k t (fst x)) ->
  exists f', get_arcs c t f = Some f' /\ isA f' (expand t N).
Proof.
  intros [F1 F2 F3] HN Ht Hok. set (E := expand t N). unfold get_arcs.
  assert (SE : map fst (concat E) = map fst (concat N)).
  { rewrite !concat_map. f_equal. unfold E, expand. rewrite map_imap. rewrite <- (imap_const (map fst) N 0). apply imap_ext. intros. rewrite map_map. reflexivity. }
  assert (ZE : map zlen E = map zlen N).
  { unfold E, expand. rewrite map_imap. rewrite <- (imap_const zlen N 0). apply imap_ext. intros. now rewrite zlen_map. }
  destruct (IDevCore.same_sizes _ _ ZE) as (I1 & I2).
  assert (inv : forall k r s xs q, rd E k = Some q -> rd q r = Some (s, xs) -> exists p, rd N k = Some p /\ 0 <= k < zlen seqs /\ xs = garcs k t (pm k t (map fst p)) s /\ okst k t s /\ In s (map fst p)).
  { intros k r s xs q H1 H2. destruct (rd_expand _ _ _ _ H1) as (p & Hp & ->). exists p. pose proof (rd_Some_bound _ _ _ Hp). rewrite rd_map in H2. destruct (rd p r) as [x|] eqn:Ex; [|discriminate]. injection H2 as <- <-.
    split; [exact Hp|]. split; [lia|]. split; [reflexivity|]. split; [eapply Hok; eauto using rd_In|]. apply in_map. eauto using rd_In. }
  set (b1 := fun s => x <- rd (v_rs2 (c_v c)) (s_a s);; _).
  assert (A1 : mapM b1 (f_states f) = Some (map zlen (rows E))).
  { rewrite F3, <- SE. apply mapM_by_rd; [unfold rows; now rewrite !zlen_map|]. intros i s Hs. unfold rows. rewrite !rd_map in *. destruct (rd (concat E) i) as [[s' xs]|] eqn:Ei; [|discriminate]. cbn in Hs. injection Hs as ->. cbn [option_map snd].
    apply rd_concat_inv in Ei as (k & q & r & G1 & G2 & G3 & G4). destruct (inv _ _ _ _ _ G1 G2) as (p & Hp & Bk & -> & Hs & _). destruct (st_at k t s Bk Hs) as (_ & _ & R1 & R2 & _).
    unfold b1. rewrite R1, R2. f_equal. unfold garcs. rewrite zlen_imap. lia. }
  rewrite A1. change (exsum (map zlen (rows E))) with (splits_of (rows E)). 
  assert (A2 : rd (splits_of (rows E)) (zlen (f_states f)) = Some (zlen (concat (rows E)))).
  { rewrite F3, <- SE, zlen_map. replace (zlen (concat E)) with (zlen (rows E)) by (unfold rows; now rewrite zlen_map). rewrite rd_splits_off by (pose proof (zlen_nonneg (rows E)); lia). now rewrite EpsLoopProofs.off1_all. }
  rewrite A2, row_ids_of_splits. cbv zeta.
  (* the state and the arc of position i *)
  assert (pos : forall i x, rd (concat (rows E)) i = Some x -> exists k p q r s j a, 0 <= k < zlen seqs /\ rd N k = Some p /\ okst k t s /\ In s (map fst p) /\ rd (outs k s) j = Some a /\
     x = garc k t (pm k t (map fst p)) s j a /\ rd (ids_of (rows E)) i = Some q /\ rd (f_ids1 f) q = Some k /\ rd (splits_of (rows E)) q = Some r /\ rd (f_states f) q = Some s /\ i = r + j /\
     rd (v_rs2 (c_v c)) (s_a s) = Some (AB k + off1 (gr k) (s_a s - vb k)) /\ rd (v_arcs (c_v c)) (AB k + off1 (gr k) (s_a s - vb k) + j) = Some a).
  { intros i x Hx. destruct (arc_at _ _ _ Hx) as (k & r & j & q & s & xs & AT). destruct (at_ids _ _ _ _ _ _ _ _ _ AT) as (B1 & B2). destruct AT as [H1 H2 H3 H4].
    destruct (inv _ _ _ _ _ H1 H2) as (p & Hp & Bk & -> & Hs & Hin). unfold garcs in H3. rewrite rd_imap, Z.add_0_l in H3. destruct (rd (outs k s) j) as [a|] eqn:Ea; [|discriminate]. cbn in H3. injection H3 as <-.
    destruct (state_at _ _ _ _ _ _ H1 H2) as (C1 & C2 & C3 & C4). destruct (RmDevRagged.splits_nth _ _ _ C4) as (C5 & _).
    destruct (st_at k t s Bk Hs) as (_ & _ & R1 & _ & R3 & _).
    exists k, p, (off1 E k + r), (off1 (rows E) (off1 E k + r)), s, j, a. split; [exact Bk|]. split; [exact Hp|]. split; [exact Hs|]. split; [exact Hin|]. split; [exact Ea|]. split; [reflexivity|].
    split; [exact B2|]. split; [rewrite F2, <- I2; exact C2|]. split; [exact C5|]. split; [rewrite F3, <- SE; exact C3|]. split; [exact H4|]. split; [exact R1|]. apply R3, Ea. }
  set (b2 := fun i => st <- rd (ids_of (rows E)) i;; k <- rd (f_ids1 f) st;; x <- rd (splits_of (rows E)) st;; s <- rd (f_states f) st;;
      a0 <- rd (v_rs2 (c_v c)) (s_a s);; a <- rd (v_arcs (c_v c)) (a0 + (i - x));; ft <- final_t c k;; Some (k, (ft - 1 =? t) && (lab a =? -1))).
  assert (D2 : forall i, 0 <= i < zlen (concat (rows E)) -> exists y, b2 i = Some y).
  { intros i Hi. destruct (rd_in_bound _ _ Hi) as (x & Hx). destruct (pos _ _ Hx) as (k & p & q & r & s & j & a & P1 & P2 & P3 & P4 & P5 & P6 & P7 & P8 & P9 & P10 & P11 & P12 & P13).
    unfold b2. rewrite P7, P8, P9, P10, P12. replace (i - r) with j by lia. rewrite P13. destruct (final_at k P1) as (-> & _). eauto. }
  destruct (mapM_exists b2 (fun _ _ => True) (zlen (concat (rows E)))) as (finals & A3 & _); [apply zlen_nonneg|intros i Hi; destruct (D2 i Hi) as (y & Hy); eauto|]. rewrite A3.
  set (hv := fun k => existsb (fun p => (fst p =? k) && snd p) finals).
  assert (HV : forall k p, rd N k = Some p -> (zlen (rw k) - 1 =? t) = true -> hv k = existsb (fun s => existsb (fun a => lab a =? -1) (outs k s)) (map fst p)).
  { intros k p Hp Et. apply eq_true_iff_eq. unfold hv. rewrite !existsb_exists. split.
    - intros ([k' b] & Hin & Hb). apply In_rd in Hin as (n & _ & Hn). pose proof (ComposeProps.mapM_zlen _ _ _ A3) as LZ. pose proof (rd_Some_bound _ _ _ Hn) as Bn. rewrite LZ, zlen_zrange in Bn by apply zlen_nonneg.
      assert (Hn' : b2 n = Some (k', b)). { rewrite <- Hn. symmetry. apply (ComposeProps.mapM_at _ _ _ _ _ A3). apply rd_zrange. exact Bn. }
      destruct (rd_in_bound _ _ Bn) as (x & Hx). destruct (pos _ _ Hx) as (k1 & p1 & q & r & s & j & a & P1 & P2 & P3 & P4 & P5 & P6 & P7 & P8 & P9 & P10 & P11 & P12 & P13).
      unfold b2 in Hn'. rewrite P7, P8, P9, P10, P12 in Hn'. replace (n - r) with j in Hn' by lia. rewrite P13 in Hn'. destruct (final_at k1 P1) as (FT & _). rewrite FT in Hn'. injection Hn' as <- <-. cbn [fst snd] in Hb.
      assert (k1 = k) by lia. subst k1. rewrite Hp in P2. injection P2 as <-. exists s. split; [exact P4|]. apply existsb_exists. exists a. split; [eauto using rd_In|lia].
    - intros (s & Hs & Ha). apply existsb_exists in Ha as (a & Ha & Hl). apply In_rd in Ha as (j & _ & Ha). apply in_map_iff in Hs as ([s' xs] & <- & Hs). cbn [fst] in *. apply In_rd in Hs as (r & _ & Hr).
      assert (Bk : 0 <= k < zlen seqs) by (apply rd_Some_bound in Hp; lia).
      assert (EQ : rd E k = Some (map (fun x => (fst x, garcs k t (pm k t (map fst p)) (fst x))) p)) by (unfold E, expand; rewrite rd_imap, Hp, Z.add_0_l; reflexivity).
      assert (ES : rd (map (fun x => (fst x, garcs k t (pm k t (map fst p)) (fst x))) p) r = Some (s', garcs k t (pm k t (map fst p)) s')) by (rewrite rd_map, Hr; reflexivity).
      assert (EX : rd (garcs k t (pm k t (map fst p)) s') j = Some (garc k t (pm k t (map fst p)) s' j a)) by (unfold garcs; rewrite rd_imap, Ha, Z.add_0_l; reflexivity).
      destruct (state_at _ _ _ _ _ _ EQ ES) as (C1 & C2 & C3 & C4). destruct (rd_concat_off _ _ _ _ _ C4 EX) as (G1 & G2). destruct (RmDevRagged.splits_nth _ _ _ C4) as (C5 & _).
      set (i := off1 (rows E) (off1 E k + r) + j) in *. exists (k, true). split; [|cbn; lia].
      assert (b2i : b2 i = Some (k, true)).
      { destruct (inv _ _ _ _ _ EQ ES) as (p' & _ & _ & _ & Hs & _). destruct (st_at k t s' Bk Hs) as (_ & _ & R1 & _ & R3 & _). unfold b2. rewrite G2, F2, <- I2, C2, C5, F3, <- SE, C3, R1.
        replace (i - off1 (rows E) (off1 E k + r)) with j by lia. rewrite (R3 _ _ Ha). destruct (final_at k Bk) as (-> & _). do 2 f_equal. lia. }
      assert (Bi : 0 <= i < zlen (concat (rows E))) by (eapply rd_Some_bound; eauto). assert (rd finals i = Some (k, true)) by (rewrite <- b2i; apply (ComposeProps.mapM_at _ _ _ _ _ A3), rd_zrange; lia).
      eauto using rd_In. }
  set (b3 := fun i => st <- rd (ids_of (rows E)) i;; _).
  assert (A4 : mapM b3 (zrange (zlen (concat (rows E)))) = Some (concat (rows E))).
  { apply mapM_by_rd; [rewrite zlen_zrange by apply zlen_nonneg; reflexivity|].
    intros i y Hi. pose proof (rd_Some_bound _ _ _ Hi) as Bi. rewrite zlen_zrange in Bi by apply zlen_nonneg. rewrite rd_zrange in Hi by auto. injection Hi as <-.
    destruct (rd_in_bound _ _ Bi) as (x & Hx). rewrite Hx. destruct (pos _ _ Hx) as (k & p & q & r & s & j & a & P1 & P2 & P3 & P4 & P5 & P6 & P7 & P8 & P9 & P10 & P11 & P12 & P13).
    unfold b3. rewrite P7, P8, P9, P10, P12. replace (i - r) with j by lia. rewrite P13. destruct (final_at k P1) as (FT & ->). destruct (outs_arc _ _ _ _ P5) as (Ha & Hsrc & _).
    assert (Tk : 0 <= t < zlen (rw k)). { destruct P3 as (_ & [P3|P3]); [lia|rewrite P3, rd_nil in P5; discriminate]. }
    replace (b_stride (c_b c)) with stride by (rewrite (su_b _ _ _ _ _ SU); reflexivity). rewrite (mem_at k t a P1 Tk Ha), FT.
    destruct (st_at k t s P1 P3) as (_ & _ & _ & _ & _ & Q1 & Q2 & Q3). fold (hv k).
    assert (EP : (zlen (rw k) - 1 =? t) && (c_partial c && negb (hv k)) = pm k t (map fst p)).
    { unfold pm. destruct (zlen (rw k) - 1 =? t) eqn:Et; [|reflexivity]. now rewrite (HV k p P2 Et). }
    rewrite EP. subst x. unfold garc. destruct (pm k t (map fst p)).
    - rewrite Q1, Q3, Q2. cbn [fst snd]. do 2 f_equal. lia.
    - cbn [fst snd]. do 2 f_equal. lia. }
  rewrite A4. eexists. split; [reflexivity|]. split; [split|..]; cbn; auto; [now rewrite F1, I1|now rewrite F2, I2|now rewrite F3, SE].
Qed.

(** one step, sequence by sequence *)
Definition cut_of (k t : Z) (S : list sinfo) (beam : Q) : option Z * Q :=
  (kmax (map i_end (concat (map (garcs k t (pm k t S)) S))), new_beam c t (zlen (rw k)) (zlen S) beam).
Record fcol (k t : Z) (S : list sinfo) (beam : Q) (C : list nst) (nxt : list sinfo) (beam' : Q) : Prop := {
  fc_beam : beam' = snd (cut_of k t S beam);
  fc_arcs : Forall2 (fun s x => fst x = s /\ Forall2 (fun a a' => exists d, a' = setd a d /\
      ((d = -1 /\ above (i_end a) (cut_of k t S beam) = false) \/ (0 <= d /\ exists s', rd nxt d = Some s' /\ s_a s' = i_dst a /\ ole (i_end a) (s_f s'))))
      (garcs k t (pm k t S) s) (snd x)) S C;
  fc_st : forall s', In s' nxt -> s_b s' = None /\
      (exists s a, In s S /\ In a (garcs k t (pm k t S) s) /\ i_dst a = s_a s' /\ above (i_end a) (cut_of k t S beam) = true) /\
      (exists s a, In s S /\ In a (garcs k t (pm k t S) s) /\ i_dst a = s_a s' /\ i_end a = s_f s');
  fc_nd : NoDup (map s_a nxt) }.

(** a frame of the same shape with other arcs *)
Definition arc0 := mkA 0 None 0 None.
Definition refill (E : nframe) (xs : list ainfo) : nframe :=
  imap (fun k q => imap (fun r x => (fst x, map (fun j => match rd xs (off1 (rows E) (off1 E k + r) + j) with Some a => a | None => arc0 end) (zrange (zlen (snd x))))) 0 q) 0 E.
Lemma rd_refill E xs k q : rd E k = Some q -> exists q', rd (refill E xs) k = Some q' /\ zlen q' = zlen q /\
  forall r s ys, rd q r = Some (s, ys) -> exists ys', rd q' r = Some (s, ys') /\ zlen ys' = zlen ys /\
    (zlen xs = zlen (concat (rows E)) -> forall j y, rd ys j = Some y -> rd ys' j = rd xs (off1 (rows E) (off1 E k + r) + j)).
Proof.
  intros H. unfold refill. rewrite rd_imap, H, Z.add_0_l. cbn. eexists. split; [reflexivity|]. split; [apply zlen_imap|].
  intros r s ys Hr. rewrite rd_imap, Hr, Z.add_0_l. cbn. eexists. split; [reflexivity|]. split; [rewrite zlen_map, zlen_zrange; auto using zlen_nonneg|].
  intros Hx j y Hj. rewrite rd_map, rd_zrange by (eapply rd_Some_bound; eauto). cbn. destruct (state_at _ _ _ _ _ _ H Hr) as (_ & _ & _ & G). destruct (rd_concat_off _ _ _ _ _ G Hj) as (G1 & _). apply rd_Some_bound in G1.
  destruct (rd_in_bound xs (off1 (rows E) (off1 E k + r) + j)) as (a & ->); [lia|reflexivity].
Qed.
Lemma refill_same E xs : same E (refill E xs).
Proof.
  unfold same. apply map_rel; [unfold refill; now rewrite zlen_imap|]. intros k q q' Hq Hq'. destruct (rd_refill E xs k q Hq) as (q'' & E1 & E2 & E3). rewrite Hq' in E1. injection E1 as <-.
  apply map_rel; [lia|]. intros r [s ys] [s' ys'] H1 H2. destruct (E3 _ _ _ H1) as (z & Z1 & Z2 & _). rewrite H2 in Z1. injection Z1 as -> ->. cbn. lia.
Qed.
Lemma refill_ok f E xs : isA f E -> zlen xs = zlen (concat (rows E)) ->
  isA (mkFr (f_rs1 f) (f_ids1 f) (f_states f) (f_rs2 f) (f_ids2 f) xs) (refill E xs).
Proof.
  intros [[F1 F2 F3] F4 F5 F6] HL. destruct (same_refs _ _ (refill_same E xs)) as (O1 & O2 & E1 & E2 & E3 & E4 & L1 & L2 & L3).
  split; [split|..]; cbn; [congruence|congruence| |congruence|congruence|].
  - rewrite F3. rewrite !concat_map. f_equal. apply map_rel; [exact L3|]. intros k q q' Hq Hq'. destruct (rd_refill E xs k q Hq) as (q'' & G1 & G2 & G3). rewrite Hq' in G1. injection G1 as <-.
    apply map_rel; [lia|]. intros r [s ys] [s' ys'] H1 H2. destruct (G3 _ _ _ H1) as (z & Z1 & _). rewrite H2 in Z1. now injection Z1 as -> ->.
  - symmetry. apply list_ext_rd; [lia|]. intros i Hi. rewrite <- L2 in Hi. destruct (rd_in_bound _ _ Hi) as (x & Hx). destruct (arc_at _ _ _ Hx) as (k & r & j & q & s & ys & [H1 H2 H3 H4]).
    destruct (rd_refill E xs k q H1) as (q' & G1 & G2 & G3). destruct (G3 _ _ _ H2) as (ys' & Z1 & Z2 & Z3).
    destruct (rd_in_bound ys' j) as (y & Hy); [apply rd_Some_bound in H3; lia|].
    assert (AT : at_arc (refill E xs) i k r j q' s ys' y) by (split; auto; now rewrite <- O2, <- O1). destruct (at_ids _ _ _ _ _ _ _ _ _ AT) as (-> & _). rewrite <- Hy, (Z3 HL _ _ H3), H4. reflexivity.
Qed.

Definition bare (NS : list (list sinfo)) : nframe := map (map (fun s => (s, []))) NS.

Lemma dst_range k t p s a : 0 <= k < zlen seqs -> In a (garcs k t p s) -> vb k <= i_dst a < vb k + zlen (gr k).
Proof.
  intros Hk Ha. unfold garcs in Ha. apply In_rd in Ha as (j & _ & Hj). rewrite rd_imap in Hj. destruct (rd (outs k s) j) as [x|] eqn:Ex; [|discriminate]. injection Hj as <-. destruct (outs_arc _ _ _ _ Ex) as (Hx & _).
  cbn. destruct (gr_valid k) as [E|(_ & E1 & E2)]; [rewrite E in Hx; easy|]. destruct (E2 x Hx) as (B & _). unfold nstates in *. destruct p; lia.
Qed.

Lemma forward_ok {X} ord (Ho : fair ord) f (N : list (list (sinfo * list X))) t beams h : isS f N -> zlen N = zlen seqs -> 0 <= t -> zlen beams = zlen seqs -> (forall q, hfind h q = None) ->
  (forall k p x, rd N k = Some p -> In x p -> okst k t (fst x)) ->
  exists f' Q nf NS beams' h', propagate_forward ord c t f beams h = Some (f', nf, beams', h') /\ isA f' Q /\ isS nf (bare NS) /\ (forall q, hfind h' q = None) /\
    zlen Q = zlen seqs /\ zlen NS = zlen seqs /\ zlen beams' = zlen seqs /\
    forall k p, rd N k = Some p -> exists beam q ns beam', rd beams k = Some beam /\ rd Q k = Some q /\ rd NS k = Some ns /\ rd beams' k = Some beam' /\ fcol k t (map fst p) beam q ns beam'.
Proof.
  intros HS HN Ht Hb Hh Hok. destruct (get_arcs_ok f N t HS HN Ht Hok) as (f1 & E1 & HA). unfold propagate_forward. rewrite E1. clear E1.
  set (E := expand t N) in *. pose proof HA as [[F1 F2 F3] F4 F5 F6]. assert (ZE : zlen E = zlen seqs) by (unfold E, expand; now rewrite zlen_imap).
  set (CAs := map (fun q : list nst => concat (map snd q)) E). assert (ZC : zlen CAs = zlen seqs) by (unfold CAs; now rewrite zlen_map).
  assert (EC : concat (rows E) = concat CAs) by (unfold rows, CAs; generalize E; clear; induction E as [|q E IH]; cbn; [reflexivity|]; rewrite map_app, concat_app, IH; reflexivity).
  rewrite (su_bits _ _ _ _ _ SU). change (32 <=? 32) with true. cbn [orb]. cbv iota.
  (* cutoffs *)
  set (bm := fun k => match rd beams k with Some b => b | None => 0%Q end).
  set (cuts := imap (fun k q => (kmax (map i_end (concat (map snd q))), new_beam c t (zlen (rw k)) (zlen q) (bm k))) 0 E : list (option Z * Q)).
  assert (ZK : zlen cuts = zlen CAs) by (unfold cuts; rewrite zlen_imap; lia).
  assert (A1 : get_cutoffs c t f1 beams = Some cuts).
  { unfold get_cutoffs. rewrite (su_n _ _ _ _ _ SU). apply mapM_by_rd; [rewrite zlen_zrange by apply zlen_nonneg; lia|]. intros i k Hi. pose proof (rd_Some_bound _ _ _ Hi) as Bi. rewrite zlen_zrange in Bi by apply zlen_nonneg. rewrite rd_zrange in Hi by auto. injection Hi as <-.
    rewrite <- ZE in Bi. destruct (rd_in_bound _ _ Bi) as (q & Hq). destruct (RmDevRagged.splits_nth _ _ _ Hq) as (S1 & S2). rewrite F1, S1, S2, F4.
    assert (O : forall k, off1 CAs k = off1 (rows E) (off1 E k)) by (intros; unfold CAs, rows; apply (RmDevRagged.off1_rows snd)).
    pose proof (off1_bound E i) as BO. pose proof (off1_bound E (i + 1)) as BO'. pose proof (off1_nonneg E i) as BN. rewrite (off1_next _ _ _ Hq) in BO'. pose proof (zlen_nonneg q).
    rewrite !rd_splits_off by (unfold rows; rewrite zlen_map; lia).
    assert (Hc : rd CAs i = Some (concat (map snd q))) by (unfold CAs; rewrite rd_map, Hq; reflexivity).
    rewrite <- (off1_next _ _ _ Hq), <- !O, (off1_next _ _ _ Hc), (off1_next _ _ _ Hq). replace (off1 CAs i + zlen (concat (map snd q)) - off1 CAs i) with (zlen (concat (map snd q))) by lia.
    rewrite (seg_mapM i_end _ _ _ (concat (map snd q))); [|intros j x Hj; rewrite F6, EC; apply (rd_concat_off _ _ _ _ _ Hc Hj)|reflexivity].
    destruct (rd_in_bound beams i) as (b & Hbm); [lia|]. rewrite Hbm. destruct (final_at i) as (-> & _); [lia|]. unfold cuts. rewrite rd_imap, Hq, Z.add_0_l. cbn. unfold bm. rewrite Hbm. do 3 f_equal. lia. }
  rewrite A1.
  assert (A2 : mapM (fun i => st <- rd (f_ids2 f1) i;; rd (f_ids1 f1) st) (zrange (zlen (f_arcs f1))) = Some (ids_of CAs)).
  { rewrite F2, F5, F6. pose proof (RmDevRagged.rm_axis_ids snd E) as R. fold CAs in R. fold (rows E) in R. apply mapM_by_rd; [rewrite zlen_zrange, EC by apply zlen_nonneg; unfold ids_of; now rewrite zlen_ids_from|].
    intros i x Hi. pose proof (rd_Some_bound _ _ _ Hi) as Bi. rewrite zlen_zrange in Bi by apply zlen_nonneg. rewrite rd_zrange in Hi by auto. injection Hi as <-.
    destruct (rd_in_bound (ids_of (rows E)) i) as (y & Hy); [unfold ids_of; rewrite zlen_ids_from; exact Bi|]. rewrite Hy. symmetry. exact (ComposeProps.mapM_at _ _ _ _ _ R Hy). }
  rewrite A2. rewrite F6, EC.
  set (key := fun k d => d + k * c_kstride c).
  rewrite (keys_list CAs key : mapM (fun i => k <- rd (ids_of CAs) i;; a <- rd (concat CAs) i;; Some (i_dst a + k * c_kstride c)) (zrange (zlen (concat CAs))) = _).
  assert (inC : forall k CA a, rd CAs k = Some CA -> In a CA -> 0 <= k < zlen seqs /\ vb k <= i_dst a < vb k + zlen (gr k) /\ exists p s, rd N k = Some p /\ In s (map fst p) /\ In a (garcs k t (pm k t (map fst p)) s)).
  { intros k CA a Hk Ha. pose proof (rd_Some_bound _ _ _ Hk) as Bk. rewrite ZC in Bk. split; [exact Bk|]. unfold CAs in Hk. rewrite rd_map in Hk. destruct (rd E k) as [q|] eqn:Eq; [|discriminate]. injection Hk as <-.
    destruct (rd_expand _ _ _ _ Eq) as (p & Hp & ->). apply in_concat in Ha as (l & Hl & Ha). rewrite map_map in Hl. cbn in Hl. apply in_map_iff in Hl as (x & <- & Hx). split; [eapply dst_range; eauto|]. exists p, (fst x). auto using in_map. }
  assert (Hinj : forall k k' CA CA' a a', rd CAs k = Some CA -> rd CAs k' = Some CA' -> In a CA -> In a' CA' -> key k (i_dst a) = key k' (i_dst a') -> k = k' /\ i_dst a = i_dst a').
  { intros k k' CA CA' a a' H1 H2 H3 H4 HK. destruct (inC _ _ _ H1 H3) as (B1 & B2 & _). destruct (inC _ _ _ H2 H4) as (B3 & B4 & _). unfold key in HK.
    destruct (col_at k B1) as (G1 & _). destruct (col_at k' B3) as (G2 & _). pose proof (off1_next _ _ _ G1) as N1. pose proof (off1_next _ _ _ G2) as N2. fold (vb k) in N1. fold (vb k') in N2.
    destruct (su_sh _ _ _ _ _ SU) as [(S1 & S2 & S3)|(S1 & S2 & S3)]; rewrite S3 in HK.
    - pose proof (off1_bound V (gi k + 1)) as U1. pose proof (off1_bound V (gi k' + 1)) as U2. pose proof (off1_nonneg V (gi k)) as U3. pose proof (off1_nonneg V (gi k')) as U4. fold (vb k) in U3. fold (vb k') in U4.
      assert (k = k') by nia. subst. split; [reflexivity|lia].
    - rewrite !Z.mul_0_r in HK. unfold gi in *. rewrite S2, Z.mul_1_r in *. split; [|lia].
      destruct (Z.lt_trichotomy k k') as [L|[L|L]]; [|exact L|].
      + pose proof (off1_mono V (k + 1) k' ltac:(lia)). unfold vb, gi in *. rewrite S2, Z.mul_1_r in *. lia.
      + pose proof (off1_mono V (k' + 1) k ltac:(lia)). unfold vb, gi in *. rewrite S2, Z.mul_1_r in *. lia. }
  rewrite (cand_list CAs key cuts ZK Hinj).
  destruct (merge_ok ord Ho CAs key cuts ZK Hinj h Hh) as (h1 & won & NS & arcs' & h2 & dests & h3 & M1 & (M2 & M3 & M4 & M5 & M6 & M7 & M8) & M9 & MG).
  rewrite M1, M2, M3. rewrite (su_n _ _ _ _ _ SU). replace (zlen seqs) with (zlen NS) by (rewrite (mg_len _ _ _ _ MG); exact ZC). rewrite splits_of_row_ids, M4, M5, M6, M7. unfold key in M8. rewrite M8.
  assert (ZA : zlen arcs' = zlen (concat (rows E))) by (rewrite (mg_arcs _ _ _ _ MG), EC; reflexivity).
  pose proof (refill_ok f1 E arcs' HA ZA) as RO.
  eexists _, (refill E arcs'), _, NS, _, h3. split; [reflexivity|]. split; [exact RO|]. split.
  { assert (ZB : map zlen NS = map zlen (bare NS)) by (unfold bare; rewrite map_map; apply map_ext; intros; now rewrite zlen_map). destruct (IDevCore.same_sizes _ _ ZB) as (B1 & B2).
    split; cbn; auto. unfold bare. rewrite concat_map, map_map. f_equal. rewrite <- (map_id NS) at 1. apply map_ext. intros. rewrite map_map. cbn. now rewrite map_id. }
  split; [exact M9|]. assert (LN : zlen NS = zlen seqs) by (rewrite (mg_len _ _ _ _ MG); exact ZC). rewrite LN.
  split; [unfold refill; rewrite zlen_imap; exact ZE|]. split; [reflexivity|]. split; [rewrite zlen_map; lia|].
  intros k p Hp. pose proof (rd_Some_bound _ _ _ Hp) as Bk. rewrite HN in Bk.
  destruct (rd_in_bound beams k) as (beam & Hbeam); [lia|]. destruct (rd_in_bound NS k) as (ns & Hns); [lia|].
  assert (Eq : rd E k = Some (map (fun x => (fst x, garcs k t (pm k t (map fst p)) (fst x))) p)) by (unfold E, expand; rewrite rd_imap, Hp, Z.add_0_l; reflexivity).
  destruct (rd_refill E arcs' _ _ Eq) as (q & Q1 & Q2 & Q3). rewrite zlen_map in Q2. exists beam, q, ns, (snd (cut_of k t (map fst p) beam)).
  assert (Hcut : rd cuts k = Some (cut_of k t (map fst p) beam)).
  { unfold cuts. rewrite rd_imap, Eq, Z.add_0_l. cbn. unfold cut_of, bm. rewrite Hbeam, !zlen_map, !map_map. reflexivity. }
  assert (Hc : rd CAs k = Some (concat (map (garcs k t (pm k t (map fst p))) (map fst p)))) by (unfold CAs; rewrite rd_map, Eq; cbn; rewrite !map_map; reflexivity).
  split; [exact Hbeam|]. split; [exact Q1|]. split; [exact Hns|]. split; [rewrite rd_map, Hcut; reflexivity|]. split.
  - reflexivity.
  - apply Forall2_of_rd; [rewrite zlen_map; lia|]. intros r s [s' ys'] H1 H2. rewrite rd_map in H1. destruct (rd p r) as [x|] eqn:Ex; [|discriminate]. injection H1 as <-.
    assert (Es : rd (map (fun x => (fst x, garcs k t (pm k t (map fst p)) (fst x))) p) r = Some (fst x, garcs k t (pm k t (map fst p)) (fst x))) by (rewrite rd_map, Ex; reflexivity).
    destruct (Q3 _ _ _ Es) as (z & Z1 & Z2 & Z3). rewrite H2 in Z1. injection Z1 as -> ->. cbn [fst snd]. split; [reflexivity|]. apply Forall2_of_rd; [lia|]. intros j a a' Ha Ha'.
    assert (AT : at_arc E (off1 (rows E) (off1 E k + r) + j) k r j _ _ _ a) by (split; [exact Eq|exact Es|exact Ha|reflexivity]). destruct (at_ids _ _ _ _ _ _ _ _ _ AT) as (T1 & T2).
    destruct (state_at _ _ _ _ _ _ Eq Es) as (_ & T3 & _). rewrite EC in T1.
    assert (T4 : rd (ids_of CAs) (off1 (rows E) (off1 E k + r) + j) = Some k).
    { pose proof (RmDevRagged.rm_axis_ids snd E) as R. fold CAs in R. fold (rows E) in R. rewrite (ComposeProps.mapM_at _ _ _ _ _ R T2). exact T3. }
    destruct (mg_arc _ _ _ _ MG _ _ _ T1 T4) as (d & NSk & cut & D1 & D2 & D3 & D4). rewrite Hns in D1. injection D1 as <-. rewrite Hcut in D2. injection D2 as <-.
    exists d. split; [|exact D4]. rewrite (Z3 ZA _ _ Ha), D3 in Ha'. congruence.
  - intros s' Hs'. apply In_rd in Hs' as (j & _ & Hj). destruct (mg_st _ _ _ _ MG _ _ _ _ Hns Hj) as (T1 & (i & a & cut & T2 & T3 & T4 & T5 & T6) & (i' & a' & U2 & U3 & U4 & U5)).
    assert (W : forall i a, rd (ids_of CAs) i = Some k -> rd (concat CAs) i = Some a -> exists s, In s (map fst p) /\ In a (garcs k t (pm k t (map fst p)) s)).
    { intros i0 a0 W1 W2. apply rd_concat_inv in W2 as (k0 & CA & j0 & Y1 & Y2 & Y3 & Y4). rewrite W1 in Y4. injection Y4 as <-. destruct (inC _ _ _ Y1 (rd_In _ _ _ Y2)) as (_ & _ & p' & s & X1 & X2 & X3). rewrite Hp in X1. injection X1 as <-. eauto. }
    split; [exact T1|]. rewrite Hcut in T4. injection T4 as <-. split.
    + destruct (W _ _ T2 T3) as (s & W1 & W2). exists s, a. auto.
    + destruct (W _ _ U2 U3) as (s & W1 & W2). exists s, a'. auto.
  - exact (mg_nd _ _ _ _ MG _ _ Hns).
Qed.
End Fwd.
