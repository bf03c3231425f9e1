From Coq Require Import ZArith List Lia Bool.
From Coq Require Import ZifyBool.
From Verif Require Import Base RaggedModel RaggedSpec RaggedProofs FsaSpec FsaLemmas PyBase FsaTextModel FsaTextSpec FsaTextProofs FromListModel FromListProofs RaggedTextModel RaggedTextSpec.
Import ListNotations.
Open Scope Z_scope.

Lemma int_tok_prefix2 t v r : int_tok t v -> stop r -> int_prefix (t ++ r) = (t, r).
Proof.
  intros (H & P & _) Hd.
  destruct t as [|c t]; [discriminate|]. unfold int_prefix in *. rewrite <- app_comm_cons in *. cbv iota beta in *.
  destruct ((c =? 45) || (c =? 43)).
  - destruct (span_digits t) as [a b] eqn:E. injection H as -> ->.
    apply span_digits_all in E. destruct E as [_ F]. rewrite span_digits_app by auto. reflexivity.
  - apply span_digits_all in H. destruct H as [_ F]. now apply (span_digits_app (c :: t)).
Qed.
Lemma int_tok_char t v : int_tok t v -> exists c u, t = c :: u /\ cws c = false /\ c <> 91 /\ c <> 93 /\ c <> 44.
Proof.
  intros (H & P & _). destruct t as [|c u]; [discriminate|]. exists c, u. split; auto.
  unfold int_prefix in H. destruct ((c =? 45) || (c =? 43)) eqn:E.
  - apply orb_true_iff in E. destruct E as [E|E]; apply Z.eqb_eq in E; subst; repeat split; auto; lia.
  - apply span_digits_all in H. destruct H as [_ F]. inversion F; subst. split; [now apply digit_not_cws|].
    unfold digit in H1. apply andb_true_iff in H1. lia.
Qed.
Lemma read_tok2 t v r : int_tok t v -> stop r -> r <> [] -> read_int (open (t ++ r)) = (v, mkS r false false).
Proof.
  intros Ht Hr Hn. unfold read_int. change (FsaTextModel.good (open (t ++ r))) with true. cbv iota.
  change (s_rest (open (t ++ r))) with (t ++ r).
  destruct (int_tok_char _ _ Ht) as (c & u & -> & Hc & _).
  rewrite <- app_comm_cons, skip_ws_id by auto. rewrite app_comm_cons.
  destruct ((c :: u) ++ r) eqn:E; [discriminate|]. rewrite <- E.
  rewrite (int_tok_prefix2 _ _ _ Ht Hr). destruct Ht as (_ & -> & ->). destruct r; [congruence|]. reflexivity.
Qed.
Lemma skip_ws_len s : (length (skip_ws s) <= length s)%nat.
Proof. induction s as [|c s IH]; cbn [skip_ws length]; auto. destruct (cws c); cbn [length]; lia. Qed.

(** white space and commas are skipped *)
Lemma loop_gap w : gap w -> forall s fuel cur rss elems, (length (w ++ s) < fuel)%nat ->
  exists fuel', (length s < fuel')%nat /\ rag_loop fuel (skip_ws (w ++ s)) cur rss elems = rag_loop fuel' (skip_ws s) cur rss elems.
Proof.
  induction 1 as [|c w Hc Hw IH]; intros s fuel cur rss elems Hf; [now exists fuel|].
  cbn [app length] in Hf. destruct (cws c) eqn:E.
  - cbn [app skip_ws]. rewrite E. apply IH. lia.
  - destruct Hc as [Hc| ->]; [congruence|]. cbn [app]. rewrite skip_ws_id by reflexivity.
    destruct fuel as [|fuel]; [lia|]. cbn [rag_loop]. change (44 =? 91) with false. change (44 =? 93) with false. change (44 =? 44) with true. cbv iota.
    apply IH. lia.
Qed.

Lemma spells_in_ne l s : spells_in l s -> s <> [].
Proof.
  assert (G : (forall v t, spells v t -> True) /\ (forall l s, spells_in l s -> s <> [])); [|exact (proj2 G l s)].
  apply spells_mut; auto.
  - intros w _ K. apply app_eq_nil in K as (_ & K). discriminate.
  - intros w v t l0 s0 _ _ _ _ H _ K. apply app_eq_nil in K as (_ & K). apply app_eq_nil in K. tauto.
Qed.

Definition outcome (fuel' : nat) (cur : Z) rss elems (r : str) :=
  if cur =? 0 then Some (rss, elems, r) else rag_loop fuel' (skip_ws r) cur rss elems.
Notation St rss elems := (mk_fl 0 rss elems).

Lemma loop_spells :
  (forall v t, spells v t -> forall m pre y D rss elems r fuel, unif (S m) v -> 1 <= zlen pre + Z.of_nat m ->
     rep pre D (S m) y (St rss elems) -> (length (t ++ r) < fuel)%nat ->
     exists fuel' rss' elems' D', (length r < fuel')%nat /\ rep pre D' (S m) (y ++ [v]) (St rss' elems') /\ (1 <= D')%nat /\
       rag_loop fuel (t ++ r) (zlen pre) rss elems = outcome fuel' (zlen pre) rss' elems' r) /\
  (forall l s, spells_in l s -> forall m pre y D rss elems r fuel done, Forall (unif (S m)) y -> Forall (unif m) (done ++ l) -> 1 <= zlen pre + Z.of_nat m ->
     rss = (pre ++ [splits_of (map kids y)]) ++ firstn D (rows m (concat (map kids y) ++ done)) ->
     trim D m (concat (map kids y) ++ done) -> elems = vals m (concat (map kids y) ++ done) -> (length (s ++ r) < fuel)%nat ->
     exists fuel' rss' elems' D', (length r < fuel')%nat /\ rep pre D' (S m) (y ++ [PList (done ++ l)]) (St rss' elems') /\ (1 <= D')%nat /\
       rag_loop fuel (skip_ws (s ++ r)) (zlen pre + 1) rss elems = outcome fuel' (zlen pre) rss' elems' r).
Proof.
  apply spells_mut.
  - intros t v _ m pre y D rss elems r fuel H. destruct H.
  - intros l s _ IH m pre y D rss elems r fuel Hv Hm (R1 & R2 & R3 & R4) Hf. cbn [fl_rss fl_elems] in R1, R3.
    pose proof (zlen_nonneg pre) as P0.
    assert (Rs : exists D1, (1 <= D1)%nat /\ trim D1 (S m) y /\
       rss ++ repeat [0] (Z.to_nat (zlen pre + 1 - zlen rss)) = pre ++ firstn D1 (rows (S m) y)).
    { rewrite R1. destruct D as [|D].
      - exists 1%nat. destruct (trim_up 0 (S m) y R2) as (T1 & T2); [lia|]. split; [lia|]. split; [exact T1|].
        rewrite T2. simpl firstn. rewrite app_nil_r. replace (Z.to_nat _) with 1%nat by lia. reflexivity.
      - exists (S D). split; [lia|]. split; [exact R2|].
        replace (Z.to_nat _) with 0%nat; [now rewrite app_nil_r|]. rewrite zlen_app. simpl. rewrite zlen_cons.
        pose proof (zlen_nonneg (firstn D (rows m (concat (map kids y))))). lia. }
    destruct Rs as (D1 & Rd & Rt & Rr). destruct D1 as [|D1]; [lia|].
    cbn [app length] in Hf. destruct fuel as [|fuel]; [lia|]. cbn [app rag_loop]. change (91 =? 91) with true. cbv iota.
    assert (C : negb ((zlen rss <? zlen pre + 1) && negb (is_nil elems)) = true).
    { destruct (Z.ltb_spec (zlen rss) (zlen pre + 1)) as [L|L]; [|reflexivity]. destruct D as [|D].
      - rewrite R3. rewrite (trim_0 _ _ R2), vals_nil. reflexivity.
      - exfalso. rewrite R1, zlen_app in L. simpl in L. rewrite zlen_cons in L.
        pose proof (zlen_nonneg (firstn D (rows m (concat (map kids y))))). lia. }
    rewrite C, Rr. apply trim_S in Rt.
    destruct (IH m pre y D1 (pre ++ firstn (S D1) (rows (S m) y)) elems r fuel []) as (fuel' & rss' & elems' & D' & Q); auto.
    + simpl. rewrite app_nil_r. now rewrite <- app_assoc.
    + now rewrite app_nil_r.
    + rewrite app_nil_r. exact R3.
    + lia.
    + exists fuel', rss', elems', D'. exact Q.
  - intros w Hw m pre y D rss elems r fuel done Hy Hd Hm E1 HT E2 Hf. rewrite app_nil_r in *.
    rewrite <- app_assoc in Hf |- *. destruct (loop_gap w Hw _ _ (zlen pre + 1) rss elems Hf) as (f1 & F1 & ->). cbn [app length] in *.
    rewrite skip_ws_id by reflexivity. destruct f1 as [|f1]; [lia|]. cbn [rag_loop]. change (93 =? 91) with false. change (93 =? 93) with true. cbv iota.
    pose proof (zlen_nonneg pre) as P0. replace (zlen pre + 1 - 1 <? 0) with false by lia. cbn [negb].
    replace (zlen pre + 1 - 1) with (zlen pre) by lia.
    destruct (finish_ok m pre y done D (St rss elems) E1 HT E2 Hy Hd) as (st' & G1 & G2 & G3). cbn [fl_rss fl_elems fl_deepest] in G1.
    destruct (if zlen pre + 1 >=? zlen rss then Some (zlen elems) else r0 <- rd rss (zlen pre + 1);; Some (zlen r0 - 1)) as [n|]; [|discriminate].
    destruct (push_at rss (zlen pre) n) as [rss'|]; [|discriminate]. injection G1 as <-.
    exists f1, rss', elems, (S D). split; [lia|]. split; [exact G3|]. split; [lia|]. reflexivity.
  - intros w v t l s Hw Hv IHv Hl IHl Hs m pre y D rss elems r fuel done Hy Hd Hm E1 HT E2 Hf.
    rewrite <- !app_assoc in Hf |- *. destruct (loop_gap w Hw _ _ (zlen pre + 1) rss elems Hf) as (f1 & F1 & ->).
    assert (Uv : unif m v) by (rewrite Forall_forall in Hd; apply Hd; apply in_app_iff; right; now left).
    assert (Hd' : Forall (unif m) ((done ++ [v]) ++ l)) by now rewrite <- app_assoc.
    pose proof (zlen_nonneg pre) as P0.
    assert (Kd : Forall (unif m) (concat (map kids y) ++ done)).
    { apply Forall_app; split; [now apply unif_kids|]. apply Forall_app in Hd. tauto. }
    destruct m as [|m].
    + destruct v as [x|lx]; [|destruct Uv]. inversion Hv as [t0 v0 Ht|]; subst.
      destruct (int_tok_char _ _ Ht) as (c & u & -> & W & N1 & N2 & N3). 
      pose proof (spells_in_ne _ _ Hl) as Ne.
      assert (Sn : s ++ r <> []) by (intros K; apply app_eq_nil in K; tauto).
      assert (St : stop (s ++ r)) by (destruct s; [congruence|exact Hs]).
      cbn [app]. rewrite skip_ws_id by exact W. destruct f1 as [|f1]; [lia|]. cbn [rag_loop].
      replace (c =? 91) with false by lia. replace (c =? 93) with false by lia. replace (c =? 44) with false by lia.
      change (c :: u ++ s ++ r) with ((c :: u) ++ s ++ r). rewrite (read_tok2 _ _ _ Ht St Sn).
      change (negb (FsaTextModel.good (mkS (s ++ r) false false))) with false. cbn [orb s_rest].
      assert (D = 0%nat) by (destruct HT; lia). subst D. cbn [firstn rows]. rewrite !app_nil_r.
      rewrite zlen_app. change (zlen [_]) with 1. rewrite Z.eqb_refl. replace (zlen pre + 1 <? 2) with false by lia. cbn [negb orb].
      destruct (IHl 0%nat pre y 0%nat (pre ++ [splits_of (map kids y)]) (vals 0 (concat (map kids y) ++ done) ++ [x]) r f1 (done ++ [PElem x])) as (fuel' & rss' & elems' & D' & Q); auto.
      * cbn [firstn]. now rewrite app_nil_r.
      * rewrite app_assoc, (vals_app 0 (concat (map kids y) ++ done) [PElem x]). reflexivity.
      * cbn [app length] in F1. rewrite app_length in F1. lia.
      * rewrite <- app_assoc in Q. exists fuel', rss', elems', D'. exact Q.
    + assert (Ws : skip_ws (t ++ s ++ r) = t ++ s ++ r).
      { destruct v as [x|lx]; [destruct Uv|]. inversion Hv; subst. reflexivity. }
      rewrite Ws.
      destruct (IHv m (pre ++ [splits_of (map kids y)]) (concat (map kids y) ++ done) D rss elems (s ++ r) f1 Uv) as (f2 & rss1 & elems1 & D1 & F2 & R & HD & EQ).
      * rewrite zlen_app. change (zlen [_]) with 1. lia.
      * split; [exact E1|]. split; [exact HT|]. split; [exact E2|exact Kd].
      * exact F1.
      * rewrite zlen_app in EQ. change (zlen [_]) with 1 in EQ. rewrite EQ. unfold outcome at 1. replace (zlen pre + 1 =? 0) with false by lia.
        destruct R as (R1 & R2 & R3 & R4). cbn [fl_rss fl_elems] in R1, R3. rewrite <- (app_assoc (concat (map kids y)) done [v]) in R1, R2, R3.
        destruct (IHl (S m) pre y D1 rss1 elems1 r f2 (done ++ [v])) as (fuel' & rss' & elems' & D' & Q); auto.
        rewrite <- app_assoc in Q. exists fuel', rss', elems', D'. exact Q.
Qed.

(** what the constructor returns *)
Lemma text_ok m data s w r : Forall (unif (S m)) data -> spells (PList data) s -> gap w ->
  exists D, trim D (S m) data /\
    ragged_of_text (w ++ s ++ r) = (check (is_nil (skip_ws r));; Some (match firstn D (rows (S m) data) with [] => [[0]] | q => q end, vals (S m) data)).
Proof.
  intros HU Hs Hw. unfold ragged_of_text.
  destruct (loop_gap w Hw (s ++ r) (S (length (w ++ s ++ r))) 0 [] [] ltac:(lia)) as (f0 & F0 & ->).
  assert (Ws : skip_ws (s ++ r) = s ++ r) by (inversion Hs; subst; reflexivity). rewrite Ws.
  assert (R0 : rep [] 0 (S (S m)) [] (mk_fl 0 [] (@nil Z))).
  { split; [reflexivity|]. split; [|split; [cbn [fl_elems]; symmetry; apply vals_nil|constructor]].
    split; [lia|]. simpl. rewrite rows_nil. reflexivity. }
  destruct (proj1 loop_spells _ _ Hs (S m) [] [] 0%nat [] [] r f0) as (f & rss & elems & D & F1 & (R1 & R2 & R3 & R4) & HD & E); auto.
  - change (zlen (@nil (list Z))) with 0. lia.
  - change (zlen (@nil (list Z))) with 0 in E. rewrite E. unfold outcome. change (0 =? 0) with true. cbv iota.
    cbn [fl_rss fl_elems app] in R1, R3. destruct D as [|D]; [lia|]. apply trim_S in R2. cbn [map concat kids app] in R2. rewrite app_nil_r in R2.
    assert (E1 : rss = splits_of [data] :: firstn D (rows (S m) data)).
    { rewrite R1. cbn [rows]. cbn [map kids concat]. rewrite app_nil_r. reflexivity. }
    assert (E2 : elems = vals (S m) data). { rewrite R3. cbn [vals map kids concat]. rewrite app_nil_r. reflexivity. }
    exists D. split; [exact R2|]. rewrite E1, E2. cbn [hd_error tl]. rewrite zlen_splits_of. change (zlen [data] + 1 =? 2) with true. cbv iota.
    assert (EL : (zlen (vals (S m) data) =? last (last (match firstn D (rows (S m) data) with [] => [[0]] | q => q end) [0]) 0) = true).
    { apply Z.eqb_eq. destruct D as [|D].
      - rewrite (trim_0 _ _ R2), vals_nil. reflexivity.
      - symmetry. rewrite <- (last_rows (S D) (S m) data R2 HU) by lia. reflexivity. }
    rewrite EL. reflexivity.
Qed.

(** ** Only such texts are read *)
Definition ok (N k : Z) (v : pyval Z) : Prop := unif (Z.to_nat k) v /\ (k = 0 -> 2 <= N).
(** s closes n open lists, and r is what is left *)
Fixpoint closes (N : Z) (n : nat) (k : Z) (s r : str) : Prop :=
  match n with
  | O => s = r
  | S n' => exists l t s', s = t ++ s' /\ spells_in l t /\ Forall (ok N k) l /\ closes N n' (k + 1) s' r
  end.
Lemma gap_before l s w : gap w -> spells_in l s -> spells_in l (w ++ s).
Proof.
  intros Hw H. inversion H; subst; rewrite app_assoc; constructor; auto; apply Forall_app; auto.
Qed.
Lemma closes_gap N n k s r w : gap w -> closes N (S n) k s r -> closes N (S n) k (w ++ s) r.
Proof.
  intros Hw (l & t & s' & -> & H1 & H2). exists l, (w ++ t), s'. split; [apply app_assoc|]. split; [now apply gap_before|exact H2].
Qed.
Lemma skip_ws_split s : exists w, blank w /\ s = w ++ skip_ws s.
Proof.
  induction s as [|c s (w & H1 & H2)]; [exists []; split; [constructor|reflexivity]|]. cbn [skip_ws]. destruct (cws c) eqn:E.
  - exists (c :: w). split; [now constructor|]. cbn. now f_equal.
  - exists []. split; [constructor|reflexivity].
Qed.
Lemma blank_gap w : blank w -> gap w.
Proof. intros H. eapply Forall_impl; [|exact H]. now left. Qed.
Lemma push_at_len rss k n rss' : push_at rss k n = Some rss' -> zlen rss' = zlen rss.
Proof.
  unfold push_at. destruct (rd rss k) as [r|] eqn:E; [|discriminate]. pose proof (rd_Some_bound _ _ _ E) as B.
  destruct (wr_Some rss k (r ++ [n]) B) as (l' & -> & L & _). intros H. injection H as <-. exact L.
Qed.
Lemma span_digits_split s : s = fst (span_digits s) ++ snd (span_digits s) /\ Forall (fun c => digit c = true) (fst (span_digits s)) /\ stop (snd (span_digits s)).
Proof.
  induction s as [|c s (H1 & H2 & H3)]; [split; [reflexivity|split; [constructor|exact I]]|]. cbn [span_digits].
  destruct (digit c) eqn:E; [|split; [reflexivity|split; [constructor|exact E]]].
  destruct (span_digits s) as [a b]. cbn [fst snd] in *. split; [cbn; now f_equal|]. split; [now constructor|exact H3].
Qed.
Lemma int_prefix_split s : s = fst (int_prefix s) ++ snd (int_prefix s) /\ stop (snd (int_prefix s)) /\ int_prefix (fst (int_prefix s)) = (fst (int_prefix s), []).
Proof.
  destruct s as [|c s]; [split; [reflexivity|split; [exact I|reflexivity]]|]. cbn [int_prefix].
  destruct ((c =? 45) || (c =? 43)) eqn:E.
  - pose proof (span_digits_split s) as (H1 & H2 & H3). destruct (span_digits s) as [a b]. cbn [fst snd] in *.
    split; [cbn; now f_equal|]. split; [exact H3|]. cbn [int_prefix]. rewrite E. rewrite <- (app_nil_r a) at 1. rewrite span_digits_app by (auto; exact I). reflexivity.
  - pose proof (span_digits_split (c :: s)) as (H1 & H2 & H3). destruct (span_digits (c :: s)) as [a b] eqn:Es. cbn [fst snd] in *.
    split; [exact H1|]. split; [exact H3|]. destruct a as [|c' a]; [reflexivity|]. cbn [app] in H1. injection H1 as <- _.
    cbn [int_prefix]. rewrite E. rewrite <- (app_nil_r (c :: a)) at 1. apply span_digits_app; [exact H2|exact I].
Qed.
Lemma read_int_inv s v st : (exists c u, s = c :: u /\ cws c = false) -> read_int (open s) = (v, st) -> FsaTextModel.good st = true ->
  exists t, int_tok t v /\ s = t ++ s_rest st /\ stop (s_rest st).
Proof.
  intros (c & u & Es & Hc) H G. unfold read_int in H. change (FsaTextModel.good (open s)) with true in H. cbv iota in H.
  change (s_rest (open s)) with s in H. rewrite Es, skip_ws_id in H by exact Hc. cbv iota beta in H. rewrite <- Es in H.
  pose proof (int_prefix_split s) as (P1 & P2 & P3). destruct (int_prefix s) as [t r2] eqn:Ep. cbn [fst snd] in *.
  destruct (parse_int t) as [z|] eqn:Et; [|injection H as <- <-; unfold FsaTextModel.good in G; cbn in G; rewrite andb_false_r in G; discriminate].
  destruct (in32 z) eqn:E3; [|injection H as <- <-; unfold FsaTextModel.good in G; cbn in G; rewrite andb_false_r in G; discriminate].
  injection H as <- <-. exists t. split; [split; [exact P3|split; [exact Et|exact E3]]|]. split; [exact P1|exact P2].
Qed.
Lemma loop_sound fuel : forall s n rss elems rss' elems' r, rag_loop fuel (skip_ws s) (Z.of_nat n) rss elems = Some (rss', elems', r) ->
  Z.of_nat n <= zlen rss ->
  zlen rss <= zlen rss' /\ (elems <> [] -> zlen rss' = zlen rss) /\
  match n with
  | O => exists w t l, gap w /\ s = w ++ t ++ r /\ spells (PList l) t /\ 1 <= zlen rss' /\ Forall (ok (zlen rss') (zlen rss' - 1)) l
  | S _ => closes (zlen rss') n (zlen rss' - Z.of_nat n) s r
  end.
Proof.
  induction fuel as [|fuel IH]; intros s n rss elems rss' elems' r H Hn; [discriminate|]. cbn [rag_loop] in H.
  destruct (skip_ws_split s) as (w & Hw & Es). apply blank_gap in Hw.
  destruct (skip_ws s) as [|c u] eqn:Ec; [discriminate|].
  assert (Hc : cws c = false).
  { clear - Ec. revert c u Ec. induction s as [|d s IHs]; intros c u Ec; cbn [skip_ws] in Ec; [discriminate|]. destruct (cws d) eqn:E; [eauto|congruence]. }
  destruct (c =? 91) eqn:C1.
  - apply Z.eqb_eq in C1. subst c. destruct (negb ((zlen rss <? Z.of_nat n + 1) && negb (is_nil elems))) eqn:Ck; [|discriminate].
    replace (Z.of_nat n + 1) with (Z.of_nat (S n)) in * by lia.
    destruct (IH _ _ _ _ _ _ _ H) as (I1 & I2 & (l & t & s' & Eu & Hl & Fl & Cl)).
    { rewrite zlen_app, zlen_repeat. lia. }
    rewrite zlen_app, zlen_repeat in I1, I2. split; [lia|]. split.
    { intros Hne. specialize (I2 Hne). destruct elems as [|e elems]; [congruence|]. cbn [is_nil negb] in Ck. rewrite andb_true_r in Ck. lia. }
    assert (OkL : ok (zlen rss') (zlen rss' - Z.of_nat n) (PList l)).
    { split; [|lia]. replace (Z.to_nat (zlen rss' - Z.of_nat n)) with (S (Z.to_nat (zlen rss' - Z.of_nat (S n)))) by lia. cbn [unif].
      eapply Forall_impl; [|exact Fl]. intros v (K & _). exact K. }
    destruct n as [|n].
    + cbn [closes] in Cl. subst s'. exists w, (91 :: t), l. split; [exact Hw|]. split; [rewrite Es; cbn [app]; now rewrite Eu|]. split; [now constructor|]. split; [lia|]. exact Fl.
    + destruct Cl as (l1 & t1 & s1 & E1 & Hl1 & Fl1 & Cl). exists (PList l :: l1), (w ++ (91 :: t) ++ t1), s1. split.
      * rewrite Es, Eu, E1. rewrite <- !app_assoc. reflexivity.
      * split; [apply in_item; auto; [now constructor|exact I]|]. 
        replace (zlen rss' - Z.of_nat (S (S n)) + 1) with (zlen rss' - Z.of_nat (S n)) in * by lia. split; [constructor; auto|exact Cl].
  - destruct (c =? 93) eqn:C2.
    + apply Z.eqb_eq in C2. subst c. destruct (negb (Z.of_nat n - 1 <? 0)) eqn:Ck; [|discriminate].
      destruct n as [|n]; [discriminate|].
      destruct (if Z.of_nat (S n) - 1 + 1 >=? zlen rss then Some (zlen elems) else r0 <- rd rss (Z.of_nat (S n) - 1 + 1);; Some (zlen r0 - 1)) as [q|]; [|discriminate].
      destruct (push_at rss (Z.of_nat (S n) - 1) q) as [rss1|] eqn:Ep; [|discriminate]. apply push_at_len in Ep.
      replace (Z.of_nat (S n) - 1) with (Z.of_nat n) in H by lia. destruct (Z.of_nat n =? 0) eqn:E0.
      * injection H as <- <- <-. assert (n = 0%nat) by lia. subst n. split; [lia|]. split; [auto|].
        exists [], (w ++ [93]), u. split; [rewrite Es, <- app_assoc; reflexivity|]. split; [now constructor|]. split; [constructor|reflexivity].
      * destruct (IH _ _ _ _ _ _ _ H) as (I1 & I2 & I3); [lia|]. rewrite Ep in I1, I2. split; [exact I1|]. split; [exact I2|].
        destruct n as [|n]; [lia|]. exists [], (w ++ [93]), u. split; [rewrite Es, <- app_assoc; reflexivity|]. split; [now constructor|]. split; [constructor|].
        replace (zlen rss' - Z.of_nat (S (S n)) + 1) with (zlen rss' - Z.of_nat (S n)) by lia. exact I3.
    + destruct (c =? 44) eqn:C3.
      * apply Z.eqb_eq in C3. subst c. destruct (IH _ _ _ _ _ _ _ H Hn) as (I1 & I2 & I3). split; [exact I1|]. split; [exact I2|].
        assert (G2 : gap (w ++ [44])) by (apply Forall_app; split; [exact Hw|constructor; [now right|constructor]]).
        assert (E' : s = (w ++ [44]) ++ u) by (rewrite Es, <- app_assoc; reflexivity). rewrite E'. clear Es E'. destruct n as [|n].
        -- destruct I3 as (w' & t & l & K1 & K2 & K3). exists ((w ++ [44]) ++ w'), t, l. split; [now apply Forall_app|]. split; [rewrite K2; rewrite <- !app_assoc; reflexivity|exact K3].
        -- now apply closes_gap.
      * destruct (read_int (open (c :: u))) as [v st] eqn:Er.
        destruct (negb (FsaTextModel.good st) || negb (Z.of_nat n =? zlen rss) || (Z.of_nat n <? 2)) eqn:Ck; [discriminate|].
        apply orb_false_iff in Ck as (Ck & Ck3). apply orb_false_iff in Ck as (Ck1 & Ck2). apply negb_false_iff in Ck1, Ck2.
        destruct (read_int_inv (c :: u) v st) as (t & T1 & T2 & T3); eauto.
        destruct (IH _ _ _ _ _ _ _ H Hn) as (I1 & I2 & I3). assert (Ne : elems ++ [v] <> []) by (destruct elems; discriminate). specialize (I2 Ne).
        split; [exact I1|]. split; [auto|]. destruct n as [|n]; [lia|].
        destruct I3 as (l1 & t1 & s1 & E1 & Hl1 & Fl1 & Cl). exists (PElem v :: l1), (w ++ t ++ t1), s1. split.
        { rewrite Es, T2, E1. rewrite <- !app_assoc. reflexivity. }
        split.
        { apply in_item; auto; [now constructor|]. cbn [ends]. rewrite E1 in T3. pose proof (spells_in_ne _ _ Hl1). destruct t1; [congruence|exact T3]. }
        split; [|exact Cl]. constructor; [|exact Fl1]. split; [|lia]. replace (Z.to_nat (zlen rss' - Z.of_nat (S n))) with 0%nat by lia. exact I.
Qed.
