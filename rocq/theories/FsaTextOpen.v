(** * C54: reading FSAs in OpenFst text format. *)
From Coq Require Import ZArith List Lia Bool.
From Verif Require Import Base RaggedModel RaggedSpec FsaSpec FsaLemmas FstSpec PyBase RaggedOpsProofs RaggedListProofs
  FsaTextModel FsaTextSpec FsaTextProofs FsaTextK2 FsaTextProps.
Import ListNotations.
Open Scope Z_scope.

(** ** Fields *)
Lemma span_word_spec s t r : span_word s = (t, r) -> s = t ++ r /\ Forall (fun c => cws c = false) t /\ sep_end r.
Proof.
  revert t r. induction s as [|c s IH]; intros t r H; cbn [span_word] in H.
  - injection H as <- <-. simpl. auto.
  - destruct (cws c) eqn:E; [injection H as <- <-; simpl; auto|].
    destruct (span_word s) as [a b]. injection H as <- <-. destruct (IH a b eq_refl) as (-> & F & S). auto.
Qed.

Lemma span_word_app t r : Forall (fun c => cws c = false) t -> sep_end r -> span_word (t ++ r) = (t, r).
Proof.
  induction 1 as [|c t H F IH]; intros Hr; cbn [app span_word].
  - destruct r as [|c r]; auto. cbn [span_word]. cbn [sep_end] in Hr. now rewrite Hr.
  - rewrite H, IH by auto. reflexivity.
Qed.

Lemma fields_at_cur s : forall cur, cur <> [] ->
  fields_at cur s = (rev cur ++ fst (span_word s)) :: fields (snd (span_word s)).
Proof.
  induction s as [|c s IH]; intros cur H; cbn [fields_at span_word].
  - rewrite app_nil_r. destruct cur; [congruence|reflexivity].
  - destruct (cws c) eqn:E.
    + cbn [fst snd]. rewrite app_nil_r. unfold fields. cbn [fields_at]. rewrite E. destruct cur; [congruence|reflexivity].
    + rewrite IH by discriminate. destruct (span_word s) as [a b]. cbn [fst snd rev]. now rewrite <- app_assoc.
Qed.

Lemma fields_nil s : fields s = [] -> Forall (fun c => cws c = true) s.
Proof.
  unfold fields. induction s as [|c s IH]; intros H; [constructor|]. cbn [fields_at] in H.
  destruct (cws c) eqn:E; [constructor; auto|]. rewrite fields_at_cur in H by discriminate. discriminate.
Qed.

Lemma fields_cons s t ts : fields s = t :: ts ->
  exists w r, s = w ++ t ++ r /\ Forall (fun c => cws c = true) w /\ Forall (fun c => cws c = false) t /\
    t <> [] /\ sep_end r /\ fields r = ts.
Proof.
  unfold fields at 1. induction s as [|c s IH]; intros H; [discriminate|]. cbn [fields_at] in H.
  destruct (cws c) eqn:E.
  - destruct (IH H) as (w & r & -> & Hw & Ht & Hn & Hr & Hf). exists (c :: w), r. repeat split; auto.
  - rewrite fields_at_cur in H by discriminate. injection H as H1 H2. subst t.
    destruct (span_word s) as [a b] eqn:Es. cbn [fst snd rev app] in *. apply span_word_spec in Es. destruct Es as (-> & F & S).
    exists [], b. repeat split; auto; discriminate.
Qed.

Lemma all_ws_skip s : Forall (fun c => cws c = true) s -> skip_ws s = [].
Proof. intros H. rewrite <- (app_nil_r s), skip_ws_app by auto. reflexivity. Qed.

(** ** Reading fields *)
Lemma not_good_read s : good s = false -> good (snd (read_int s)) = false.
Proof. intros H. unfold read_int. rewrite H. cbn [snd]. unfold good. cbn [s_eof s_fail]. apply andb_false_r. Qed.

Lemma read_int_blank s : Forall (fun c => cws c = true) s -> read_int (open s) = (0, mkS [] true true).
Proof. intros H. unfold read_int. change (good (open s)) with true. cbv iota. cbn [open s_rest]. now rewrite all_ws_skip. Qed.

Lemma int_prefix_app t r : t <> [] -> sep_end r -> int_prefix (t ++ r) = (fst (int_prefix t), snd (int_prefix t) ++ r).
Proof.
  intros Hn Hr.
  assert (Hd : match r with c :: _ => digit c = false | [] => True end) by (destruct r as [|c r]; auto; now apply cws_not_digit).
  assert (S : forall u, span_digits (u ++ r) = (fst (span_digits u), snd (span_digits u) ++ r)).
  { induction u as [|c u IH]; cbn [app span_digits].
    - destruct r as [|c r]; auto. cbn [span_digits]. now rewrite Hd.
    - destruct (digit c); auto. rewrite IH. destruct (span_digits u); reflexivity. }
  destruct t as [|c t]; [congruence|]. unfold int_prefix. rewrite <- app_comm_cons.
  destruct ((c =? 45) || (c =? 43)).
  - rewrite S. destruct (span_digits t); reflexivity.
  - rewrite app_comm_cons. apply S.
Qed.

Lemma int_prefix_rest t : match snd (int_prefix t) with c :: _ => digit c = false | [] => True end.
Proof.
  assert (S : forall u, match snd (span_digits u) with c :: _ => digit c = false | [] => True end).
  { induction u as [|c u IH]; simpl; auto. destruct (digit c) eqn:E; [|exact E]. destruct (span_digits u). exact IH. }
  destruct t as [|c t]; [exact I|]. unfold int_prefix. destruct ((c =? 45) || (c =? 43)); [|apply S].
  specialize (S t). destruct (span_digits t). exact S.
Qed.

Lemma int_prefix_parts t : t = fst (int_prefix t) ++ snd (int_prefix t).
Proof.
  assert (S : forall u, u = fst (span_digits u) ++ snd (span_digits u)).
  { induction u as [|c u IH]; simpl; auto. destruct (digit c); auto. destruct (span_digits u). simpl in *. congruence. }
  destruct t as [|c t]; [reflexivity|]. unfold int_prefix. destruct ((c =? 45) || (c =? 43)); [|apply S].
  specialize (S t). destruct (span_digits t). simpl in *. congruence.
Qed.

Section Open.
  Variable wsf : bool.
  Variable fl : str -> option Z * str.
  Notation process_line := (process_line wsf fl).
  Notation process_final := (process_final wsf fl).

  Lemma eof_after s : ws_unless_eof wsf (mkS s (is_nil s) false) =
                      if is_nil s then mkS s true false else ws wsf (open s).
  Proof. unfold ws_unless_eof. cbn [s_eof]. destruct s; reflexivity. Qed.

  (** a line with at most two fields, the second one no integer with something
      behind it, leaves the stream of the three integers broken *)
  Lemma three_ints_final s tq q tc : int_tok tq q -> (tc = [] \/ exists t, tc = [t] /\ plain_float t \/ tc = [[73; 110; 102]]) ->
    fields s = tq :: tc ->
    good (snd (read_int (snd (read_int (snd (read_int (open s))))))) = false.
  Proof.
    intros Hq Hc Hf. apply fields_cons in Hf. destruct Hf as (w & r & -> & Hw & _ & _ & Hr & Hf).
    rewrite (read_int_tok w tq q r) by auto. cbn [snd].
    destruct r as [|c0 r0] eqn:Er; [now apply not_good_read, not_good_read|]. rewrite <- Er in *.
    replace (is_nil r) with false by (rewrite Er; reflexivity). change (mkS r false false) with (open r).
    assert (H : tc = [] \/ exists t, tc = [t] /\ match snd (int_prefix t) with c :: _ => c <> 45 /\ c <> 43 | [] => True end).
    { destruct Hc as [->|(t & [(-> & Ht & _)| ->])]; [now left|right; eauto|right]. exists [73; 110; 102]. split; [reflexivity|]. change (73 <> 45 /\ 73 <> 43). lia. }
    clear Hc. destruct H as [->|(t & -> & Ht)].
    - apply fields_nil in Hf. rewrite (read_int_blank r Hf). now apply not_good_read.
    - apply fields_cons in Hf. destruct Hf as (w1 & r1 & E1 & Hw1 & Hn1 & Hne & Hr1 & Hf). apply fields_nil in Hf.
      assert (B : exists v f e, read_int (open r) = (v, mkS (snd (int_prefix t) ++ r1) e f) /\ e = is_nil (snd (int_prefix t) ++ r1)).
      { unfold read_int. change (good (open r)) with true. cbv iota. cbn [open s_rest]. rewrite E1, skip_ws_app by auto.
        destruct t as [|c t]; [congruence|]. inversion Hn1; subst. rewrite <- app_comm_cons, skip_ws_id by auto. rewrite app_comm_cons.
        destruct ((c :: t) ++ r1) eqn:E; [discriminate|]. rewrite <- E. rewrite int_prefix_app by auto.
        destruct (parse_int (fst (int_prefix (c :: t)))) as [v|]; [destruct (in32 v)|]; eauto 8. }
      destruct B as (v & f & e & -> & ->). cbn [snd].
      destruct f; [apply not_good_read; unfold good; cbn [s_eof s_fail]; apply andb_false_r|].
      destruct (snd (int_prefix t) ++ r1) as [|c2 r2] eqn:E2; [now apply not_good_read|]. rewrite <- E2.
      replace (is_nil (snd (int_prefix t) ++ r1)) with false by (rewrite E2; reflexivity).
      change (mkS (snd (int_prefix t) ++ r1) false false) with (open (snd (int_prefix t) ++ r1)).
      destruct (snd (int_prefix t)) as [|c b] eqn:Eb; [rewrite read_int_blank by auto; reflexivity|].
      pose proof (int_prefix_rest t) as Hd. rewrite Eb in Hd.
      assert (Hw2 : cws c = false).
      { rewrite Forall_forall in Hn1. apply Hn1. rewrite (int_prefix_parts t), Eb. apply in_app_iff. right. now left. }
      unfold read_int. change (good (open ((c :: b) ++ r1))) with true. cbv iota. cbn [open s_rest].
      rewrite <- app_comm_cons, skip_ws_id by auto. unfold int_prefix.
      replace (c =? 45) with false by lia. replace (c =? 43) with false by lia. cbn [orb span_digits]. rewrite Hd. reflexivity.
  Qed.

  Definition apply_line (o : oline) (r : reader) : option reader :=
    match o with
    | OBlank => Some r
    | OArc a auxs => add_arc (mkArc (src a) (dst a) (lab a) (- sc a), auxs) r
    | OFinal q c =>
        let r1 := seen_state q r in
        Some (match c with
              | Some c => mkR (r_start r1) (r_max r1) (r_arcs r1) (r_finals r1 ++ [(q, - c)])
              | None => r1
              end)
    end.

  Lemma read_ints_tok tas auxs : Forall2 int_tok tas auxs -> forall r tc, fields r = tas ++ tc -> r <> [] ->
    exists r', read_ints (length auxs) (open r) = (auxs, mkS r' (is_nil r') false) /\ fields r' = tc /\
      (tas = [] -> r' = r).
  Proof.
    induction 1 as [|t v tas auxs Ht F IH]; intros r tc Hf Hr.
    - exists r. cbn [length read_ints]. split; [destruct r; [congruence|reflexivity]|auto].
    - cbn [app] in Hf. apply fields_cons in Hf. destruct Hf as (w & r1 & -> & Hw & _ & _ & Hr1 & Hf).
      cbn [length read_ints]. rewrite (read_int_tok w t v r1) by auto.
      destruct r1 as [|c1 r1'] eqn:E1.
      + destruct tas as [|t2 tas]; [|discriminate]. inversion F; subst. cbn [app] in Hf. exists []. cbn [length read_ints is_nil].
        split; [reflexivity|]. split; [exact Hf|discriminate].
      + rewrite <- E1 in *. replace (is_nil r1) with false by (rewrite E1; reflexivity). change (mkS r1 false false) with (open r1).
        destruct (IH r1 tc Hf) as (r' & -> & Hc & _); [rewrite E1; discriminate|]. exists r'. repeat split; auto. discriminate.
  Qed.

  Lemma process_line_ok na s o r : says fl s o ->
    (match o with OArc _ auxs => length auxs = na | _ => True end) ->
    process_line na s r = apply_line o r.
  Proof.
    intros H Hna. destruct o as [a auxs|q c|]; cbn [says] in H.
    - destruct H as (Hs & Hd & ts & td & tl & tas & tc & Hf & Is & Id & Il & Ia & Hc). subst na.
      apply fields_cons in Hf. destruct Hf as (w & r1 & -> & Hw & _ & _ & Hr1 & Hf1).
      unfold FsaTextModel.process_line. rewrite (read_int_tok w ts (src a) r1) by auto.
      destruct r1 as [|c1 r1'] eqn:E1; [discriminate|]. rewrite <- E1 in *. replace (is_nil r1) with false by (rewrite E1; reflexivity).
      change (mkS r1 false false) with (open r1). clear E1 c1 r1'.
      apply fields_cons in Hf1. destruct Hf1 as (w2 & r2 & -> & Hw2 & _ & _ & Hr2 & Hf2).
      rewrite (read_int_tok w2 td (dst a) r2) by auto.
      destruct r2 as [|c1 r1'] eqn:E1; [discriminate|]. rewrite <- E1 in *. replace (is_nil r2) with false by (rewrite E1; reflexivity).
      change (mkS r2 false false) with (open r2). clear E1 c1 r1'.
      apply fields_cons in Hf2. destruct Hf2 as (w3 & r3 & -> & Hw3 & Hn3 & Hne3 & Hr3 & Hf3).
      rewrite (read_int_tok w3 tl (lab a) r3) by auto.
      assert (N3 : r3 <> []).
      { intros ->. destruct Hc as [(t & -> & _)|(-> & _ & [Ht|(l & c & El & Hcw)])].
        - destruct tas; discriminate.
        - destruct tas; [congruence|discriminate].
        - rewrite app_nil_r, !app_assoc in El. destruct tl as [|cl tl'] using rev_ind; [congruence|].
          rewrite app_assoc in El. apply app_inj_tail in El. destruct El as [_ ->]. apply Forall_app in Hn3. destruct Hn3 as [_ Hn3]. inversion Hn3; subst. congruence. }
      replace (is_nil r3) with false by (destruct r3; [congruence|reflexivity]). change (mkS r3 false false) with (open r3).
      change (negb (good (open r3))) with false. cbv iota.
      destruct (read_ints_tok tas auxs Ia r3 tc Hf3 N3) as (r4 & -> & Hf4 & Hr4).
      rewrite eof_after. cbv zeta.
      assert (Q : exists s9, (let s5 := if is_nil r4 then mkS r4 true false else ws wsf (open r4) in
                   if s_eof s5 then (0, s5) else let '(v, s) := read_float fl s5 in (v, ws_unless_eof wsf s)) = (sc a, s9) /\
                   s_eof s9 = true /\ s_fail s9 = false).
      { destruct Hc as [(t & -> & Ht)|(-> & -> & _)].
        - apply fields_cons in Hf4. destruct Hf4 as (w5 & r5 & -> & Hw5 & Hn5 & Hne5 & Hr5 & Hf5).
          replace (is_nil (w5 ++ t ++ r5)) with false by (destruct w5; [destruct t; [congruence|reflexivity]|reflexivity]).
          destruct t as [|c t]; [congruence|]. assert (Hcw : cws c = false) by (now inversion Hn5).
          rewrite (ws_open wsf w5 ((c :: t) ++ r5)) by (auto; exact Hcw). cbv zeta. cbn [app is_nil s_eof].
          change (mkS (c :: t ++ r5) false false) with (open ([] ++ (c :: t) ++ r5)).
          rewrite (read_float_tok fl [] (c :: t) (sc a) r5) by auto. rewrite eof_after. apply fields_nil in Hf5.
          destruct r5 as [|c5 r5]; [eexists; split; [reflexivity|split; reflexivity]|]. cbn [is_nil].
          rewrite <- (app_nil_r (c5 :: r5)), (ws_open wsf (c5 :: r5) []) by auto. eexists; split; [reflexivity|split; reflexivity].
        - apply fields_nil in Hf4. destruct r4 as [|c4 r4]; [eexists; split; [reflexivity|split; reflexivity]|]. cbn [is_nil].
          rewrite <- (app_nil_r (c4 :: r4)), (ws_open wsf (c4 :: r4) []) by auto. cbv zeta. eexists; split; [reflexivity|split; reflexivity]. }
      destruct Q as (s9 & Q1 & Q2 & Q3). cbv zeta in Q1. rewrite Q1, Q2, Q3. cbn [negb andb].
      replace (0 <=? src a) with true by lia. replace (0 <=? dst a) with true by lia. reflexivity.
    - destruct H as (Hq & tq & Iq & H).
      assert (G : good (snd (read_int (snd (read_int (snd (read_int (open s))))))) = false).
      { destruct H as [(Hf & _)|[(tc & v & Hf & Hp & _)|(Hf & _)]].
        - apply (three_ints_final s tq q []); auto.
        - apply (three_ints_final s tq q [tc]); auto. right. exists tc. left. auto.
        - apply (three_ints_final s tq q [[73; 110; 102]]); auto. right. exists []. right. auto. }
      unfold FsaTextModel.process_line. destruct (read_int (open s)) as [x1 s1]. cbn [snd] in G.
      destruct (read_int s1) as [x2 s2]. cbn [snd] in G. destruct (read_int s2) as [x3 s3]. cbn [snd] in G. rewrite G. cbn [negb].
      unfold FsaTextModel.process_final. cbv zeta.
      assert (Hcons : exists ts, fields s = tq :: ts) by (destruct H as [(Hf & _)|[(tc & v & Hf & _)|(Hf & _)]]; rewrite Hf; eauto).
      destruct Hcons as (ts & Hts). pose proof Hts as Hts'. apply fields_cons in Hts'. destruct Hts' as (w & r1 & Es & Hw & Hn & Hne & Hr1 & Hf1).
      assert (E1 : ws wsf (open s) = open (tq ++ r1)).
      { rewrite Es. destruct tq as [|cq tq]; [congruence|]. rewrite (ws_open wsf w ((cq :: tq) ++ r1)); auto. cbn. now inversion Hn. }
      rewrite E1. cbn [s_eof open].
      pose proof (read_int_tok [] tq q r1 (Forall_nil _) Iq Hr1) as RQ. cbn [app] in RQ. unfold open in RQ. unfold open. rewrite RQ.
      destruct H as [(Hf & ->)|H].
      + rewrite Hf in Hts. injection Hts as <-. apply fields_nil in Hf1.
        assert (E3 : s_eof (ws wsf (mkS r1 (is_nil r1) false)) = true).
        { destruct r1 as [|c1 r1]; [unfold ws; cbn; now destruct wsf|]. cbn [is_nil].
          change (mkS (c1 :: r1) false false) with (open (c1 :: r1)). rewrite <- (app_nil_r (c1 :: r1)), (ws_open wsf (c1 :: r1) []) by auto. reflexivity. }
        rewrite E3. replace (0 <=? q) with true by lia. reflexivity.
      + assert (H' : exists tc, fields r1 = [tc] /\ Forall (fun c => cws c = false) tc /\ tc <> []).
        { destruct H as [(tc & v & Hf & _)|(Hf & _)]; rewrite Hf in Hts; injection Hts as <-.
          - exists tc. split; auto. apply fields_cons in Hf1. destruct Hf1 as (? & ? & _ & _ & H1 & H2 & _). auto.
          - eexists. split; [exact Hf1|]. split; [repeat constructor|discriminate]. }
        destruct H' as (tc & Hfc & Hnc & Hnec).
        apply fields_cons in Hfc. destruct Hfc as (w2 & r2 & -> & Hw2 & _ & _ & Hr2 & Hf2). apply fields_nil in Hf2.
        replace (is_nil (w2 ++ tc ++ r2)) with false by (destruct w2; [destruct tc; [congruence|reflexivity]|reflexivity]).
        change (mkS (w2 ++ tc ++ r2) false false) with (open (w2 ++ tc ++ r2)).
        destruct tc as [|cc tc]; [congruence|]. assert (Hcw : cws cc = false) by (now inversion Hnc).
        rewrite (ws_open wsf w2 ((cc :: tc) ++ r2)) by (auto; exact Hcw). cbn [app is_nil s_eof].
        change (peek (mkS (cc :: tc ++ r2) false false)) with (Some cc, open ((cc :: tc) ++ r2)). cbv iota beta.
        destruct H as [(tc' & v & Hf & (_ & _ & Hp) & Hv & ->)|(Hf & ->)].
        * rewrite Hf in Hts. injection Hts as <-.
          assert (tc' = cc :: tc) as ->.
          { apply fields_cons in Hf1. destruct Hf1 as (w4 & r4 & E4 & Hw4 & Hn4 & Hne4 & Hr4 & _).
            assert (X1 : skip_ws (w2 ++ (cc :: tc) ++ r2) = (cc :: tc) ++ r2) by (rewrite skip_ws_app by auto; now apply skip_ws_id).
            assert (X2 : skip_ws (w4 ++ tc' ++ r4) = tc' ++ r4).
            { rewrite skip_ws_app by auto. destruct tc'; [congruence|]. apply skip_ws_id. now inversion Hn4. }
            rewrite E4, X2 in X1. apply (f_equal span_word) in X1. rewrite !span_word_app in X1 by auto. now injection X1. }
          cbv beta iota in Hp.
          replace (match cc with 73 => true | _ => false end) with false.
          2:{ clear - Hp. destruct cc as [|p|p]; auto. do 7 (try destruct p as [p|p|]); auto; congruence. }
          rewrite <- (app_nil_l ((cc :: tc) ++ r2)). rewrite (read_float_tok fl [] (cc :: tc) v r2) by auto. rewrite eof_after.
          assert (E5 : (if is_nil r2 then mkS r2 true false else ws wsf (open r2)) = mkS [] true false).
          { destruct r2 as [|c2 r2]; [reflexivity|]. cbn [is_nil]. rewrite <- (app_nil_r (c2 :: r2)), (ws_open wsf (c2 :: r2) []) by auto. reflexivity. }
          rewrite E5. cbn [s_eof s_fail negb andb]. replace (0 <=? q) with true by lia. reflexivity.
        * rewrite Hf in Hts. injection Hts as <-.
          assert (cc :: tc = [73; 110; 102]) as Ecc.
          { apply fields_cons in Hf1. destruct Hf1 as (w4 & r4 & E4 & Hw4 & Hn4 & Hne4 & Hr4 & _).
            assert (X1 : skip_ws (w2 ++ (cc :: tc) ++ r2) = (cc :: tc) ++ r2) by (rewrite skip_ws_app by auto; now apply skip_ws_id).
            assert (X2 : skip_ws (w4 ++ [73; 110; 102] ++ r4) = [73; 110; 102] ++ r4) by (rewrite skip_ws_app by auto; now apply skip_ws_id).
            rewrite E4, X2 in X1. apply (f_equal span_word) in X1. rewrite !span_word_app in X1 by (auto; repeat constructor). apply (f_equal fst) in X1. cbn [fst] in X1. now rewrite X1. }
          injection Ecc as -> ->. cbv iota beta.
          assert (E5 : fst (read_word (open ([73; 110; 102] ++ r2))) = [73; 110; 102]).
          { unfold read_word. change (good (open ([73; 110; 102] ++ r2))) with true. cbv iota. cbn [open s_rest].
            change (skip_ws ([73; 110; 102] ++ r2)) with ([73; 110; 102] ++ r2). cbn [app].
            change (73 :: 110 :: 102 :: r2) with ([73; 110; 102] ++ r2) at 1. rewrite span_word_app by (auto; repeat constructor). reflexivity. }
          destruct (read_word (open ([73; 110; 102] ++ r2))) as [wd s5]. cbn [fst] in E5. subst wd.
          destruct (list_eq_dec Z.eq_dec [73; 110; 102] [73; 110; 102]); [|congruence].
          replace (0 <=? q) with true by lia. reflexivity.
    - apply fields_nil in H. unfold FsaTextModel.process_line. rewrite read_int_blank by auto. cbn [negb good].
      change (read_int (mkS [] true true)) with (0, mkS [] true true). cbv iota beta.
      change (read_int (mkS [] true true)) with (0, mkS [] true true). cbv iota beta. cbn [good s_eof s_fail negb andb].
      unfold FsaTextModel.process_final. cbv zeta. rewrite <- (app_nil_r s) at 1. rewrite (ws_open wsf s []) by auto. reflexivity.
  Qed.
End Open.

(** ** The state of the reader *)
Notation xarc := (arc * list Z)%type.
Definition xsrc (x : xarc) : Z := src (fst x).
Definition xdst (x : xarc) : Z := dst (fst x).

(** arcs grouped by source, for the states below [n] *)
Definition rows (X : list xarc) (n : Z) : list (list xarc) :=
  map (fun q => filter (fun x => xsrc x =? q) X) (zrange n).

Lemma rd_rows X n q : 0 <= q < n -> rd (rows X n) q = Some (filter (fun x => xsrc x =? q) X).
Proof. intros H. unfold rows. rewrite rd_map, rd_zrange by lia. reflexivity. Qed.

Lemma zlen_rows X n : 0 <= n -> zlen (rows X n) = n.
Proof. intros H. unfold rows. rewrite zlen_map, zlen_zrange; lia. Qed.

Lemma filter_no {A} (f : A -> bool) l : (forall x, In x l -> f x = false) -> filter f l = [].
Proof.
  induction l as [|x l IH]; intros H; auto. cbn [filter]. rewrite (H x (or_introl eq_refl)). apply IH. intros y Hy. apply H. now right.
Qed.

Lemma rows_pad X n m : 0 <= n -> n <= m -> (forall x, In x X -> xsrc x < n) ->
  rows X n ++ repeat [] (Z.to_nat (m - n)) = rows X m.
Proof.
  intros H1 H2 H. apply list_ext_rd.
  - rewrite zlen_app, zlen_repeat, !zlen_rows by lia. lia.
  - intros i B. rewrite zlen_app, zlen_repeat, zlen_rows in B by lia. rewrite (rd_rows X m) by lia.
    destruct (Z_lt_dec i n) as [L|L].
    + rewrite rd_app_l by (rewrite zlen_rows; lia). apply rd_rows. lia.
    + rewrite rd_app_r by (rewrite zlen_rows; lia). rewrite zlen_rows by lia. rewrite rd_repeat by lia.
      f_equal. symmetry. apply filter_no. intros x Hx. apply H in Hx. lia.
Qed.

Definition RS (X : list xarc) (F : list (Z * Z)) (st m : Z) : reader := mkR st m (rows X (m + 1)) F.
Definition bounded (X : list xarc) (m : Z) : Prop := forall x, In x X -> 0 <= xsrc x <= m /\ 0 <= xdst x <= m.

Lemma seen_state_RS X F st m s : -1 <= m -> 0 <= s -> bounded X m ->
  seen_state s (RS X F st m) = RS X F (if st =? -1 then s else st) (Z.max m s).
Proof.
  intros Hm Hs B. unfold seen_state, RS. cbn [r_start r_max r_arcs r_finals].
  destruct (m <? s) eqn:E.
  - rewrite zlen_rows by lia. rewrite rows_pad; try lia.
    + replace (Z.max m s) with s by lia. reflexivity.
    + intros x Hx. apply B in Hx. lia.
  - replace (Z.max m s) with m by lia. reflexivity.
Qed.

Lemma bounded_mono X m m' : m <= m' -> bounded X m -> bounded X m'.
Proof. intros H B x Hx. specialize (B x Hx). lia. Qed.

Lemma add_arc_RS X F st m x : -1 <= m -> 0 <= xsrc x -> 0 <= xdst x -> bounded X m ->
  add_arc x (RS X F st m) =
  Some (RS (X ++ [x]) F (if st =? -1 then xsrc x else st) (Z.max (Z.max m (xsrc x)) (xdst x))) /\
  bounded (X ++ [x]) (Z.max (Z.max m (xsrc x)) (xdst x)).
Proof.
  intros Hm Hs Hd B. unfold add_arc. fold (xsrc x) (xdst x).
  rewrite (seen_state_RS X F st m (xsrc x)) by auto.
  rewrite seen_state_RS; try lia; [|eapply bounded_mono; [|exact B]; lia].
  set (M := Z.max (Z.max m (xsrc x)) (xdst x)).
  replace (if (if st =? -1 then xsrc x else st) =? -1 then xdst x else (if st =? -1 then xsrc x else st))
    with (if st =? -1 then xsrc x else st).
  2:{ destruct (st =? -1) eqn:E; [|rewrite E; reflexivity]. replace (xsrc x =? -1) with false by lia. reflexivity. }
  split.
  - unfold RS at 1 2. cbn [r_start r_max r_arcs r_finals]. rewrite rd_rows by lia.
    destruct (wr_Some (rows X (M + 1)) (xsrc x) (filter (fun y => xsrc y =? xsrc x) X ++ [x])) as (l' & -> & L & R).
    { rewrite zlen_rows; lia. }
    unfold RS. cbn [r_start r_max r_arcs r_finals]. do 2 f_equal. apply list_ext_rd.
    + rewrite L, !zlen_rows; lia.
    + intros i Bi. rewrite L, zlen_rows in Bi by lia. rewrite R, !rd_rows by lia.
      rewrite filter_app. cbn [filter]. destruct (i =? xsrc x) eqn:Ei.
      * apply Z.eqb_eq in Ei. subst i. rewrite Z.eqb_refl. reflexivity.
      * replace (xsrc x =? i) with false by lia. now rewrite app_nil_r.
  - intros y Hy. apply in_app_iff in Hy. destruct Hy as [Hy|[<-|[]]]; [specialize (B y Hy)|]; lia.
Qed.

(** what the lines [D] leave in the reader *)
Definition negc (x : xarc) : xarc := (mkArc (src (fst x)) (dst (fst x)) (lab (fst x)) (- sc (fst x)), snd x).
Definition mx (D : list oline) : Z := fold_right Z.max (-1) (o_states D).
Definition start_of (D : list oline) : Z := hd (-1) (o_states D).
Definition RD (D : list oline) : reader :=
  RS (map negc (o_arcs D)) (map (fun x => (fst x, - snd x)) (o_finals D)) (start_of D) (mx D).

Definition line_ok (na : nat) (o : oline) : Prop :=
  match o with
  | OArc a auxs => 0 <= src a /\ 0 <= dst a /\ length auxs = na
  | OFinal q _ => 0 <= q
  | OBlank => True
  end.

Lemma fold_max_app l l' : fold_right Z.max (-1) (l ++ l') = Z.max (fold_right Z.max (-1) l) (fold_right Z.max (-1) l').
Proof.
  assert (G : forall l, -1 <= fold_right Z.max (-1) l) by (intros u; induction u; simpl; lia).
  induction l as [|x l IH]; cbn [app fold_right]; [specialize (G l'); lia|rewrite IH; lia].
Qed.
Lemma fold_max_ge l x : In x l -> x <= fold_right Z.max (-1) l.
Proof.
  induction l as [|y l IH]; [intros []|]. cbn [fold_right]. intros [<-|H]; [lia|specialize (IH H); lia].
Qed.
Lemma mx_ge D : -1 <= mx D.
Proof. unfold mx. induction (o_states D); simpl; lia. Qed.

Lemma states_nonneg na D : Forall (line_ok na) D -> forall q, In q (o_states D) -> 0 <= q.
Proof.
  intros H q Hq. unfold o_states in Hq. apply in_flat_map in Hq. destruct Hq as (o & Ho & Hq).
  rewrite Forall_forall in H. specialize (H o Ho). destruct o as [a auxs|q' c|]; cbn in *; [destruct Hq as [<-|[<-|[]]]|destruct Hq as [<-|[]]|destruct Hq]; lia.
Qed.

Lemma arcs_states D x : In x (o_arcs D) -> In (src (fst x)) (o_states D) /\ In (dst (fst x)) (o_states D).
Proof.
  intros H. unfold o_arcs in H. apply in_flat_map in H. destruct H as (o & Ho & H). destruct o as [a auxs|q c|]; cbn in H; try tauto.
  destruct H as [<-|[]]. cbn [fst]. split; apply in_flat_map; exists (OArc a auxs); split; auto; cbn; auto.
Qed.

Lemma finals_states D x : In x (o_finals D) -> In (fst x) (o_states D).
Proof.
  intros H. unfold o_finals in H. apply in_flat_map in H. destruct H as (o & Ho & H). destruct o as [a auxs|q [c|]|]; cbn in H; try tauto.
  destruct H as [<-|[]]. cbn [fst]. apply in_flat_map. exists (OFinal q (Some c)). split; auto; cbn; auto.
Qed.

Lemma bounded_D na D : Forall (line_ok na) D -> bounded (map negc (o_arcs D)) (mx D).
Proof.
  intros H x Hx. apply in_map_iff in Hx. destruct Hx as (y & <- & Hy). apply arcs_states in Hy. destruct Hy as [H1 H2].
  change (xsrc (negc y)) with (src (fst y)). change (xdst (negc y)) with (dst (fst y)).
  pose proof (states_nonneg na D H _ H1). pose proof (states_nonneg na D H _ H2).
  apply fold_max_ge in H1. apply fold_max_ge in H2. unfold mx. lia.
Qed.

Lemma start_app D l : Forall (fun q => 0 <= q) (o_states D) ->
  hd (-1) (o_states D ++ l) = if start_of D =? -1 then hd (-1) l else start_of D.
Proof.
  intros H. unfold start_of. destruct (o_states D) as [|q t]; [reflexivity|]. cbn [app hd]. inversion H; subst.
  replace (q =? -1) with false by lia. reflexivity.
Qed.

Lemma apply_line_RD na D o : Forall (line_ok na) D -> line_ok na o -> apply_line o (RD D) = Some (RD (D ++ [o])).
Proof.
  intros HD Ho. pose proof (bounded_D na D HD) as B. pose proof (mx_ge D) as M.
  assert (HS : Forall (fun q => 0 <= q) (o_states D)) by (apply Forall_forall; now apply (states_nonneg na)).
  assert (ES : o_states (D ++ [o]) = o_states D ++ o_states [o]) by apply flat_map_app.
  assert (EA : o_arcs (D ++ [o]) = o_arcs D ++ o_arcs [o]) by apply flat_map_app.
  assert (EF : o_finals (D ++ [o]) = o_finals D ++ o_finals [o]) by apply flat_map_app.
  assert (EM : mx (D ++ [o]) = Z.max (mx D) (mx [o])) by (unfold mx; rewrite ES; apply fold_max_app).
  assert (E0 : start_of (D ++ [o]) = if start_of D =? -1 then hd (-1) (o_states [o]) else start_of D)
    by (unfold start_of at 1; rewrite ES; now apply start_app).
  unfold RD at 2. rewrite EA, EF, EM, E0, !map_app. destruct o as [a auxs|q c|]; cbn [line_ok] in Ho; cbn [apply_line].
  - unfold RD. destruct (add_arc_RS (map negc (o_arcs D)) (map (fun x => (fst x, - snd x)) (o_finals D)) (start_of D) (mx D)
      (mkArc (src a) (dst a) (lab a) (- sc a), auxs)) as [-> _]; auto; try (cbn; lia).
    cbn [o_states o_arcs o_finals flat_map app hd map xsrc xdst fst snd src dst]. rewrite app_nil_r. do 2 f_equal.
    unfold mx. cbn [o_states flat_map app fold_right]. lia.
  - unfold RD. rewrite seen_state_RS by auto. unfold RS. cbn [r_start r_max r_arcs r_finals].
    replace (mx [OFinal q c]) with q by (unfold mx; cbn [o_states flat_map app fold_right]; lia).
    cbn [o_states o_arcs o_finals flat_map app hd map fold_right]. rewrite !app_nil_r. destruct c as [c|]; [reflexivity|]. cbn [map]. now rewrite app_nil_r.
  - cbn [o_states o_arcs o_finals flat_map app hd map]. rewrite !app_nil_r. f_equal. unfold RD.
    replace (mx [OBlank]) with (-1) by reflexivity. replace (Z.max (mx D) (-1)) with (mx D) by lia.
    f_equal. destruct (start_of D =? -1) eqn:E; lia.
Qed.

Lemma reader0_RD : reader0 = RD [].
Proof. reflexivity. Qed.

Lemma process_lines_RD wsf fl na ls D2 : Forall2 (says fl) ls D2 -> Forall (line_ok na) D2 -> forall D1, Forall (line_ok na) D1 ->
  process_lines wsf fl na ls (RD D1) = Some (RD (D1 ++ D2)).
Proof.
  induction 1 as [|l o ls D2 Hl F IH]; intros H2 D1 H1; cbn [process_lines]; [now rewrite app_nil_r|].
  inversion H2 as [|? ? Ho H2']; subst.
  rewrite (process_line_ok wsf fl na l o) by (auto; destruct o; auto; now destruct Ho as (_ & _ & ?)).
  rewrite (apply_line_RD na) by auto. rewrite IH; auto.
  - now rewrite <- app_assoc.
  - apply Forall_app. auto.
Qed.

(** ** Final states and the start state *)
Definition fin_arc (na : nat) (sf : Z) (x : Z * Z) : xarc := (mkArc (fst x) sf (-1) (snd x), repeat (-1) na).

Lemma add_finals_RS na sf fs F0 st : 0 <= sf -> st <> -1 -> forall X m, -1 <= m -> bounded X m -> (forall x, In x fs -> 0 <= fst x <= sf) ->
  add_finals na sf fs (RS X F0 st m) =
  Some (RS (X ++ map (fin_arc na sf) fs) F0 st (if is_nil fs then m else Z.max m sf)) /\
  bounded (X ++ map (fin_arc na sf) fs) (if is_nil fs then m else Z.max m sf).
Proof.
  intros Hsf Hst. induction fs as [|[q w] fs IH]; intros X m Hm B Hq; cbn [add_finals map is_nil].
  - rewrite app_nil_r. auto.
  - assert (Hq0 : 0 <= q <= sf) by (apply (Hq (q, w)); now left).
    destruct (add_arc_RS X F0 st m (mkArc q sf (-1) w, repeat (-1) na)) as [E1 B1]; auto; try (cbn; lia).
    rewrite E1. replace (st =? -1) with false in * by lia. change (xsrc (mkArc q sf (-1) w, repeat (-1) na)) with q in *.
    change (xdst (mkArc q sf (-1) w, repeat (-1) na)) with sf in *.
    destruct (IH (X ++ [(mkArc q sf (-1) w, repeat (-1) na)]) (Z.max (Z.max m q) sf)) as [E2 B2]; auto; try lia.
    { intros x Hx. apply Hq. now right. }
    rewrite E2. rewrite <- app_assoc in *. cbn [app] in *. unfold fin_arc at 2 4. cbn [fst snd].
    replace (if is_nil fs then Z.max (Z.max m q) sf else Z.max (Z.max (Z.max m q) sf) sf) with (Z.max m sf) in * by (destruct (is_nil fs); lia).
    auto.
Qed.

(** exchange two states *)
Definition swap (s q : Z) : Z := if q =? 0 then s else if q =? s then 0 else q.
Definition swap_arc (s : Z) (x : xarc) : xarc :=
  (mkArc (swap s (src (fst x))) (swap s (dst (fst x))) (lab (fst x)) (sc (fst x)), snd x).

Lemma swap_swap s q : swap s (swap s q) = q.
Proof. unfold swap. destruct (q =? 0) eqn:E1; [|destruct (q =? s) eqn:E2]; [destruct (s =? 0) eqn:E; [lia|rewrite Z.eqb_refl; lia]|rewrite Z.eqb_refl; lia|rewrite E1, E2; reflexivity]. Qed.
Lemma swap_arc_swap s x : swap_arc s (swap_arc s x) = x.
Proof. destruct x as [[a b c d] u]. unfold swap_arc. cbn [fst snd src dst lab sc]. now rewrite !swap_swap. Qed.
Lemma swap_0 q : swap 0 q = q.
Proof. unfold swap. destruct (q =? 0) eqn:E; lia. Qed.
Lemma swap_inj s p q : swap s p = swap s q -> p = q.
Proof. intros H. rewrite <- (swap_swap s p), H. apply swap_swap. Qed.

Lemma filter_map {A B} (f : A -> B) (g : B -> bool) l : filter g (map f l) = map f (filter (fun x => g (f x)) l).
Proof. induction l as [|x l IH]; auto. cbn [map filter]. rewrite IH. destruct (g (f x)); reflexivity. Qed.

Lemma fix_start_RS X F st m : 0 <= st <= m -> bounded X m ->
  exists r, fix_start_state (RS X F st m) = Some r /\ r_arcs r = rows (map (swap_arc st) X) (m + 1).
Proof.
  intros Hst B. unfold fix_start_state. change (r_start (RS X F st m)) with st.
  destruct (st <=? 0) eqn:E.
  - replace st with 0 in * by lia. eexists. split; [reflexivity|]. cbn [RS r_arcs]. f_equal.
    rewrite <- (map_id X) at 1. apply map_ext. intros [[a b c d] u]. unfold swap_arc. cbn [fst snd src dst lab sc]. now rewrite !swap_0.
  - cbn [RS r_arcs r_max r_finals]. rewrite !rd_rows by lia.
    destruct (wr_Some (rows X (m + 1)) 0 (map (set_src 0) (filter (fun x => xsrc x =? st) X))) as (a1 & -> & L1 & R1); [rewrite zlen_rows; lia|].
    destruct (wr_Some a1 st (map (set_src st) (filter (fun x => xsrc x =? 0) X))) as (a2 & -> & L2 & R2); [rewrite L1, zlen_rows; lia|].
    eexists. split; [reflexivity|]. cbn [r_arcs]. rewrite zlen_rows in L1 by lia.
    assert (S : forall p q, p <> q -> forall x, (xsrc (swap_arc st x) =? swap st q) = (xsrc x =? q)).
    { intros _ q _ x. change (xsrc (swap_arc st x)) with (swap st (xsrc x)).
      destruct (xsrc x =? q) eqn:Eq; [apply Z.eqb_eq in Eq; rewrite Eq; apply Z.eqb_refl|]. apply Z.eqb_neq. intros Q. apply swap_inj in Q. lia. }
    assert (SW : forall q l, (forall x, In x l -> xsrc x = q) ->
                 map (fix_dst st) (map (set_src (swap st q)) l) = map (swap_arc st) l).
    { intros q l Hl. rewrite map_map. apply map_ext_in. intros x Hx. specialize (Hl x Hx). destruct x as [[a b c d] u]. cbn in Hl.
      unfold fix_dst, set_src, swap_arc. cbn [fst snd src dst lab sc]. now rewrite Hl. }
    assert (NW : forall q l, swap st q = q -> (forall x, In x l -> xsrc x = q) -> map (fix_dst st) l = map (swap_arc st) l).
    { intros q l Hq Hl. apply map_ext_in. intros x Hx. specialize (Hl x Hx). destruct x as [[a b c d] u]. cbn in Hl.
      unfold fix_dst, swap_arc. cbn [fst snd src dst lab sc]. now rewrite Hl, Hq. }
    assert (FF : forall q, filter (fun x => xsrc x =? swap st q) (map (swap_arc st) X) = map (swap_arc st) (filter (fun x => xsrc x =? q) X)).
    { intros q. rewrite filter_map. f_equal. apply filter_ext. intros x. apply (S (q + 1) q). lia. }
    assert (FI : forall q x, In x (filter (fun x => xsrc x =? q) X) -> xsrc x = q) by (intros q x Hx; apply filter_In in Hx; lia).
    assert (s0 : swap st 0 = st) by reflexivity.
    assert (s1 : swap st st = 0) by (unfold swap; destruct (st =? 0) eqn:?; [lia|now rewrite Z.eqb_refl]).
    apply list_ext_rd.
    + rewrite zlen_map, zlen_rows; lia.
    + intros i Bi. rewrite zlen_map in Bi. rewrite rd_map, R2, rd_rows by lia. destruct (i =? st) eqn:E1.
      * apply Z.eqb_eq in E1. subst i. cbn [option_map]. f_equal. pose proof (FF 0) as G. rewrite s0 in G. rewrite G. pose proof (SW 0 _ (FI 0)) as W. rewrite s0 in W. exact W.
      * rewrite R1. destruct (i =? 0) eqn:E2.
        -- apply Z.eqb_eq in E2. subst i. cbn [option_map]. f_equal. pose proof (FF st) as G. rewrite s1 in G. rewrite G. pose proof (SW st _ (FI st)) as W. rewrite s1 in W. exact W.
        -- rewrite rd_rows by lia. cbn [option_map]. f_equal. assert (si : swap st i = i) by (unfold swap; rewrite E2, E1; reflexivity).
           pose proof (FF i) as G. rewrite si in G. rewrite G. apply (NW i); auto.
Qed.

(** ** Paths *)
Lemma in_rows X n x : (forall y, In y X -> 0 <= xsrc y < n) -> In x (concat (rows X n)) <-> In x X.
Proof.
  intros H. rewrite in_concat. split.
  - intros (l & Hl & Hx). unfold rows in Hl. apply in_map_iff in Hl. destruct Hl as (q & <- & _). now apply filter_In in Hx.
  - intros Hx. exists (filter (fun y => xsrc y =? xsrc x) X). split.
    + unfold rows. apply in_map_iff. exists (xsrc x). split; auto. apply in_zrange. auto.
    + apply filter_In. split; auto. apply Z.eqb_refl.
Qed.

Lemma filter_two {A} (f g : A -> bool) l : (forall x, f x = true -> g x = false) ->
  zlen (filter f l) + zlen (filter g l) = zlen (filter (fun x => f x || g x) l).
Proof.
  intros H. induction l as [|x l IH]; [reflexivity|]. cbn [filter]. specialize (H x).
  destruct (f x), (g x); cbn [orb]; rewrite ?zlen_cons; try lia.
Qed.

Lemma zlen_rows_concat X n : 0 <= n -> (forall y, In y X -> 0 <= xsrc y < n) -> zlen (concat (rows X n)) = zlen X.
Proof.
  intros Hn H.
  assert (G : forall m, 0 <= m -> zlen (concat (rows X m)) = zlen (filter (fun x => (0 <=? xsrc x) && (xsrc x <? m)) X)).
  { apply natlike_ind.
    - rewrite filter_no; [reflexivity|]. intros x _. destruct (0 <=? xsrc x) eqn:E1; auto. cbn [andb]. lia.
    - intros m Hm IH. unfold rows. replace (Z.succ m) with (m + 1) by lia. rewrite zrange_S, map_app, concat_app, zlen_app by lia. fold (rows X m).
      rewrite IH. cbn [map concat]. rewrite app_nil_r, filter_two by (intros; lia). f_equal. apply filter_ext. intros x. lia. }
  rewrite G by auto. f_equal. clear G. induction X as [|x X IH]; auto. cbn [filter].
  assert (Hx := H x (or_introl eq_refl)). replace ((0 <=? xsrc x) && (xsrc x <? n)) with true by lia. f_equal. apply IH. intros y Hy. apply H. now right.
Qed.

Lemma tpath_incl (X Y : list xarc) s p t : (forall x, In x X -> In x Y) -> tpath X s p t -> tpath Y s p t.
Proof. intros H. induction 1; constructor; auto. Qed.

Lemma tpath_swap st (X : list xarc) s p t : tpath X s p t -> tpath (map (swap_arc st) X) (swap st s) (map (swap_arc st) p) (swap st t).
Proof.
  induction 1 as [s|x p t Hx H IH]; [constructor|]. cbn [map].
  change (swap st (src (fst x))) with (src (fst (swap_arc st x))). constructor; [now apply in_map|exact IH].
Qed.

Lemma tpath_negc (X : list xarc) s p t : tpath X s p t <-> tpath (map negc X) s (map negc p) t.
Proof.
  assert (I : forall x, negc (negc x) = x) by (intros [[a b c d] u]; unfold negc; cbn; now rewrite Z.opp_involutive).
  assert (G : forall X p s t, tpath X s p t -> tpath (map negc X) s (map negc p) t).
  { intros X0 p0 s0 t0. induction 1 as [s1|x p1 t1 Hx H IH]; [constructor|]. cbn [map].
    change (src (fst x)) with (src (fst (negc x))). constructor; [now apply in_map|exact IH]. }
  split; [apply G|]. intros H. apply G in H. rewrite !map_map in H.
  rewrite (map_ext _ (fun x => x) I), (map_ext (fun x => negc (negc x)) (fun x => x) I), !map_id in H. exact H.
Qed.

Lemma tpath_app_inv (X : list xarc) p1 : forall s p2 t, tpath X s (p1 ++ p2) t -> exists q, tpath X s p1 q /\ tpath X q p2 t.
Proof.
  induction p1 as [|x p1 IH]; intros s p2 t H; [exists s; split; [constructor|exact H]|].
  cbn [app] in H. inversion H; subst. destruct (IH _ _ _ H5) as (q & P1 & P2). exists q. split; auto. now constructor.
Qed.

Lemma tpath_snoc (X : list xarc) s p x : tpath X s p (src (fst x)) -> In x X -> tpath X s (p ++ [x]) (dst (fst x)).
Proof.
  intros H Hx. remember (src (fst x)) as q eqn:Eq. induction H as [s|y p t Hy H IH].
  - subst s. cbn [app]. constructor; auto. constructor.
  - cbn [app]. constructor; auto.
Qed.

Lemma tscore_app {B} (p q : list (arc * B)) : tscore (p ++ q) = tscore p + tscore q.
Proof. unfold tscore. rewrite map_app. apply zsum_app. Qed.

(** Reading an OpenFst text.  For every description (arcs, final states with
    their costs, blank lines; state numbers need not be dense) with at least one
    final state, and every text that says it, the result is an FSA in which the
    arcs are stored with the state they leave, with one state more than the
    largest state number (the superfinal state, entered exactly by the arcs with
    label -1 that stand for final states), that accepts exactly the strings (and
    aux labels) of the description, the score being minus the cost. *)
Theorem C54_language wsf fl na lines D :
  Forall2 (says fl) lines D -> Forall (fun l => ~ In 10 l) lines ->
  (forall a auxs, In (OArc a auxs) D -> length auxs = na) ->
  o_finals D <> [] ->
  exists T,
    openfst_from_str wsf fl na (concat (map (fun l => l ++ [10]) lines)) =
      Some (splits_of T, map fst (concat T), map snd (concat T)) /\
    src_ok (map (map fst) T) /\
    (forall q, In q (o_states D) -> q < zlen T - 1) /\ In (zlen T - 2) (o_states D) /\
    (forall x, In x (concat T) -> 0 <= dst (fst x) < zlen T /\ length (snd x) = na) /\
    zlen (concat T) = zlen (o_arcs D) + zlen (o_finals D) /\
    ((forall x, In x (o_arcs D) -> 0 <= lab (fst x)) -> valid (map (map fst) T)) /\
    forall w auxs cost, k2_accepts na T w auxs cost <-> o_accepts D w auxs cost.
Proof.
  intros HS HN HA HF.
  assert (HD : Forall (line_ok na) D).
  { apply Forall_forall. intros o Ho. apply In_rd in Ho. destruct Ho as (i & Bi & Hi).
    assert (exists l, says fl l o) as (l & Hl).
    { assert (Hin : In o D) by (eapply rd_In; eauto). clear - HS Hin. induction HS as [|l o' ls D Hl F IH]; [destruct Hin|]. destruct Hin as [<-|Hin]; eauto. }
    assert (Hin : In o D) by (eapply rd_In; eauto). destruct o as [a auxs|q c|]; cbn [says line_ok] in *; auto.
    - destruct Hl as (? & ? & _). repeat split; auto. eauto.
    - tauto. }
  unfold openfst_from_str. rewrite split_lines_text by auto.
  assert (EL : process_lines wsf fl na (lines ++ [[]]) reader0 = Some (RD D)).
  { rewrite reader0_RD. rewrite (process_lines_RD wsf fl na (lines ++ [[]]) (D ++ [OBlank])).
    - f_equal. unfold RD, start_of, mx, o_arcs, o_finals, o_states. rewrite !flat_map_app. cbn [flat_map app]. now rewrite !app_nil_r.
    - apply Forall2_app; auto. constructor; [reflexivity|constructor].
    - apply Forall_app. split; auto. repeat constructor.
    - constructor. }
  rewrite EL. clear EL.
  pose proof (bounded_D na D HD) as B. pose proof (mx_ge D) as M.
  assert (HS0 : forall q, In q (o_states D) -> 0 <= q <= mx D).
  { intros q Hq. split; [now apply (states_nonneg na D)|]. now apply fold_max_ge. }
  assert (exists st rest, o_states D = st :: rest) as (st & rest & Est).
  { destruct (o_finals D) as [|x l] eqn:E; [congruence|]. assert (In x (o_finals D)) by (rewrite E; now left).
    apply finals_states in H. destruct (o_states D); [destruct H|eauto]. }
  assert (Est' : start_of D = st) by (unfold start_of; rewrite Est; reflexivity).
  assert (Bst : 0 <= st <= mx D) by (apply HS0; rewrite Est; now left).
  change (r_start (RD D)) with (start_of D). rewrite Est'. replace (st =? -1) with false by lia.
  unfold process_final_states. change (r_max (RD D)) with (mx D). change (r_finals (RD D)) with (map (fun x => (fst x, - snd x)) (o_finals D)).
  set (F := map (fun x => (fst x, - snd x)) (o_finals D)) in *. set (sf := mx D + 1).
  replace (Z.max sf 1) with sf by (unfold sf; lia).
  unfold RD. rewrite Est'. fold F. clear Est'.
  destruct (add_finals_RS na sf F F st ltac:(unfold sf; lia) ltac:(lia) (map negc (o_arcs D)) (mx D)) as [E1 B1]; auto.
  { intros x Hx. unfold F in Hx. apply in_map_iff in Hx. destruct Hx as (y & <- & Hy). cbn [fst]. apply finals_states in Hy. apply HS0 in Hy. unfold sf. lia. }
  rewrite E1. clear E1.
  assert (HFn : is_nil F = false) by (unfold F; destruct (o_finals D); [congruence|reflexivity]). rewrite HFn in *.
  replace (Z.max (mx D) sf) with sf in * by (unfold sf; lia).
  set (X := map negc (o_arcs D) ++ map (fin_arc na sf) F) in *.
  destruct (fix_start_RS X F st sf) as (r & E2 & Er); [unfold sf; lia|exact B1|].
  rewrite E2, Er. clear E2 Er r.
  set (T := rows (map (swap_arc st) X) (sf + 1)).
  assert (LT : zlen T = sf + 1) by (unfold T; apply zlen_rows; unfold sf; lia).
  assert (Ssf : swap st sf = sf) by (unfold swap; destruct (sf =? 0) eqn:?; [unfold sf in *; lia|]; destruct (sf =? st) eqn:?; [unfold sf in *; lia|reflexivity]).
  assert (Sst : swap st st = 0) by (unfold swap; destruct (st =? 0) eqn:?; [lia|now rewrite Z.eqb_refl]).
  assert (Bsw : forall q, 0 <= q <= sf -> 0 <= swap st q <= sf) by (intros q Hq; unfold swap; destruct (q =? 0); [unfold sf; lia|destruct (q =? st); lia]).
  assert (BX : forall y, In y (map (swap_arc st) X) -> 0 <= xsrc y < sf + 1).
  { intros y Hy. apply in_map_iff in Hy. destruct Hy as (x & <- & Hx). apply B1 in Hx. change (xsrc (swap_arc st x)) with (swap st (xsrc x)).
    pose proof (Bsw (xsrc x) ltac:(lia)). lia. }
  assert (IT : forall x, In x (concat T) <-> In x (map (swap_arc st) X)) by (intros x; apply in_rows; exact BX).
  assert (XX : forall x, In x X -> (exists y, In y (o_arcs D) /\ x = negc y) \/ (exists f, In f (o_finals D) /\ x = fin_arc na sf (fst f, - snd f))).
  { intros x Hx. unfold X in Hx. apply in_app_iff in Hx. destruct Hx as [Hx|Hx]; apply in_map_iff in Hx.
    - destruct Hx as (y & <- & Hy). eauto.
    - destruct Hx as (f & <- & Hf). unfold F in Hf. apply in_map_iff in Hf. destruct Hf as (g & <- & Hg). eauto. }
  assert (SO : src_ok (map (map fst) T)).
  { intros i row a Hi Ha. rewrite rd_map in Hi. destruct (rd T i) as [l|] eqn:Ei; [|discriminate]. injection Hi as <-.
    pose proof (rd_Some_bound _ _ _ Ei) as Bi. rewrite LT in Bi. unfold T in Ei. rewrite rd_rows in Ei by lia. injection Ei as <-.
    apply in_map_iff in Ha. destruct Ha as (x & <- & Hx). apply filter_In in Hx. destruct Hx as [_ Hx]. unfold xsrc in Hx. lia. }
  exists T. split; [reflexivity|]. split; [exact SO|split; [|split; [|split; [|split; [|split]]]]].
  - intros q Hq. apply HS0 in Hq. unfold sf in LT. lia.
  - rewrite LT. replace (sf + 1 - 2) with (mx D) by (unfold sf; lia).
    assert (G : forall l, Forall (fun q => 0 <= q) l -> l <> [] -> In (fold_right Z.max (-1) l) l).
    { clear. induction l as [|q l IH]; intros H N; [congruence|]. inversion H; subst. cbn [fold_right]. destruct l as [|q' l']; [left; cbn; lia|].
      specialize (IH H3 ltac:(discriminate)). destruct (Z.max_spec q (fold_right Z.max (-1) (q' :: l'))) as [[_ E]|[_ E]]; rewrite E; [now right|now left]. }
    apply G; [apply Forall_forall; intros q Hq; now apply HS0|rewrite Est; discriminate].
  - intros x Hx. apply IT in Hx. apply in_map_iff in Hx. destruct Hx as (y & <- & Hy). pose proof (B1 y Hy) as By.
    change (dst (fst (swap_arc st y))) with (swap st (xdst y)). pose proof (Bsw (xdst y) ltac:(lia)). split; [lia|].
    change (snd (swap_arc st y)) with (snd y). destruct (XX y Hy) as [(z & Hz & ->)|(f & Hf & ->)]; [|apply repeat_length].
    cbn [negc snd]. unfold o_arcs in Hz. apply in_flat_map in Hz. destruct Hz as (o & Ho & Hz). destruct o as [a auxs|q c|]; cbn in Hz; try tauto.
    destruct Hz as [<-|[]]. eapply HA; eauto.
  - unfold T. rewrite zlen_rows_concat by (auto; unfold sf; lia). rewrite zlen_map. unfold X, F. now rewrite zlen_app, !zlen_map.
  - intros HL. split; [exact SO|]. unfold nstates, final, nstates. rewrite zlen_map, LT. split; [unfold sf; lia|].
    intros a Ha. unfold all_arcs in Ha. rewrite <- concat_map in Ha. apply in_map_iff in Ha. destruct Ha as (x & <- & Hx). apply IT in Hx.
    apply in_map_iff in Hx. destruct Hx as (y & <- & Hy). pose proof (B1 y Hy) as By. unfold xsrc, xdst in By.
    cbn [swap_arc fst src dst lab]. pose proof (Bsw _ (proj1 By)). pose proof (Bsw _ (proj2 By)).
    assert (NS : forall q, q <> sf -> swap st q <> sf + 1 - 1).
    { intros q Hq E. apply Hq. apply (swap_inj st). rewrite Ssf. lia. }
    destruct (XX y Hy) as [(z & Hz & ->)|(g & Hg & ->)]; cbn [negc fin_arc fst src dst lab] in *.
    + pose proof (HL z Hz). apply arcs_states in Hz. destruct Hz as [Z1 Z2]. apply HS0 in Z1. apply HS0 in Z2.
      pose proof (NS (src (fst z)) ltac:(unfold sf; lia)). pose proof (NS (dst (fst z)) ltac:(unfold sf; lia)). repeat split; lia.
    + apply finals_states in Hg. apply HS0 in Hg. pose proof (NS (fst g) ltac:(unfold sf; lia)). rewrite Ssf. repeat split; lia.
  - intros w auxs cost. unfold k2_accepts, o_accepts. rewrite LT. replace (sf + 1 - 1) with sf by lia. split.
    + intros (p & P1 & P2 & P3 & P4).
      assert (P1' : tpath X st (map (swap_arc st) p) sf).
      { assert (Q : tpath (map (swap_arc st) X) 0 p sf) by (eapply tpath_incl; [|exact P1]; intros x; apply IT).
        apply (tpath_swap st) in Q. rewrite Ssf in Q. replace (swap st 0) with st in Q by reflexivity.
        rewrite map_map, (map_ext _ (fun x => x)), map_id in Q; [exact Q|]. apply swap_arc_swap. }
      set (p' := map (swap_arc st) p) in *.
      assert (E2 : ilabels p' = w ++ [-1]) by (rewrite <- P2; unfold p', ilabels; rewrite map_map; reflexivity).
      assert (E3 : map snd p' = auxs ++ [repeat (-1) na]) by (rewrite <- P3; unfold p'; rewrite map_map; reflexivity).
      assert (E4 : tscore p' = - cost) by (rewrite <- P4; unfold p', tscore; rewrite map_map; reflexivity).
      clearbody p'. clear P1 P2 P3 P4 p.
      destruct p' as [|x p' _] using rev_ind; [destruct w; discriminate|].
      unfold ilabels in E2. rewrite map_app in E2, E3. apply app_inj_tail in E2. destruct E2 as [E2 El]. apply app_inj_tail in E3. destruct E3 as [E3 Ea].
      apply tpath_app_inv in P1'. destruct P1' as (q & Q1 & Q2). inversion Q2 as [|? ? ? Hx Hend Hq1 Hq2 Hq3]; subst.
      inversion Hend; subst. destruct (XX x Hx) as [(y & Hy & ->)|(f & Hf & ->)].
      { exfalso. apply arcs_states in Hy. destruct Hy as [_ Hy]. apply HS0 in Hy. cbn [negc fst dst] in *. unfold sf in *. lia. }
      assert (PD : forall s p t, tpath X s p t -> t <> sf -> (forall x, In x p -> exists y, In y (o_arcs D) /\ x = negc y)).
      { clear - XX B1 HS0 sf. intros s p t H. induction H as [s|x p t Hx H IH]; intros Ht z Hz; [destruct Hz|].
        assert (Hd : dst (fst x) <> sf).
        { intros E. destruct p as [|x2 p]; [inversion H; subst; congruence|]. inversion H as [|? ? ? Hx2 H2 Hs2 Ep Et]; subst.
          destruct (XX x2 Hx2) as [(y & Hy & ->)|(g & Hg & ->)]; cbn [negc fin_arc fst src] in Hs2.
          - apply arcs_states in Hy. destruct Hy as [Hy _]. apply HS0 in Hy. unfold sf in *. lia.
          - apply finals_states in Hg. apply HS0 in Hg. unfold sf in *. lia. }
        destruct Hz as [<-|Hz]; [|now apply IH]. destruct (XX x Hx) as [?|(g & Hg & ->)]; auto. cbn in Hd. congruence. }
      cbn [fin_arc fst src snd] in *. pose proof (finals_states _ _ Hf) as Hfs. apply HS0 in Hfs.
      assert (PA : forall z, In z p' -> exists y, In y (o_arcs D) /\ z = negc y) by (apply (PD _ _ _ Q1); unfold sf; lia).
      exists st, rest, (map negc p'), (fst f), (snd f). split; [exact Est|].
      assert (I : forall x, negc (negc x) = x) by (intros [[a b c d] u]; unfold negc; cbn; now rewrite Z.opp_involutive).
      split; [|split; [now destruct f|split; [|split]]].
      * apply tpath_negc. rewrite map_map, (map_ext _ (fun x => x) I), map_id. clear - Q1 PA I.
        induction Q1 as [s|x p t Hx H IH]; [constructor|]. constructor; [|apply IH; intros z Hz; apply PA; now right].
        destruct (PA x (or_introl eq_refl)) as (y & Hy & ->). now apply in_map.
      * unfold ilabels. rewrite map_map. reflexivity.
      * rewrite map_map. reflexivity.
      * rewrite tscore_app in E4. unfold tscore in *. rewrite map_map. cbn [map zsum fin_arc fst sc snd] in E4.
        replace (zsum (map (fun x => sc (fst (negc x))) p')) with (- zsum (map (fun a => sc (fst a)) p')); [lia|].
        clear. induction p' as [|x p IH]; [reflexivity|]. cbn [map zsum]. change (sc (fst (negc x))) with (- sc (fst x)). lia.
    + intros (st' & rest' & p & q & c & Ee & P1 & Hf & P2 & P3 & P4). rewrite Est in Ee. injection Ee as <- <-.
      set (fa := fin_arc na sf (q, - c)).
      assert (IF : In fa X).
      { unfold X. apply in_app_iff. right. unfold fa. apply in_map. unfold F. apply in_map_iff. exists (q, c). auto. }
      assert (Q : tpath X st (map negc p ++ [fa]) sf).
      { replace sf with (dst (fst fa)) at 1 by reflexivity. apply tpath_snoc; auto. cbn [fa fin_arc fst src].
        apply tpath_negc in P1. eapply tpath_incl; [|exact P1]. intros x Hx. unfold X. apply in_app_iff. now left. }
      exists (map (swap_arc st) (map negc p ++ [fa])).
      split; [|split; [|split]].
      * apply (tpath_swap st) in Q. rewrite Sst, Ssf in Q. eapply tpath_incl; [|exact Q]. intros x. apply IT.
      * unfold ilabels. rewrite !map_app, !map_map. cbn [map]. rewrite <- P2. reflexivity.
      * rewrite !map_app, !map_map. cbn [map]. rewrite <- P3. reflexivity.
      * unfold tscore. rewrite !map_app, !map_map, zsum_app. cbn [map zsum]. change (sc (fst (swap_arc st fa))) with (- c). unfold tscore in P4.
        replace (zsum (map (fun x => sc (fst (swap_arc st (negc x)))) p)) with (- zsum (map (fun a => sc (fst a)) p)); [lia|].
        clear. induction p as [|x p IH]; [reflexivity|]. cbn [map zsum]. change (sc (fst (swap_arc st (negc x)))) with (- sc (fst x)). lia.
Qed.
Print Assumptions C54_language.

(** Without a final state of finite cost no superfinal state is made (the comment
    at fsa_utils.cu:529 says it always is): when there is an arc, the highest
    numbered state of the description plays the part of the final state. *)
Theorem C54_no_final wsf fl na lines D :
  Forall2 (says fl) lines D -> Forall (fun l => ~ In 10 l) lines ->
  (forall a auxs, In (OArc a auxs) D -> length auxs = na) ->
  o_finals D = [] -> o_states D <> [] ->
  exists T,
    openfst_from_str wsf fl na (concat (map (fun l => l ++ [10]) lines)) =
      Some (splits_of T, map fst (concat T), map snd (concat T)) /\
    zlen T = fold_right Z.max (-1) (o_states D) + 1 /\
    zlen (concat T) = zlen (o_arcs D) /\
    ((forall x, In x (o_arcs D) -> 0 <= lab (fst x)) -> forall x, In x (concat T) -> lab (fst x) <> -1).
Proof.
  intros HS HN HA HF HZ.
  assert (HD : Forall (line_ok na) D).
  { apply Forall_forall. intros o Hin.
    assert (exists l, says fl l o) as (l & Hl).
    { clear - HS Hin. induction HS as [|l o' ls D Hl F IH]; [destruct Hin|]. destruct Hin as [<-|Hin]; eauto. }
    destruct o as [a auxs|q c|]; cbn [says line_ok] in *; auto.
    - destruct Hl as (? & ? & _). repeat split; auto. eauto.
    - tauto. }
  unfold openfst_from_str. rewrite split_lines_text by auto.
  assert (EL : process_lines wsf fl na (lines ++ [[]]) reader0 = Some (RD D)).
  { rewrite reader0_RD. rewrite (process_lines_RD wsf fl na (lines ++ [[]]) (D ++ [OBlank])).
    - f_equal. unfold RD, start_of, mx, o_arcs, o_finals, o_states. rewrite !flat_map_app. cbn [flat_map app]. now rewrite !app_nil_r.
    - apply Forall2_app; auto. constructor; [reflexivity|constructor].
    - apply Forall_app. split; auto. repeat constructor.
    - constructor. }
  rewrite EL. clear EL.
  pose proof (bounded_D na D HD) as B.
  destruct (o_states D) as [|st rest] eqn:Est; [congruence|].
  assert (Est' : start_of D = st) by (unfold start_of; rewrite Est; reflexivity).
  assert (Bst : 0 <= st <= mx D).
  { assert (In st (o_states D)) by (rewrite Est; now left). split; [now apply (states_nonneg na D)|]. now apply fold_max_ge. }
  change (r_start (RD D)) with (start_of D). rewrite Est'. replace (st =? -1) with false by lia.
  unfold process_final_states. change (r_finals (RD D)) with (map (fun x : Z * Z => (fst x, - snd x)) (o_finals D)). rewrite HF.
  cbn [map add_finals]. unfold RD. rewrite Est'.
  destruct (fix_start_RS (map negc (o_arcs D)) (map (fun x => (fst x, - snd x)) (o_finals D)) st (mx D)) as (r & E2 & Er); auto.
  rewrite E2, Er. clear E2 Er r.
  assert (BX : forall y, In y (map (swap_arc st) (map negc (o_arcs D))) -> 0 <= xsrc y < mx D + 1).
  { intros y Hy. apply in_map_iff in Hy. destruct Hy as (x & <- & Hx). apply B in Hx. change (xsrc (swap_arc st x)) with (swap st (xsrc x)).
    unfold swap. destruct (xsrc x =? 0); [lia|]. destruct (xsrc x =? st); lia. }
  eexists. split; [reflexivity|]. split; [|split].
  - rewrite zlen_rows by lia. unfold mx. now rewrite Est.
  - rewrite zlen_rows_concat by (auto; lia). now rewrite !zlen_map.
  - intros HL x Hx. apply in_rows in Hx; auto. apply in_map_iff in Hx. destruct Hx as (y & <- & Hy). apply in_map_iff in Hy. destruct Hy as (z & <- & Hz).
    apply HL in Hz. cbn. lia.
Qed.
Print Assumptions C54_no_final.

(** The documented "The cost defaults to 0.0" does not hold for an acceptor whose
    line ends in the label: the text is refused. *)
Theorem C54_default_cost_refuted : exists text,
  fields text = [[48]; [49]; [53]] /\          (* "0 1 5": from 0 to 1 with label 5 *)
  forall wsf, openfst_from_str wsf read_g 0 (text ++ [10; 49; 10]) = None /\
    openfst_from_str wsf read_g 0 (text ++ [32; 48; 10; 49; 10]) =
      Some ([0; 1; 2; 2], [mkArc 0 1 5 0; mkArc 1 2 (-1) 0], [[]; []]).
Proof. exists [48; 32; 49; 32; 53]. split; [reflexivity|]. intros []; split; reflexivity. Qed.
Print Assumptions C54_default_cost_refuted.

(** A concrete text: sparse state numbers, start state 7, an aux label, two final
    states, one of which is also named with an infinite cost.
      "7 2 5 50 3" / "2 7  6 60 -1" / "" / "2 4" / "9" / "0 Inf" *)
Definition ex_lines : list str :=
  [[55; 32; 50; 32; 53; 32; 53; 48; 32; 51]; [50; 32; 55; 32; 32; 54; 32; 54; 48; 32; 45; 49]; []; [50; 32; 52]; [57]; [48; 32; 73; 110; 102]].
Definition ex_D : list oline :=
  [OArc (mkArc 7 2 5 3) [50]; OArc (mkArc 2 7 6 (-1)) [60]; OBlank; OFinal 2 (Some 4); OFinal 9 (Some 0); OFinal 0 None].

Lemma read_g_tok t v c u : t = c :: u -> cws c = false -> read_g t = (Some v, []) ->
  (forall d, cws d = true -> forall r, read_g (t ++ d :: r) = (Some v, d :: r)) -> fl_tok read_g t v.
Proof.
  intros E H H0 Hd. split; [eauto|]. intros [|d r] Hr; [now rewrite app_nil_r|]. apply Hd. exact Hr.
Qed.

Lemma cws_cases d : cws d = true -> d = 9 \/ d = 10 \/ d = 11 \/ d = 12 \/ d = 13 \/ d = 32.
Proof. unfold cws. lia. Qed.

Ltac fltok := eapply read_g_tok; [reflexivity|reflexivity|reflexivity|
  intros d Hd r; apply cws_cases in Hd; destruct Hd as [->|[->|[->|[->|[->| ->]]]]]; reflexivity].

Example C54_ex :
  Forall2 (says read_g) ex_lines ex_D /\
  (forall wsf, openfst_from_str wsf read_g 1 (concat (map (fun l => l ++ [10]) ex_lines)) =
    Some ([0; 1; 1; 3; 3; 3; 3; 3; 3; 3; 4; 4],
          [mkArc 0 2 5 (-3); mkArc 2 0 6 1; mkArc 2 10 (-1) (-4); mkArc 9 10 (-1) 0],
          [[50]; [60]; [-1]; [-1]])) /\
  o_accepts ex_D [5; 6; 5] [[50]; [60]; [50]] 9.
Proof.
  split; [|split].
  - unfold ex_lines, ex_D. repeat apply Forall2_cons; try apply Forall2_nil; cbn [says src dst lab sc].
    + split; [lia|]. split; [lia|]. exists [55], [50], [53], [[53; 48]], [[51]]. split; [reflexivity|].
      split; [repeat split|]. split; [repeat split|]. split; [repeat split|].
      split; [repeat constructor|]. left. eexists. split; [reflexivity|]. fltok.
    + split; [lia|]. split; [lia|]. exists [50], [55], [54], [[54; 48]], [[45; 49]]. split; [reflexivity|].
      split; [repeat split|]. split; [repeat split|]. split; [repeat split|].
      split; [repeat constructor|]. left. eexists. split; [reflexivity|]. fltok.
    + reflexivity.
    + split; [lia|]. exists [50]. split; [repeat split|]. right. left. exists [52], 4. split; [reflexivity|].
      split; [split; [exact I|split; [repeat constructor|discriminate]]|]. split; [fltok|reflexivity].
    + split; [lia|]. exists [57]. split; [repeat split|]. left. split; reflexivity.
    + split; [lia|]. exists [48]. split; [repeat split|]. right. right. split; reflexivity.
  - intros []; reflexivity.
  - exists 7, [2; 2; 7; 2; 9; 0], [(mkArc 7 2 5 3, [50]); (mkArc 2 7 6 (-1), [60]); (mkArc 7 2 5 3, [50])], 2, 4.
    split; [reflexivity|]. split; [|repeat split; cbn; auto].
    assert (I1 : In (mkArc 7 2 5 3, [50]) (o_arcs ex_D)) by (cbn; auto).
    assert (I2 : In (mkArc 2 7 6 (-1), [60]) (o_arcs ex_D)) by (cbn; auto).
    apply (tpath_cons (o_arcs ex_D) (mkArc 7 2 5 3, [50])); auto.
    apply (tpath_cons (o_arcs ex_D) (mkArc 2 7 6 (-1), [60])); auto.
    apply (tpath_cons (o_arcs ex_D) (mkArc 7 2 5 3, [50])); auto. constructor.
Qed.
