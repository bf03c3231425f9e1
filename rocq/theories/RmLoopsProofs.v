(** Proofs for RmLoopsProps *)
From Coq Require Import ZArith List Lia Bool Permutation.
From Coq Require Import ZifyBool ZifyNat.
From Verif Require Import Base RaggedModel RaggedSpec RaggedProofs FsaSpec FsaLemmas FsaOpsModel FsaOpsProofs EpsLoopProofs PropsModel PropsSpec OpsModel LinearModel ConnectProofs ScoreSpec ShortestSpec RmEpsSpec RmLoopsModel RmLoopsSpec.
Import ListNotations.
Open Scope Z_scope.

Definition row (D : list (list Z)) (i : Z) : list Z := match rd D i with Some d => d | None => [] end.
Definition TG (g : nfsa) : list (list (arc * Z)) :=
  imap (fun r st => (if r + 1 <? nstates g then [(mkArc r r 0 0, -1)] else []) ++ imap (fun j a => (a, off1 g r + j)) 0 st) 0 g.
Definition mg (g : nfsa) : list Z := map snd (concat (TG g)).
Definition dh (g : nfsa) (der : list (list Z)) : list (list Z) := map (row der) (mg g).

Lemma TG_arcs g : map (map fst) (TG g) = add_loops g.
Proof.
  unfold TG, add_loops. rewrite map_imap. apply imap_ext. intros r st _. rewrite map_app, map_imap. cbn [fst]. rewrite imap_const, map_id. destruct (_ <? _); reflexivity.
Qed.
Lemma TG_all g : map fst (concat (TG g)) = all_arcs (add_loops g).
Proof. unfold all_arcs. rewrite concat_map, TG_arcs. reflexivity. Qed.

Lemma TG_inv g i a k : rd (concat (TG g)) i = Some (a, k) -> (k = -1 /\ exists s, 0 <= s < final g /\ a = mkArc s s 0 0) \/ (k <> -1 /\ rd (all_arcs g) k = Some a).
Proof.
  intros H. destruct (rd_concat_inv _ _ _ H) as (r & l & j & H1 & H2 & _). unfold TG in H1. rewrite rd_imap in H1. destruct (rd g r) as [st|] eqn:E; [|discriminate]. injection H1 as <-. replace (0 + r) with r in H2 by lia. pose proof (rd_Some_bound _ _ _ E). apply rd_In in H2. apply in_app_or in H2 as [H2|H2].
  - left. destruct (r + 1 <? nstates g) eqn:L; [|destruct H2]. destruct H2 as [H2|[]]. injection H2 as <- <-. split; [reflexivity|]. exists r. unfold final. unfold nstates in L. split; [lia|reflexivity].
  - right. apply In_rd in H2 as (j' & _ & H2). rewrite rd_imap in H2. destruct (rd st j') as [b|] eqn:Eb; [|discriminate]. injection H2 as <- <-. pose proof (rd_Some_bound _ _ _ Eb). pose proof (off1_nonneg g r). split; [lia|]. eapply rd_concat_off; eauto.
Qed.
Lemma TG_sur g k a : rd (all_arcs g) k = Some a -> exists i, rd (concat (TG g)) i = Some (a, k).
Proof.
  intros H. destruct (rd_concat_inv _ _ _ H) as (r & st & j & H1 & H2 & -> & _).
  assert (Hr : rd (TG g) r = Some ((if r + 1 <? nstates g then [(mkArc r r 0 0, -1)] else []) ++ imap (fun j a => (a, off1 g r + j)) 0 st)).
  { unfold TG. rewrite rd_imap, H1. cbn. reflexivity. }
  pose proof (rd_Some_bound _ _ _ H2).
  eexists. eapply rd_concat_off; [exact Hr|]. instantiate (1 := zlen (if r + 1 <? nstates g then [(mkArc r r 0 0, -1)] else []) + j). rewrite rd_app.
  set (c := zlen _). pose proof (zlen_nonneg (if r + 1 <? nstates g then [(mkArc r r 0 0, -1)] else [])) as N. fold c in N. replace (c + j <? c) with false by lia. replace (c + j - c) with j by lia. rewrite rd_imap, H2. reflexivity.
Qed.

Lemma strip_noeps l : (forall a, In a l -> lab a <> 0) -> strip (labels l) = labels l.
Proof. intros H. unfold strip, labels. induction l as [|a l IH]; [reflexivity|]. cbn. pose proof (H a (or_introl eq_refl)). replace (lab a =? 0) with false by lia. cbn. f_equal. apply IH. intros; apply H; now right. Qed.

Section One.
  Variables (f g : nfsa) (der : list (list Z)).
  Hypothesis HR : epsilon_removed f g der.
  Hypothesis HS : src_ok g.
  Hypothesis HF : forall a, In a (all_arcs g) -> src a <> final g.
  Local Notation h := (add_loops g).

  Lemma rd_h i a : rd (all_arcs h) i = Some a -> exists k, rd (concat (TG g)) i = Some (a, k) /\ rd (mg g) i = Some k.
  Proof.
    rewrite <- TG_all, rd_map. unfold mg. rewrite rd_map. destruct (rd (concat (TG g)) i) as [[a' k]|]; [|discriminate]. intros [= <-]. exists k. auto.
  Qed.
  Lemma row_dh i k : rd (mg g) i = Some k -> row (dh g der) i = row der k.
  Proof. intros H. unfold row at 1, dh. rewrite rd_map, H. reflexivity. Qed.
  Lemma row_neg : row der (-1) = [].
  Proof. reflexivity. Qed.

  Lemma down s q t : apath h s q t -> exists q', apath g s q' t /\ concat (map (row (dh g der)) q) = concat (map (row der) q') /\
    labels (arcs_at g q') = strip (labels (arcs_at h q)) /\ score (arcs_at g q') = score (arcs_at h q).
  Proof.
    induction 1 as [|j a p t Ha Hp (q' & I1 & I2 & I3 & I4)].
    - exists []. repeat split; auto using ap_nil.
    - destruct (rd_h j a Ha) as (k & H1 & H2). cbn [map concat]. rewrite (row_dh _ _ H2).
      assert (EA : arcs_at h (j :: p) = a :: arcs_at h p) by (unfold arcs_at; cbn [flat_map]; rewrite Ha; reflexivity).
      rewrite EA. destruct (TG_inv g j a k H1) as [(-> & s & _ & ->)|(Hk & Hg)].
      + rewrite row_neg. exists q'. cbn [src dst] in *. split; [exact I1|]. split; [exact I2|]. split; [exact I3|]. rewrite I4. unfold score. cbn. lia.
      + exists (k :: q'). split; [now apply ap_cons|]. cbn [map concat]. rewrite I2. split; [reflexivity|].
        assert (EG : arcs_at g (k :: q') = a :: arcs_at g q') by (unfold arcs_at; cbn [flat_map]; rewrite Hg; reflexivity). rewrite EG. assert (NZ : lab a <> 0) by (apply HR; eapply rd_In; eauto). unfold labels, strip, score in *. cbn. rewrite I3, I4. replace (lab a =? 0) with false by lia. split; reflexivity.
  Qed.
  Lemma up s p t : apath g s p t -> exists q, apath h s q t /\ arcs_at h q = arcs_at g p.
  Proof.
    induction 1 as [|j a p t Ha Hp (q & I1 & I2)].
    - exists []. split; [apply ap_nil|reflexivity].
    - destruct (TG_sur g j a Ha) as (i & Hi). assert (Hh : rd (all_arcs h) i = Some a) by (rewrite <- TG_all, rd_map, Hi; reflexivity).
      exists (i :: q). split; [now apply ap_cons|]. unfold arcs_at in *. cbn [flat_map]. rewrite Ha, Hh, I2. reflexivity.
  Qed.

  Lemma nstates_h : nstates h = nstates g.
  Proof. apply zlen_add_loops. Qed.

  Lemma one_ok : epsilon_loops_only f h (dh g der).
  Proof.
    destruct HR as (R1 & R2 & R3 & R4). split; [|split; [|split; [|split]]].
    - intros s st Hs. destruct (rd g s) as [st0|] eqn:E0.
      2: { apply rd_Some_bound in Hs. rewrite zlen_add_loops in Hs. apply rd_None in E0. lia. }
      rewrite (rd_add_loops g s st0 E0) in Hs. injection Hs as <-. pose proof (rd_Some_bound _ _ _ E0).
      assert (N : filter (fun a => lab a =? 0) st0 = []).
      { assert (G : forall a, In a st0 -> lab a <> 0) by (intros a Ha; apply R1; apply in_concat; exists st0; split; [eapply rd_In; eauto|exact Ha]).
        clear - G. induction st0 as [|a st0 IH]; [reflexivity|]. cbn. pose proof (G a (or_introl eq_refl)). replace (lab a =? 0) with false by lia. apply IH. intros; apply G; now right. }
      unfold final. rewrite zlen_add_loops. destruct (Z.eqb_spec s (zlen g - 1)).
      + replace (s + 1 <? zlen g) with false by lia. exact N.
      + replace (s + 1 <? zlen g) with true by lia. cbn. rewrite N. reflexivity.
    - unfold dh, mg. rewrite !zlen_map, <- TG_all, zlen_map. reflexivity.
    - intros j a Ha L. destruct (rd_h j a Ha) as (k & H1 & H2). destruct (TG_inv g j a k H1) as [(-> & _)|(_ & Hg)].
      + unfold dh. rewrite rd_map, H2. reflexivity.
      + exfalso. apply (R1 a); [eapply rd_In; eauto|exact L].
    - intros q (H0 & Hq). rewrite nstates_h in *. destruct (down _ _ _ Hq) as (q' & A1 & A2 & A3 & A4). change (concat (map _ q)) with (concat (map (row (dh g der)) q)). rewrite A2.
      destruct (R3 q' (conj H0 A1)) as (B1 & B2 & B3). change (concat (map _ q')) with (concat (map (row der) q')) in *. split; [exact B1|]. rewrite B2, B3. auto.
    - intros p Hp. destruct (R4 p Hp) as (q & (Q0 & Q1) & Q2 & Q3). destruct (up _ _ _ Q1) as (q' & U1 & U2). exists q'. rewrite U2. split; [split; rewrite nstates_h; auto|]. split; [|exact Q3].
      rewrite strip_noeps; [exact Q2|]. intros a Ha. apply in_flat_map in Ha as (j & _ & Ha). destruct (rd (all_arcs g) j) as [b|] eqn:Eb; [|destruct Ha]. destruct Ha as [<-|[]]. apply R1. eapply rd_In; eauto.
  Qed.
End One.

Lemma carry_ok D m : (forall i, In i m -> i = -1 \/ 0 <= i < zlen D) -> carry_rows D m = Some (map (row D) m).
Proof.
  intros H. unfold carry_rows. induction m as [|i m IH]; [reflexivity|]. cbn [mapM map].
  assert (E : (if i =? -1 then Some [] else rd D i) = Some (row D i)).
  { destruct (Z.eqb_spec i (-1)) as [->|]; [reflexivity|]. destruct (H i (or_introl eq_refl)); [lia|]. destruct (rd_in_bound D i) as (d & Hd); [lia|]. unfold row. rewrite Hd. reflexivity. }
  rewrite E, IH by (intros; apply H; now right). reflexivity.
Qed.

Section Batch.
  Variables (gs : list nfsa) (ders : list (list (list Z))).
  Hypothesis HO : vec_ok gs.
  Hypothesis HL : zlen ders = zlen gs.
  Hypothesis HD : forall k g d, rd gs k = Some g -> rd ders k = Some d -> zlen d = zlen (all_arcs g).

  Definition newders : list (list (list Z)) := imap (fun k g => map (fun t => row (concat ders) (snd t)) (concat (imap (tri gs k g) 0 g))) 0 gs.

  Lemma off_ders k : 0 <= k <= zlen gs -> off1 ders k = off1 (map all_arcs gs) k.
  Proof.
    intros Hk. replace k with (Z.of_nat (Z.to_nat k)) in * by lia. revert Hk. generalize (Z.to_nat k) as d. induction d as [|d IH]; intros Hk.
    - change (Z.of_nat 0) with 0. unfold off1; reflexivity.
    - destruct (rd_in_bound gs (Z.of_nat d) ltac:(lia)) as (g & Hg). destruct (rd_in_bound ders (Z.of_nat d) ltac:(lia)) as (x & Hx). replace (Z.of_nat (S d)) with (Z.of_nat d + 1) by lia.
      rewrite (off1_next ders _ x Hx), (off1_next (map all_arcs gs) _ (all_arcs g)) by (rewrite rd_map, Hg; reflexivity). rewrite IH by lia. rewrite (HD _ _ _ Hg Hx). reflexivity.
  Qed.
  Lemma zlen_ders : zlen (concat ders) = zlen (concat (concat gs)).
  Proof.
    rewrite <- off1_all, HL, off_ders by (pose proof (zlen_nonneg gs); lia). rewrite <- (zlen_map all_arcs gs), off1_all. unfold all_arcs. rewrite concat_map_concat. reflexivity.
  Qed.

  Lemma newders_rd k g d : rd gs k = Some g -> rd ders k = Some d -> rd newders k = Some (dh g d).
  Proof.
    intros Hg Hd. unfold newders. rewrite rd_imap, Hg. cbn [option_map]. replace (0 + k) with k by lia. f_equal. unfold dh, mg, TG. rewrite map_map, !concat_map. f_equal. rewrite !map_imap.
    apply imap_ext. intros r st Hr. replace (0 + r) with r by lia. unfold tri. rewrite !map_app. unfold nstates. f_equal; [destruct (_ <? _); reflexivity|]. rewrite !map_imap. apply imap_ext. intros j a Ha. cbn [snd]. replace (0 + j) with j by lia.
    pose proof (rd_Some_bound _ _ _ Hr). pose proof (rd_Some_bound _ _ _ Ha). pose proof (rd_Some_bound _ _ _ Hg).
    destruct (rd_concat_off _ _ _ _ _ Hr Ha) as (X & _). pose proof (rd_Some_bound _ _ _ X). pose proof (HD _ _ _ Hg Hd) as LD. unfold all_arcs in LD.
    destruct (rd_in_bound d (off1 g r + j)) as (x & Hx); [lia|].
    rewrite (off1_concat gs k g r Hg) by lia. rewrite <- off1_map_concat. change (off1 (map (@concat arc) gs) k) with (off1 (map all_arcs gs) k). rewrite <- off_ders by lia. rewrite <- Z.add_assoc. unfold row. rewrite Hx. destruct (rd_concat_off _ _ _ _ _ Hd Hx) as (Y & _). rewrite Y. reflexivity.
  Qed.

  Lemma batch_ok ord : fair ord -> let n := zlen (v_rs2 (flat_vec gs)) - 1 in
    exists o, add_eps_loops_vec (ord (zlen (v_arcs (flat_vec gs)) + n)) (ord n) (flat_vec gs) = Some o /\ vo_vec o = flat_vec (map add_loops gs) /\ carry_rows (concat ders) (vo_map o) = Some (concat newders).
  Proof.
    intros FO n. assert (En : n = zlen (concat gs)) by (unfold n, flat_vec; cbn [v_rs2]; rewrite zlen_splits_of; lia). rewrite En. clear n En. change (v_arcs (flat_vec gs)) with (concat (concat gs)).
    destruct (add_eps_vec_eq gs HO _ _ (FO _) (FO _)) as (rids & m & E & K). eexists. split; [exact E|]. cbn [vo_vec vo_map]. split; [reflexivity|].
    assert (EM : m = map snd (concat (concat (LT gs)))).
    { destruct (Z.eq_dec (zlen (concat gs)) 0) as [Z0|NZ].
      - unfold add_eps_loops_vec in E. cbn [flat_vec v_rs2] in E. rewrite zlen_splits_of in E. replace (zlen (concat gs) + 1 - 1 =? 0) with true in E by lia. injection E as _ _ _ _ <-.
        assert (C : concat (LT gs) = []) by (apply zlen_0_nil; rewrite <- off1_all; unfold LT; rewrite zlen_imap; fold (LT gs); rewrite (off1_LT gs) by (pose proof (zlen_nonneg gs); lia); rewrite off1_all; exact Z0). rewrite C. reflexivity.
      - apply K. intros C. rewrite C in NZ. apply NZ. reflexivity. }
    subst m. rewrite carry_ok.
    - f_equal. rewrite map_map. assert (G : forall (L : list (list (list (arc * Z * Z)))), map (fun t => row (concat ders) (snd t)) (concat (concat L)) = concat (map (fun F => map (fun t => row (concat ders) (snd t)) (concat F)) L)).
      { induction L as [|F L IH]; [reflexivity|]. cbn [concat map]. rewrite concat_app, map_app, IH. reflexivity. }
      rewrite G. unfold LT, newders. rewrite map_imap. reflexivity.
    - intros i Hi. apply in_map_iff in Hi as (t & <- & Ht). apply In_rd in Ht as (p & _ & Hp). destruct (add_eps_vec_map gs p t Hp) as [(X & _)|X]; [now left|]. right. rewrite zlen_ders. eapply rd_Some_bound; eauto.
  Qed.
End Batch.
