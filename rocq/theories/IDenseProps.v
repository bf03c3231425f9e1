(** * C42: intersect_dense *)
From Coq Require Import ZArith List Lia Bool.
From Verif Require Import Base RaggedModel RaggedSpec RaggedProofs FsaSpec FsaLemmas ScoreSpec ScorePaths ShortestSpec IntersectSpec IntersectPaths IDenseModel IDenseSpec IDensePaths IDenseRes IDenseInit IDenseSteps IDenseOut.
Import ListNotations.
Open Scope Z_scope.

Lemma dense_ext f rows beam mem loc g am bm am' bm' :
  (forall j, 0 <= j < zlen (all_arcs g) -> am j = am' j /\ bm j = bm' j) ->
  is_dense_intersection f rows beam mem loc g am bm -> is_dense_intersection f rows beam mem loc g am' bm'.
Proof.
  intros E (H1 & H2 & H3 & H4 & H5 & H6).
  assert (EM : forall q, successful g q -> map am q = map am' q).
  { intros q (_ & Hq). apply map_ext_in. intros j Hj. apply E. exact (apath_arcs g _ _ _ j Hq Hj). }
  split; [|split; [|split; [|split; [exact H4|split]]]].
  - intros q Hq. rewrite <- EM by assumption. destruct (H1 q Hq) as (X1 & X2 & X3 & X4). split; [exact X1|]. split; [exact X2|]. split; [exact X3|].
    intros t j a Hj Ha. rewrite <- (proj2 (E j (rd_Some_bound _ _ _ Ha))). exact (X4 t j a Hj Ha).
  - intros p Hp. destruct (H2 p Hp) as (q & (Q1 & Q2) & Q3). exists q. split; [split; [exact Q1|rewrite <- EM; assumption]|]. intros q' (Q4 & Q5). apply Q3. split; [exact Q4|rewrite EM; assumption].
  - intros j Hj. destruct (H3 j Hj) as (q & Q1 & Q2 & Q3). exists q. rewrite <- EM by assumption. auto.
  - intros j a Ha. destruct (E j (rd_Some_bound _ _ _ Ha)) as (E1 & E2). rewrite <- E1, <- E2. exact (H5 j a Ha).
  - intros q q' Hq Hq' X. apply H6; [assumption|assumption|]. rewrite !EM by assumption. exact X.
Qed.

Lemma up_nondecreasing l : (forall i j x y, i <= j -> rd l i = Some x -> rd l j = Some y -> x <= y) -> nondecreasing l = true.
Proof.
  induction l as [|x l IH]; [reflexivity|]. intros H. destruct l as [|y l]; [reflexivity|]. change (nondecreasing (x :: y :: l)) with ((x <=? y) && nondecreasing (y :: l)).
  apply andb_true_intro. split; [apply Z.leb_le; exact (H 0 1 x y ltac:(lia) eq_refl eq_refl)|]. apply IH. intros i j a b Hij Ha Hb. pose proof (rd_Some_bound _ _ _ Ha).
  apply (H (i + 1) (j + 1) a b); [lia| |]; rewrite rd_cons_S by lia; assumption.
Qed.

Section Main.
Variables (V : list nfsa) (seqs : list frames) (a2b : option (list Z)) (m : list Z) (cols stride : Z).
Hypothesis HI : dense_inputs V seqs a2b m cols stride.


Lemma h_src : Forall src_ok V.
Proof. destruct HI as (_ & H & _). apply Forall_forall. intros f Hf. apply (H f Hf). Qed.
Lemma h_dst : Forall (fun f : nfsa => forall a, In a (all_arcs f) -> 0 <= dst a < nstates f) V.
Proof. destruct HI as (_ & H & _). apply Forall_forall. intros f Hf a Ha. apply (H f Hf); assumption. Qed.
Lemma h_lab f a : In f V -> In a (all_arcs f) -> 0 <= lab a + 1 < cols.
Proof. destruct HI as (_ & H & _). intros Hf Ha. destruct (H f Hf) as (_ & _ & X). specialize (X a Ha). lia. Qed.
Lemma h_cols : cols <= stride /\ cols <= 65536.
Proof. destruct HI as (_ & _ & _ & _ & H1 & H2 & _). auto. Qed.
Lemma h_ns f : In f V -> zlen f < 65536.
Proof. destruct HI as (_ & H & _). intros Hf. apply (H f Hf). Qed.
Lemma h_n : 0 < zlen V < 65536.
Proof. apply HI. Qed.
Lemma h_rows r : In r (concat seqs) -> zlen r = stride.
Proof. destruct HI as (_ & _ & H & _). intros Hr. apply in_concat in Hr as (s & Hs & Hr). exact (proj2 (H s Hs) r Hr). Qed.
Lemma h_T s : In s seqs -> zlen s < 65536.
Proof. destruct HI as (_ & _ & H & _). intros Hs. apply (H s Hs). Qed.
Lemma h_sort : nonincreasing (map zlen seqs) = true.
Proof.
  destruct HI as (_ & _ & _ & H & _). apply nonincreasing_down. intros i j x y Hij Hx Hy. rewrite rd_map in Hx, Hy. destruct (rd seqs i) as [s|] eqn:E1; [|discriminate]. destruct (rd seqs j) as [s'|] eqn:E2; [|discriminate]. injection Hx as <-. injection Hy as <-. exact (H i j s s' Hij E1 E2).
Qed.
Lemma h_pair : pairing V seqs a2b m.
Proof. apply HI. Qed.
Lemma h_m : nondecreasing m = true /\ zlen m = zlen V /\ (forall j, In j m -> 0 <= j < zlen seqs).
Proof.
  pose proof h_pair as H. unfold pairing in H. pose proof h_n as HN. destruct a2b as [m'|].
  - destruct H as (_ & H1 & H2 & H3). split; [now apply up_nondecreasing|]. auto.
  - destruct H as (H1 & ->). split; [|split].
    + apply up_nondecreasing. intros i j x y Hij Hx Hy. pose proof (rd_Some_bound _ _ _ Hx) as B1. pose proof (rd_Some_bound _ _ _ Hy) as B2. rewrite zlen_zrange in * by lia. rewrite rd_zrange in Hx by lia. rewrite rd_zrange in Hy by lia. injection Hx as <-. injection Hy as <-. exact Hij.
    + apply zlen_zrange. lia.
    + intros j Hj. apply in_zrange in Hj. lia.
Qed.

Variable ord : Z -> list Z.
Hypothesis Ho : forall n, is_sched n (ord n).
Lemma mem_ok j rows t l x : rd seqs j = Some rows -> frame rows t l = Some x -> rd (concat (concat seqs)) ((first_row seqs j + t) * stride + (l + 1)) = Some (Some x).
Proof.
  intros Hj H. unfold frame in H. destruct (rd rows t) as [r|] eqn:Er; [|discriminate]. destruct (rd r (l + 1)) as [y|] eqn:Ey; [|discriminate]. subst y.
  pose proof (proj1 (rd_concat_off seqs j rows t r Hj Er)) as R. pose proof (rd_Some_bound _ _ _ R) as B.
  pose proof (proj1 (rd_concat_off (concat seqs) _ r (l + 1) _ R Ey)) as M. destruct h_m as (M1 & M2 & M3). rewrite (off1_rows V seqs m stride ord Ho h_rows h_T h_sort M1 M3) in M by lia. rewrite <- M. f_equal. change (first_row seqs j) with (off1 seqs j). lia.
Qed.

Lemma batch_ok b : 0 < b -> dense_batch V seqs m stride b (gs V seqs m b) (mapa V seqs m stride b) (mapb V seqs m stride b).
Proof.
  intros Hb. destruct h_m as (M1 & M2 & M3).
  assert (ZW : zlen (concat (W V seqs m b)) = zlen (concat (concat (gs V seqs m b)))) by (rewrite <- (zlen_map qarc), <- (arcs_gs V seqs m stride), zlen_map; reflexivity).
  split; [unfold gs; rewrite zlen_map; unfold VR; rewrite <- (zlen_map fst), combine_fst; [reflexivity|rewrite map_length; unfold zlen in M2; lia]|].
  split; [unfold mapa; rewrite zlen_map; exact ZW|]. split; [unfold mapb; rewrite zlen_map; exact ZW|].
  intros k f Hk. destruct (VR_of V seqs m cols ord 0 Ho h_lab h_ns h_T h_sort M1 M2 M3 k f Hk) as (rows & E).
  destruct (VR_rd V seqs m cols ord 0 Ho h_lab h_ns h_T h_sort M1 M2 M3 k f rows E) as (_ & j & J1 & J2).
  exists j, rows, (G f rows (cutk b (f, rows))). split; [exact J1|]. split; [exact J2|].
  split; [unfold gs; rewrite rd_map, E; reflexivity|].
  pose proof (V_s V h_src k f Hk) as Fs. pose proof (V_d V h_dst k f Hk) as Fd.
  split; [|split].
  - eapply dense_ext; [|exact (pruned_ok f rows b Fs Fd Hb (concat (concat seqs)) _ (fun t l x => mem_ok j rows t l x J2))].
    intros i Hi. destruct (rd_in_bound (all_arcs (G f rows (cutk b (f, rows)))) i Hi) as (a & Ha). destruct (maps_at V seqs m stride b k f rows i a E Ha) as (A1 & A2).
    assert (EB : forall fs, arcs_before fs k = first_arc fs k) by (intros fs; unfold arcs_before, first_arc, off1; now rewrite firstn_map).
    unfold at0. rewrite !EB, A1, A2. split; [unfold cutk; cbn [fst snd]; lia|]. cbv zeta. unfold soff. rewrite J1. change (first_row seqs j) with (off1 seqs j). unfold cutk. cbn [fst snd]. lia.
  - exact (pruned_valid f rows b Fs Fd (concat (concat seqs)) _ (fun t l x => mem_ok j rows t l x J2)).
  - exact (pruned_sorted f rows b Fs Fd (concat (concat seqs)) _ (fun t l x => mem_ok j rows t l x J2)).
Qed.

Lemma start_ok fuel dec beam ms ma : 0 < beam -> exists nf,
  intersect_dense ord fuel dec (flat_vec V) (flat_dense cols stride seqs) a2b beam ms ma = format_output ord fuel dec (g0 V seqs m cols stride nf) (steps V seqs m) ms ma beam.
Proof.
  intros Hb. destruct h_m as (M1 & M2 & M3). 
  destruct (construct_ok V seqs m cols stride ord beam Ho h_src h_dst h_lab h_cols h_ns h_n h_T h_sort M1 M2 M3 Hb) as (nf & C1 & C2 & C3).
  exists nf. unfold intersect_dense. cbn [flat_vec v_rs1 flat_dense b_rs].
  assert (EM : (match a2b with
        | None => check (zlen (splits_of V) =? zlen (splits_of seqs));; Some (zrange (zlen (splits_of V) - 1))
        | Some m => check (nondecreasing m);; Some m
        end) = Some m).
  { pose proof h_pair as H. unfold pairing in H. destruct a2b as [m'|].
    - destruct H as (-> & _). now rewrite M1.
    - destruct H as (H1 & ->). rewrite !zlen_splits_of, H1, Z.eqb_refl. do 2 f_equal. lia. }
  rewrite EM. fold (flat_dense cols stride seqs). rewrite C1.
  rewrite (steps_ok V seqs m cols stride ord 0 Ho h_src h_dst h_lab h_cols h_ns h_n h_rows h_T h_sort M1 M2 M3 nf C2 C3). reflexivity.
Qed.
End Main.

(** Whenever the function returns, the result is the pruned intersection of every
    graph with its sequence, for the beam that was finally used, and it respects
    the limits. *)
Theorem C42_intersect_dense : forall V seqs a2b m cols stride ord fuel dec beam max_states max_arcs r,
  (forall n, is_sched n (ord n)) -> (forall x l t, 0 < x -> 0 < dec x l t) ->
  dense_inputs V seqs a2b m cols stride -> 0 < beam ->
  intersect_dense ord fuel dec (flat_vec V) (flat_dense cols stride seqs) a2b beam max_states max_arcs = Some r ->
  exists gs mapa mapb beam',
    r = (splits_of gs, splits_of (concat gs), map (fun a => (src a, dst a, lab a, Some (sc a))) (concat (concat gs)), mapa, mapb, beam') /\
    0 < beam' /\ dense_batch V seqs m stride beam' gs mapa mapb /\
    zlen (concat gs) <= max_states /\ zlen (concat (concat gs)) <= max_arcs.
Proof.
  intros V seqs a2b m cols stride ord fuel dec beam ms ma r Ho Hd HI Hb H.
  destruct (start_ok V seqs a2b m cols stride HI ord Ho fuel dec beam ms ma Hb) as (nf & E). rewrite E in H.
  destruct (h_m V seqs a2b m cols stride HI) as (M1 & M2 & M3).
  pose proof (h_src V seqs a2b m cols stride HI) as H1. pose proof (h_dst V seqs a2b m cols stride HI) as H2. pose proof (h_lab V seqs a2b m cols stride HI) as H3. pose proof (h_cols V seqs a2b m cols stride HI) as H4.
  pose proof (h_ns V seqs a2b m cols stride HI) as H5. pose proof (h_n V seqs a2b m cols stride HI) as H6. pose proof (h_rows V seqs a2b m cols stride HI) as H7. pose proof (h_T V seqs a2b m cols stride HI) as H8. pose proof (h_sort V seqs a2b m cols stride HI) as H9.
  destruct (prune_states fuel dec (g0 V seqs m cols stride nf) (steps V seqs m) ms ma beam) as [p|] eqn:EP; [|unfold format_output in H; rewrite EP in H; discriminate].
  destruct (prune_ok V seqs m cols stride ord Ho H1 H3 H4 H5 H6 H8 H9 M1 M2 M3 nf dec ms ma fuel beam p Hd Hb EP) as (b' & Hb' & -> & L1 & L2).
  rewrite (format_ok V seqs m cols stride ord Ho H1 H2 H3 H4 H5 H6 H7 H8 H9 M1 M2 M3 nf dec ms ma fuel beam b' EP) in H. injection H as <-.
  exists (gs V seqs m b'), (mapa V seqs m stride b'), (mapb V seqs m stride b'), b'. split; [reflexivity|]. split; [exact Hb'|]. split; [exact (batch_ok V seqs a2b m cols stride HI ord Ho b' Hb')|]. auto.
Qed.
Print Assumptions C42_intersect_dense.

(** With limits that cannot be exceeded it returns, and the beam is the given one. *)
Theorem C42_no_limit : forall V seqs a2b m cols stride ord fuel dec beam max_states max_arcs,
  (forall n, is_sched n (ord n)) -> dense_inputs V seqs a2b m cols stride -> 0 < beam ->
  (forall s, In s seqs -> (zlen s + 1) * zlen (concat V) <= max_states /\ (zlen s + 1) * zlen (concat (concat V)) <= max_arcs) ->
  exists gs mapa mapb,
    intersect_dense ord (S fuel) dec (flat_vec V) (flat_dense cols stride seqs) a2b beam max_states max_arcs =
      Some (splits_of gs, splits_of (concat gs), map (fun a => (src a, dst a, lab a, Some (sc a))) (concat (concat gs)), mapa, mapb, beam) /\
    dense_batch V seqs m stride beam gs mapa mapb.
Proof.
  intros V seqs a2b m cols stride ord fuel dec beam ms ma Ho HI Hb HL.
  destruct (start_ok V seqs a2b m cols stride HI ord Ho (S fuel) dec beam ms ma Hb) as (nf & E).
  destruct (h_m V seqs a2b m cols stride HI) as (M1 & M2 & M3).
  pose proof (h_src V seqs a2b m cols stride HI) as H1. pose proof (h_dst V seqs a2b m cols stride HI) as H2. pose proof (h_lab V seqs a2b m cols stride HI) as H3. pose proof (h_cols V seqs a2b m cols stride HI) as H4.
  pose proof (h_ns V seqs a2b m cols stride HI) as H5. pose proof (h_n V seqs a2b m cols stride HI) as H6. pose proof (h_rows V seqs a2b m cols stride HI) as H7. pose proof (h_T V seqs a2b m cols stride HI) as H8. pose proof (h_sort V seqs a2b m cols stride HI) as H9.
  exists (gs V seqs m beam), (mapa V seqs m stride beam), (mapb V seqs m stride beam). split; [|exact (batch_ok V seqs a2b m cols stride HI ord Ho beam Hb)].
  rewrite E. apply (format_ok V seqs m cols stride ord Ho H1 H2 H3 H4 H5 H6 H7 H8 H9 M1 M2 M3 nf dec ms ma (S fuel) beam beam).
  destruct (VR_at V seqs m cols ord 0 Ho H3 H5 H8 H9 M1 M2 M3 0 ltac:(lia)) as (f0 & r0 & E0 & _). destruct (VR_rd V seqs m cols ord 0 Ho H3 H5 H8 H9 M1 M2 M3 0 f0 r0 E0) as (_ & j0 & _ & J2).
  destruct (HL r0 (rd_In _ _ _ J2)) as (L1 & L2).
  apply (prune_none V seqs m cols stride ord Ho H1 H3 H4 H5 H6 H8 H9 M1 M2 M3); unfold Tmax; rewrite E0; cbn [snd]; assumption.
Qed.
Print Assumptions C42_no_limit.

(** ** Graphs and log-probabilities *)
Lemma dense_rec f n (HV : valid f) : (forall a, In a (all_arcs f) -> lab a < n) -> forall L L0 p s, Forall (fun r => zlen r = n) L -> apath f s p (nstates f - 1) -> zlen p = zlen L + 1 ->
  dense_score f (segment_rows n (L0 ++ L)) (zlen L0) p = Some (score (arcs_at f p) + acoustic L (labels (arcs_at f p))).
Proof.
  intros HL. destruct HV as (V1 & V2 & V3). induction L as [|r L IH]; intros L0 p s HR Hp Hl; remember (nstates f - 1) as T eqn:ET.
  - change (zlen (@nil (list Z))) with 0 in Hl. destruct Hp as [s|j a p t Ha Hp]; [change (zlen (@nil Z)) with 0 in Hl; lia|]. rewrite zlen_cons in Hl.
    assert (p = []) by (apply zlen_0_nil; lia). subst p. assert (ED : dst a = nstates f - 1) by (inversion Hp; congruence). rewrite (arcs_at_cons f j [] a Ha). cbn [dense_score arcs_at flat_map]. rewrite Ha.
    destruct (V3 a (rd_In _ _ _ Ha)) as (A1 & A2 & A3 & A4). assert (EL : lab a = -1) by (apply A3; exact ED).
    unfold frame, segment_rows. rewrite app_nil_r. rewrite rd_app_r by (rewrite zlen_map; lia). rewrite zlen_map, Z.sub_diag. rewrite rd_cons, Z.eqb_refl. rewrite EL. change (-1 + 1) with 0. rewrite rd_cons, Z.eqb_refl. unfold score, labels. cbn [map oadd acoustic]. cbn [zsum]. f_equal; lia.
  - rewrite zlen_cons in Hl. destruct Hp as [s|j a p t Ha Hp]; [change (zlen (@nil Z)) with 0 in Hl; pose proof (zlen_nonneg L); lia|]. rewrite zlen_cons in Hl. inversion HR as [|? ? R1 R2]; subst.
    rewrite (arcs_at_cons f j p a Ha). cbn [dense_score]. rewrite Ha.
    specialize (IH (L0 ++ [r]) p (dst a) R2 Hp ltac:(lia)). rewrite <- app_assoc in IH. cbn [app] in IH. rewrite zlen_app in IH. change (zlen [r]) with 1 in IH. rewrite IH.
    assert (Hla : 0 <= lab a < zlen r).
    { split; [|apply HL; exact (rd_In _ _ _ Ha)]. destruct (V3 a (rd_In _ _ _ Ha)) as (A1 & A2 & A3 & A4). destruct (Z.eq_dec (lab a) (-1)) as [EL|]; [|lia]. exfalso. apply A3 in EL.
      destruct Hp as [s|j' a' p' t Ha' Hp']; [change (zlen (@nil Z)) with 0 in Hl; pose proof (zlen_nonneg L); lia|]. destruct (V3 a' (rd_In _ _ _ Ha')) as (_ & _ & _ & A4'). congruence. }
    destruct (rd_in_bound r (lab a) Hla) as (x & Hx).
    assert (FR : frame (segment_rows (zlen r) (L0 ++ r :: L)) (zlen L0) (lab a) = Some x).
    { unfold frame, segment_rows. pose proof (zlen_nonneg L0). pose proof (zlen_nonneg L). rewrite rd_app_l by (rewrite zlen_map, zlen_app, zlen_cons; lia). rewrite rd_map, rd_app_r, Z.sub_diag by lia. rewrite rd_cons, Z.eqb_refl. cbn [option_map].
      rewrite rd_cons_S by lia. rewrite rd_map, Hx. reflexivity. }
    rewrite FR. unfold score, labels. cbn [map oadd acoustic]. unfold at0. rewrite Hx. cbn [zsum]. f_equal; lia.
Qed.
(** Frames made from log-probabilities: every path of the graph with one label per
    frame has the score of the graph plus the log-probabilities of its labels, and
    there are no other paths with a finite score. *)
Theorem C42_scores : forall f n logits p,
  valid f -> (forall a, In a (all_arcs f) -> lab a < n) -> Forall (fun r => zlen r = n) logits ->
  dense_path f (segment_rows n logits) p <-> successful f p /\ zlen p = zlen logits + 1 /\
    dense_score f (segment_rows n logits) 0 p = Some (score (arcs_at f p) + acoustic logits (labels (arcs_at f p))).
Proof.
  intros f n logits p HV HL HR. assert (EZ : zlen (segment_rows n logits) = zlen logits + 1) by (unfold segment_rows; rewrite zlen_app, zlen_map; reflexivity). unfold dense_path. rewrite EZ. split; [|tauto].
  intros ((S1 & S2) & Hl). split; [split; assumption|]. split; [exact Hl|]. exact (dense_rec f n HV HL logits [] p 0 HR S2 Hl).
Qed.
Print Assumptions C42_scores.

(** The unpruned intersection: if the beam is wider than the difference of the scores
    of any two paths, every successful path of the graph with one label per frame is
    the image of exactly one successful path of the result, with the score of the
    graph plus the log-probabilities; and the result has no other paths. *)
Theorem C42_unpruned : forall f n logits beam mem loc g am bm,
  valid f -> (forall a, In a (all_arcs f) -> lab a < n) -> Forall (fun r => zlen r = n) logits ->
  is_dense_intersection f (segment_rows n logits) beam mem loc g am bm ->
  let total p := score (arcs_at f p) + acoustic logits (labels (arcs_at f p)) in
  let fits p := successful f p /\ zlen p = zlen logits + 1 in
  (forall p p', fits p -> fits p' -> total p' - total p < beam) ->
  (forall p, fits p -> exists! q, successful g q /\ map am q = p) /\
  (forall q, successful g q -> fits (map am q) /\ score (arcs_at g q) = total (map am q) /\ labels (arcs_at g q) = labels (arcs_at f (map am q))).
Proof.
  intros f n logits beam mem loc g am bm HV HL HR (H1 & H2 & _) total fits HB.
  assert (EZ : zlen (segment_rows n logits) = zlen logits + 1) by (unfold segment_rows; rewrite zlen_app, zlen_map; reflexivity).
  assert (SC : forall p, fits p -> dense_path f (segment_rows n logits) p /\ dense_score f (segment_rows n logits) 0 p = Some (total p)).
  { intros p (P1 & P2). assert (D : dense_path f (segment_rows n logits) p) by (split; [assumption|lia]). split; [exact D|]. apply (C42_scores f n logits p HV HL HR) in D. apply D. }
  split.
  - intros p Hp. apply H2. destruct (SC p Hp) as (D1 & D2). split; [exact D1|]. exists (total p). split; [exact D2|]. intros p' x' P1 P2.
    assert (F' : fits p') by (destruct P1; split; [assumption|lia]). destruct (SC p' F') as (_ & D'). rewrite P2 in D'. injection D' as ->. pose proof (HB p p' Hp F'). lia.
  - intros q Hq. destruct (H1 q Hq) as (D & LB & SCO & _). assert (F : fits (map am q)) by (destruct D; split; [assumption|lia]). split; [exact F|]. split; [|exact LB].
    destruct (SC _ F) as (_ & E). rewrite SCO in E. now injection E.
Qed.
Print Assumptions C42_unpruned.

(** ** Non-triviality *)
(** Two graphs over the symbols 0, 1: one with two arcs into the same state and a
    self-loop, one with a single path; a sequence of two frames and one of one. *)
Definition dense_ex_V : list nfsa :=
  [[[mkArc 0 0 0 (-1); mkArc 0 1 0 (-2); mkArc 0 1 1 (-5)]; [mkArc 1 1 1 0; mkArc 1 2 (-1) (-1)]; []];
   [[mkArc 0 1 1 7]; [mkArc 1 2 (-1) 3]; []]].
Definition dense_ex_seqs : list frames :=
  [segment_rows 2 [[-10; -20]; [-4; -3]]; segment_rows 2 [[-6; -7]]].
Example C42_inputs_ex : dense_inputs dense_ex_V dense_ex_seqs None [0; 1] 3 3 /\ dense_inputs dense_ex_V dense_ex_seqs (Some [0; 0]) [0; 0] 3 3 /\
  (forall f, In f dense_ex_V -> valid f).
Proof.
  assert (HV : forall f, In f dense_ex_V -> valid f) by (intros f [<-|[<-|[]]]; apply validb_ok; reflexivity).
  assert (P : forall a2b m, pairing dense_ex_V dense_ex_seqs a2b m -> dense_inputs dense_ex_V dense_ex_seqs a2b m 3 3).
  { intros a2b m HP. split; [vm_compute; split; congruence|]. split; [|split; [|split; [|split; [lia|split; [lia|exact HP]]]]].
    - intros f Hf. destruct (HV f Hf) as (V1 & _ & V3). split; [exact V1|]. split; [destruct Hf as [<-|[<-|[]]]; reflexivity|]. intros a Ha. destruct (V3 a Ha) as (D & _). split; [exact D|].
      destruct Hf as [<-|[<-|[]]]; cbn in Ha; repeat destruct Ha as [<-|Ha]; try contradiction; cbn; lia.
    - intros s [<-|[<-|[]]]; (split; [reflexivity|]); intros r Hr; cbn in Hr; repeat destruct Hr as [<-|Hr]; try contradiction; reflexivity.
    - intros i j s s' Hij Hi Hj. pose proof (rd_Some_bound _ _ _ Hi). pose proof (rd_Some_bound _ _ _ Hj). change (zlen dense_ex_seqs) with 2 in *.
      assert (i = 0 \/ i = 1) as [->| ->] by lia; assert (j = 0 \/ j = 1) as [->| ->] by lia; try lia; cbn in Hi, Hj; injection Hi as <-; injection Hj as <-; vm_compute; congruence. }
  split; [apply P; split; reflexivity|]. split; [apply P|exact HV].
  split; [reflexivity|]. split; [reflexivity|]. split; [intros j [<-|[<-|[]]]; vm_compute; split; congruence|].
  intros i j x y Hij Hx Hy. apply rd_In in Hx, Hy. destruct Hx as [<-|[<-|[]]], Hy as [<-|[<-|[]]]; lia.
Qed.
(** The first graph has four paths, the scores of which are -18, -20, -16 and -29. *)
Example C42_intersect_dense_ex :
  intersect_dense zrange 5 (fun x _ _ => x / 2) (flat_vec dense_ex_V) (flat_dense 3 3 dense_ex_seqs) None 100 1000 1000 =
    Some ([0; 5; 8], [0; 3; 5; 6; 7; 7; 8; 9; 9],
          [(0, 1, 0, Some (-11)); (0, 2, 0, Some (-12)); (0, 2, 1, Some (-25)); (1, 3, 0, Some (-6)); (1, 3, 1, Some (-8)); (2, 3, 1, Some (-3)); (3, 4, -1, Some (-1));
           (0, 1, 1, Some 0); (1, 2, -1, Some 3)],
          [0; 1; 2; 1; 2; 3; 4; 5; 6], [1; 1; 2; 4; 5; 5; 6; 11; 12], 100) /\
  (* with a limit on the number of states the beam is halved six times *)
  intersect_dense zrange 10 (fun x _ _ => x / 2) (flat_vec dense_ex_V) (flat_dense 3 3 dense_ex_seqs) None 100 7 1000 =
    Some ([0; 4; 7], [0; 1; 2; 3; 3; 4; 5; 5],
          [(0, 1, 0, Some (-12)); (1, 2, 1, Some (-3)); (2, 3, -1, Some (-1)); (0, 1, 1, Some 0); (1, 2, -1, Some 3)],
          [1; 3; 4; 5; 6], [1; 5; 6; 11; 12], 1).
Proof. split; vm_compute; reflexivity. Qed.

(** ** Labels without a column *)
Definition bad_graph : nfsa := [[mkArc 0 1 2 0]; [mkArc 1 2 (-1) 0]; []].
Definition bad_graph_2 : nfsa := [[mkArc 0 1 1 0; mkArc 0 1 9 0]; [mkArc 1 2 (-1) 0]; []].
Definition bad_rows : list frames := [segment_rows 2 [[-10; -20]]; segment_rows 2 [[-1; -2]]].

(** The bound on the labels is needed. There are two symbols and the graph reads the
    symbol 2, so no path has a finite score. The test of the code lets the label pass
    and reads the first score of the next row, and the result has the path. *)
Theorem C42_label_without_column_refuted : exists f V seqs rows gs mapa mapb,
  rd V 0 = Some f /\ rd seqs 0 = Some rows /\ Forall valid V /\
  (forall p, dense_path f rows p -> dense_score f rows 0 p = None) /\
  intersect_dense zrange 1 (fun x _ _ => x) (flat_vec V) (flat_dense 3 3 seqs) None 100 1000 1000 =
    Some (splits_of gs, splits_of (concat gs), map (fun a => (src a, dst a, lab a, Some (sc a))) (concat (concat gs)), mapa, mapb, 100) /\
  rd gs 0 = Some f.
Proof.
  exists bad_graph, [bad_graph; [[mkArc 0 1 1 7]; [mkArc 1 2 (-1) 3]; []]], bad_rows, (segment_rows 2 [[-10; -20]]),
    [bad_graph; [[mkArc 0 1 1 5]; [mkArc 1 2 (-1) 3]; []]], [0; 1; 2; 3], [3; 3; 8; 9].
  split; [reflexivity|]. split; [reflexivity|]. split; [apply Forall_cons; [apply validb_ok; reflexivity|]; apply Forall_cons; [apply validb_ok; reflexivity|]; apply Forall_nil|]. split; [|split; [vm_compute; reflexivity|reflexivity]].
  intros p ((_ & Hp) & Hl). change (zlen (segment_rows 2 [[-10; -20]])) with 2 in Hl. remember 0 as s eqn:Es in Hp. destruct Hp as [s|j a p t Ha Hp]; [discriminate Hl|].
  cbn [dense_score]. rewrite Ha. pose proof (rd_Some_bound _ _ _ Ha) as B. change (zlen (all_arcs bad_graph)) with 2 in B. assert (j = 0 \/ j = 1) as [->| ->] by lia; cbn in Ha; injection Ha as <-; [|discriminate Es]. reflexivity.
Qed.
Print Assumptions C42_label_without_column_refuted.

(** A label further out makes it read outside the matrix of scores. *)
Theorem C42_read_outside_refuted : exists f rows,
  valid f /\ (exists p x, dense_path f rows p /\ dense_score f rows 0 p = Some x) /\
  forall fuel, intersect_dense zrange (S fuel) (fun x _ _ => x) (flat_vec [f]) (flat_dense 3 3 [rows]) None 100 1000 1000 = None.
Proof.
  exists bad_graph_2, (segment_rows 2 [[-10; -20]]). split; [apply validb_ok; reflexivity|]. split.
  - exists [0; 2], (-20). split; [|reflexivity]. split; [|reflexivity]. split; [reflexivity|].
    apply (ap_cons bad_graph_2 0 (mkArc 0 1 1 0) [2] 2 eq_refl). apply (ap_cons bad_graph_2 2 (mkArc 1 2 (-1) 0) [] 2 eq_refl). apply ap_nil.
  - intros fuel. vm_compute. reflexivity.
Qed.
Print Assumptions C42_read_outside_refuted.
