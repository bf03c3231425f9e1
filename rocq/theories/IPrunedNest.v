(** * The frames of the pruned intersection as nested lists, and pruning on them *)
From Coq Require Import ZArith List Lia Bool QArith.
From Coq Require Import ZifyBool ZifyNat.
From Verif Require Import Base RaggedModel RaggedSpec RaggedProofs FsaSpec FsaLemmas RaggedOpsModel OpsModel RaggedOpsProofs ConnectProofs IDenseModel IPrunedModel.
From Verif Require GraphProofs RmDevRagged RmDevMap EpsLoopProofs IDenseInit IDenseOut IDevCore UniqueProps.
Import ListNotations.
Open Scope Z_scope.

Definition rows {S X} (N : list (list (S * list X))) : list (list X) := map snd (concat N).

(** the place of an arc *)
Record at_arc {S X} (N : list (list (S * list X))) (i k r j : Z) (p : list (S * list X)) (s : S) (xs : list X) (x : X) : Prop := {
  aa_p : rd N k = Some p; aa_s : rd p r = Some (s, xs); aa_x : rd xs j = Some x;
  aa_i : i = off1 (rows N) (off1 N k + r) + j }.

Lemma arc_at {S X} (N : list (list (S * list X))) i x : rd (concat (rows N)) i = Some x ->
  exists k r j p s xs, at_arc N i k r j p s xs x.
Proof.
  intros H. apply rd_concat_inv in H as (q & l & j & H1 & H2 & H3 & H4). unfold rows in H1. rewrite rd_map in H1.
  destruct (rd (concat N) q) as [[s xs]|] eqn:E; [|discriminate]. injection H1 as <-.
  apply rd_concat_inv in E as (k & p & r & G1 & G2 & G3 & G4). exists k, r, j, p, s, xs. subst. split; auto.
Qed.

Lemma state_at {S X} (N : list (list (S * list X))) k p r s xs : rd N k = Some p -> rd p r = Some (s, xs) ->
  rd (concat N) (off1 N k + r) = Some (s, xs) /\ rd (ids_of N) (off1 N k + r) = Some k /\
  rd (map fst (concat N)) (off1 N k + r) = Some s /\ rd (rows N) (off1 N k + r) = Some xs.
Proof.
  intros H1 H2. destruct (rd_concat_off _ _ _ _ _ H1 H2) as (H3 & H4). unfold rows. rewrite !rd_map, H3. auto.
Qed.
Lemma at_ids {S X} (N : list (list (S * list X))) i k r j p s xs x : at_arc N i k r j p s xs x ->
  rd (concat (rows N)) i = Some x /\ rd (ids_of (rows N)) i = Some (off1 N k + r).
Proof.
  intros [H1 H2 H3 H4]. destruct (state_at _ _ _ _ _ _ H1 H2) as (_ & _ & _ & G). subst i. apply (rd_concat_off _ _ _ _ _ G H3).
Qed.

(** a flat frame and the nested one *)
Notation nst := (sinfo * list ainfo)%type.
Notation nframe := (list (list nst)).
Record isS {X} (f : fr) (N : list (list (sinfo * list X))) : Prop := {
  is_rs1 : f_rs1 f = splits_of N; is_ids1 : f_ids1 f = ids_of N; is_st : f_states f = map fst (concat N) }.
Record isA (f : fr) (N : nframe) : Prop := {
  isa_s :> isS f N; is_rs2 : f_rs2 f = splits_of (rows N); is_ids2 : f_ids2 f = ids_of (rows N); is_arcs : f_arcs f = concat (rows N) }.

Lemma map_rel {A B C} (f : A -> C) (g : B -> C) (l : list A) (m : list B) : zlen l = zlen m ->
  (forall i x y, rd l i = Some x -> rd m i = Some y -> f x = g y) -> map f l = map g m.
Proof.
  intros H1 H2. apply list_ext_rd; [now rewrite !zlen_map|]. intros i Hi. rewrite zlen_map in Hi. rewrite !rd_map.
  destruct (rd_in_bound l i) as (x & Hx); [lia|]. destruct (rd_in_bound m i) as (y & Hy); [lia|]. rewrite Hx, Hy. cbn. f_equal. exact (H2 _ _ _ Hx Hy).
Qed.

(** same shapes *)
Definition same {S X S' X'} (N : list (list (S * list X))) (M : list (list (S' * list X'))) : Prop :=
  map (map (fun p => zlen (snd p))) N = map (map (fun p => zlen (snd p))) M.
Lemma same_off {S X S' X'} (N : list (list (S * list X))) (M : list (list (S' * list X'))) : same N M ->
  map zlen N = map zlen M /\ map zlen (rows N) = map zlen (rows M).
Proof.
  intros H. split.
  - apply (f_equal (map zlen)) in H. rewrite !map_map in H. erewrite (map_ext _ zlen), (map_ext (fun x : list (S' * list X') => _) zlen) in H; [exact H| |]; intros; cbn; now rewrite zlen_map.
  - apply (f_equal (@concat Z)) in H. rewrite <- !concat_map in H. unfold rows. rewrite !map_map. exact H.
Qed.
Lemma same_refs {S X S' X'} (N : list (list (S * list X))) (M : list (list (S' * list X'))) : same N M ->
  (forall k, off1 N k = off1 M k) /\ (forall k, off1 (rows N) k = off1 (rows M) k) /\
  splits_of N = splits_of M /\ ids_of N = ids_of M /\ splits_of (rows N) = splits_of (rows M) /\ ids_of (rows N) = ids_of (rows M) /\
  zlen (concat N) = zlen (concat M) /\ zlen (concat (rows N)) = zlen (concat (rows M)) /\ zlen N = zlen M.
Proof.
  intros H. destruct (same_off _ _ H) as (H1 & H2). destruct (IDevCore.same_sizes _ _ H1). destruct (IDevCore.same_sizes _ _ H2).
  split; [intros; now apply IDenseInit.off1_same|]. split; [intros; now apply IDenseInit.off1_same|]. do 4 (split; [assumption|]).
  rewrite <- (zsum_zlen_concat N), H1, zsum_zlen_concat. rewrite <- (zsum_zlen_concat (rows N)), H2, zsum_zlen_concat. split; [reflexivity|]. split; [reflexivity|].
  apply (f_equal zlen) in H1. now rewrite !zlen_map in H1.
Qed.

Section Dec.
Context (c : cfg).

(** is the state the final one of its graph *)
Definition fin (a : Z) : bool :=
  match (g <- rd (c_ids1 c) a;; rd (v_rs1 (c_v c)) (g + 1)) with Some nx => nx <=? a + 1 | None => false end.

(** 1276-1312: backward score of an arc; -inf when the arc is to be dropped *)
Definition bl (nx : list sinfo) (s : sinfo) (x : ainfo) : option Z :=
  match (if i_dst x =? -1 then None else rd nx (i_dst x)) with
  | Some d => match oadd (oadd (i_ll x) (s_b d)) (s_f s) with
              | Some y => if - c_obeam c <=? y then oadd (i_ll x) (s_b d) else None
              | None => None
              end
  | None => None
  end.
Definition bst (nx : list sinfo) (p : nst) : sinfo :=
  mkS (s_a (fst p)) (s_f (fst p)) (if fin (s_a (fst p)) then oneg (s_f (fst p)) else kmax (map (bl nx (fst p)) (snd p))).

Definition ok1 (nx : list sinfo) (p : nst) : Prop :=
  (exists g m, rd (c_ids1 c) (s_a (fst p)) = Some g /\ rd (v_rs1 (c_v c)) (g + 1) = Some m) /\
  forall x, In x (snd p) -> i_dst x = -1 \/ exists d, 0 <= i_dst x /\ rd nx (i_dst x) = Some d /\
    forall y, oadd (oadd (i_ll x) (s_b d)) (s_f (fst p)) = Some y -> y <= 2.

(** the frame with backward scores; every state comes with a flag, every arc with its
    backward score *)
Notation darc := (ainfo * option Z)%type.
Definition bw (N : nframe) (NX : list (list sinfo)) : list (list (sinfo * list darc)) :=
  map (fun q => map (fun p => (bst (snd q) p, map (fun x => (x, bl (snd q) (fst p) x)) (snd p))) (fst q)) (combine N NX).

Lemma rd_combine {A B} (l : list A) (m : list B) i : rd (combine l m) i = match rd l i, rd m i with Some x, Some y => Some (x, y) | _, _ => None end.
Proof.
  unfold rd. destruct (i <? 0); [reflexivity|]. generalize (Z.to_nat i) as n. clear i. revert m. induction l as [|x l IH]; intros [|y m] [|n]; cbn; auto.
  - destruct (nth_error l n); reflexivity.
Qed.
Lemma zlen_combine {A B} (l : list A) (m : list B) : zlen l = zlen m -> zlen (combine l m) = zlen l.
Proof. unfold zlen. intros H. rewrite combine_length. lia. Qed.

Lemma bw_row N NX k q : rd (bw N NX) k = Some q -> exists p nx, rd N k = Some p /\ rd NX k = Some nx /\
  q = map (fun p => (bst nx p, map (fun x => (x, bl nx (fst p) x)) (snd p))) p.
Proof.
  unfold bw. rewrite rd_map, rd_combine. destruct (rd N k) as [p|]; [|discriminate]. destruct (rd NX k) as [nx|]; [|discriminate]. intros [= <-]. eauto.
Qed.
Lemma bw_same N NX : zlen N = zlen NX -> same N (bw N NX).
Proof.
  intros H. unfold same. apply map_rel; [unfold bw; now rewrite zlen_map, zlen_combine|].
  intros k p q Hp Hq. destruct (bw_row _ _ _ _ Hq) as (p' & nx & H1 & H2 & ->). rewrite Hp in H1. injection H1 as <-.
  rewrite map_map. apply map_ext. intros. cbn. now rewrite zlen_map.
Qed.

Lemma seg_mapM {A B} (f : A -> B) (l : list A) o m seg : (forall j x, rd seg j = Some x -> rd l (o + j) = Some x) -> zlen seg = m ->
  mapM (fun j => x <- rd l (o + j);; Some (f x)) (zrange m) = Some (map f seg).
Proof.
  intros H <-. apply mapM_by_rd; [rewrite zlen_map, zlen_zrange by apply zlen_nonneg; reflexivity|].
  intros i y Hi. pose proof (rd_Some_bound _ _ _ Hi) as Bi. rewrite zlen_zrange in Bi by apply zlen_nonneg. rewrite rd_zrange in Hi by auto. injection Hi as <-.
  destruct (rd_in_bound seg i Bi) as (x & Hx). rewrite (H _ _ Hx), rd_map, Hx. reflexivity.
Qed.

Lemma backward_ok {X} f nf N (NX : list (list (sinfo * list X))) : isA f N -> isS nf NX -> zlen N = zlen NX ->
  (forall k p nx, rd N k = Some p -> rd NX k = Some nx -> Forall (ok1 (map fst nx)) p) ->
  let B := bw N (map (map fst) NX) in
  exists f', propagate_backward c f nf = Some (f', map (fun p => is_finite (s_b (fst p))) (concat B), map (fun x => is_finite (snd x)) (concat (rows B))) /\
    f_rs1 f' = splits_of B /\ f_ids1 f' = ids_of B /\ f_states f' = map fst (concat B) /\
    f_rs2 f' = splits_of (rows B) /\ f_ids2 f' = ids_of (rows B) /\ f_arcs f' = map fst (concat (rows B)).
Proof.
  intros [[F1 F2 F3] F4 F5 F6] [G1 G2 G3] HL Hok B. assert (HS : same N B) by (apply bw_same; now rewrite zlen_map).
  destruct (same_refs _ _ HS) as (O1 & O2 & E1 & E2 & E3 & E4 & L1 & L2 & L3).
  assert (Ea : concat (rows N) = map fst (concat (rows B))).
  { rewrite concat_map. f_equal. unfold rows. rewrite map_map. rewrite !concat_map. f_equal. apply map_rel; [exact L3|]. intros k p q Hp Hq. destruct (bw_row _ _ _ _ Hq) as (p' & nx & H1 & H2 & ->).
    rewrite Hp in H1. injection H1 as <-. rewrite map_map. apply map_ext. intros a. cbn. rewrite map_map. cbn. now rewrite map_id. }
  unfold propagate_backward.
  set (body1 := fun i => a <- rd (f_arcs f) i;; _).
  assert (A1 : mapM body1 (zrange (zlen (f_arcs f))) = Some (map (fun x => (snd x, is_finite (snd x))) (concat (rows B)))).
  { apply mapM_by_rd; [rewrite zlen_map, zlen_zrange by apply zlen_nonneg; rewrite F6; lia|].
    intros i y Hi. pose proof (rd_Some_bound _ _ _ Hi) as Bi. rewrite zlen_zrange in Bi by apply zlen_nonneg. rewrite rd_zrange in Hi by auto. injection Hi as <-.
    rewrite F6, L2 in Bi. destruct (rd_in_bound _ _ Bi) as (x & Hx). rewrite rd_map, Hx. cbn [option_map].
    destruct (arc_at _ _ _ Hx) as (k & r & j & q & s & xs & [H1 H2 H3 H4]).
    destruct (bw_row _ _ _ _ H1) as (p & nx & Hp & Hnx & Hq). subst q. rewrite rd_map in H2. destruct (rd p r) as [[s0 xs0]|] eqn:Er; [|discriminate]. cbn in H2. injection H2 as <- <-.
    rewrite rd_map in H3. destruct (rd xs0 j) as [x0|] eqn:Ex; [|discriminate]. cbn in H3. injection H3 as <-.
    rewrite rd_map in Hnx. destruct (rd NX k) as [nq|] eqn:Enq; [|discriminate]. cbn in Hnx. injection Hnx as <-.
    assert (AT : at_arc N i k r j p s0 xs0 x0) by (split; auto; now rewrite O2, O1).
    destruct (at_ids _ _ _ _ _ _ _ _ _ AT) as (J1 & J2). destruct (state_at _ _ _ _ _ _ Hp Er) as (_ & J3 & J4 & _).
    unfold body1. rewrite F6, J1, F5, J2, F2, J3, G1. rewrite rd_splits_off by (apply rd_Some_bound in Enq; lia).
    pose proof (Hok _ _ _ Hp Enq) as OK. rewrite Forall_forall in OK. specialize (OK _ (rd_In _ _ _ Er)) as (_ & OK). specialize (OK x0 (rd_In _ _ _ Ex)).
    cbn [fst snd]. unfold bl. destruct OK as [Hm|(d & H0 & Hd & Hle)].
    - rewrite Hm. cbn. reflexivity.
    - destruct (i_dst x0 =? -1) eqn:E; [lia|]. rewrite Hd. rewrite G3, F3, J4.
      rewrite rd_map in Hd. destruct (rd nq (i_dst x0)) as [[d' ys]|] eqn:Ed; [|discriminate]. cbn in Hd. injection Hd as <-.
      destruct (state_at _ _ _ _ _ _ Enq Ed) as (_ & _ & J5 & _). rewrite J5. cbn [fst snd] in *. cbv zeta.
      destruct (oadd (oadd (i_ll x0) (s_b d')) (s_f s0)) as [y|] eqn:Ey; [|reflexivity].
      specialize (Hle _ eq_refl). destruct (y <=? 2) eqn:E2'; [|lia]. cbn. destruct (- c_obeam c <=? y) eqn:E3'; [|reflexivity].
      destruct (oadd (i_ll x0) (s_b d')); [reflexivity|discriminate]. }
  rewrite A1. clear A1. 
  set (body2 := fun i => s <- rd (f_states f) i;; _).
  assert (A2 : mapM body2 (zrange (zlen (f_states f))) = Some (map fst (concat B))).
  { apply mapM_by_rd; [rewrite zlen_map, zlen_zrange by apply zlen_nonneg; rewrite F3, zlen_map; lia|].
    intros i y Hi. pose proof (rd_Some_bound _ _ _ Hi) as Bi. rewrite zlen_zrange in Bi by apply zlen_nonneg. rewrite rd_zrange in Hi by auto. injection Hi as <-.
    rewrite F3, zlen_map, L1 in Bi. destruct (rd_in_bound _ _ Bi) as ([s' xs'] & Hx). rewrite rd_map, Hx. cbn [option_map fst].
    apply rd_concat_inv in Hx as (k & q & r & H1 & H2 & H3 & H4).
    destruct (state_at _ _ _ _ _ _ H1 H2) as (K1 & _ & _ & K4).
    destruct (bw_row _ _ _ _ H1) as (p & nx & Hp & Hnx & Hq). subst q. rewrite rd_map in H2. destruct (rd p r) as [[s0 xs0]|] eqn:Er; [|discriminate]. cbn in H2. injection H2 as <- <-.
    rewrite rd_map in Hnx. destruct (rd NX k) as [nq|] eqn:Enq; [|discriminate]. cbn in Hnx. injection Hnx as <-.
    destruct (state_at _ _ _ _ _ _ Hp Er) as (J2 & J3 & J4 & J5).
    pose proof (Hok _ _ _ Hp Enq) as OK. rewrite Forall_forall in OK. specialize (OK _ (rd_In _ _ _ Er)) as ((g & m & OK1 & OK2) & _). cbn [fst] in OK1.
    unfold body2. rewrite F3, H3, <- O1, J4, F4. destruct (RmDevRagged.splits_nth _ _ _ J5) as (S1 & S2). rewrite S1, S2.
    replace (off1 (rows N) (off1 N k + r) + zlen xs0 - off1 (rows N) (off1 N k + r)) with (zlen xs0) by lia.
    rewrite (seg_mapM fst _ _ _ (map (fun x => (snd x, is_finite (snd x))) (map (fun x => (x, bl (map fst nq) s0 x)) xs0))).
    - rewrite OK1, OK2. f_equal. unfold bst, fin. cbn [fst snd]. rewrite OK1, OK2. rewrite !map_map. cbn. reflexivity.
    - intros j x Hj. rewrite O1, O2. rewrite rd_map in Hj |- *. destruct (rd (map (fun x0 => (x0, bl (map fst nq) s0 x0)) xs0) j) as [z|] eqn:Ez; [|discriminate].
      destruct (rd_concat_off _ _ _ _ _ K4 Ez) as (W & _). rewrite W. exact Hj.
    - rewrite !zlen_map. reflexivity. }
  rewrite A2. eexists. split; [rewrite !map_map; reflexivity|]. cbn. rewrite F1, F2, F4, F5, F6. repeat split; auto.
Qed.

End Dec.
