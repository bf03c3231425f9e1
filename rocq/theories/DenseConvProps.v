(** * C41: conversion of a DenseFsaVec to an FsaVec. *)
From Coq Require Import ZArith List Lia Bool.
From Coq Require Import ZifyBool ZifyNat.
From Verif Require Import Base RaggedModel RaggedSpec RaggedProofs FsaSpec FsaLemmas EpsLoopProofs RaggedOpsModel RaggedOpsSpec RaggedOpsProofs RaggedCatProofs
  TransposeProofs OpsModel GraphModel GraphProofs LevProofs ConnectProofs ConnectProps DenseModel DenseSpec DenseProps.
Import ListNotations.
Open Scope Z_scope.

Lemma zlen_ids_of {A} (y : list (list A)) : zlen (ids_of y) = zlen (concat y).
Proof. unfold ids_of. apply zlen_ids_from. Qed.

Section C.
Variables (ns : Z) (G : list (list (list Z))).
Hypothesis NS : 1 <= ns.
Hypothesis HG : forall g, In g G -> 1 <= zlen g /\ forall row, In row g -> zlen row = ns + 1.
Notation F := (rows_fsa ns).
Notation fs := (map F G).
Notation n := (zlen (concat G)).

Lemma zlen_F g : zlen (F g) = zlen g + 1.
Proof using. clear. unfold rows_fsa. rewrite zlen_app, zlen_imap. reflexivity. Qed.
Lemma rd_F g t row : rd g t = Some row -> rd (F g) t = Some (if t + 1 =? zlen g then [mkArc t (t + 1) (-1) (DenseSpec.cell row 0)] else frame_arcs ns t row).
Proof using. clear. intros H. unfold rows_fsa. rewrite rd_app_l by (rewrite zlen_imap; apply rd_Some_bound in H; lia). rewrite rd_imap, H. cbn [option_map]. now rewrite Z.add_0_l. Qed.
Lemma rd_F_final g : rd (F g) (zlen g) = Some [].
Proof using. clear. unfold rows_fsa. rewrite rd_app_r by (rewrite zlen_imap; lia). rewrite zlen_imap. now replace (zlen g - zlen g) with 0 by lia. Qed.
Lemma off_F g : forall t, 0 <= t <= zlen g - 1 -> off1 (F g) t = t * ns.
Proof.
  intros t Ht. replace t with (Z.of_nat (Z.to_nat t)) in * by lia. induction (Z.to_nat t) as [|m IH]; [rewrite off1_0; lia|]. replace (Z.of_nat (S m)) with (Z.of_nat m + 1) in * by lia.
  destruct (rd_in_bound g (Z.of_nat m) ltac:(lia)) as (row & Hr). pose proof (rd_F g _ row Hr) as R. replace (Z.of_nat m + 1 =? zlen g) with false in R by lia. rewrite (off1_next _ _ _ R), IH by lia. unfold frame_arcs. rewrite zlen_tab by lia. lia.
Qed.
Lemma off_F_last g : 1 <= zlen g -> off1 (F g) (zlen g) = (zlen g - 1) * ns + 1.
Proof.
  intros L. destruct (rd_in_bound g (zlen g - 1) ltac:(lia)) as (row & Hr). pose proof (rd_F g _ row Hr) as R. replace (zlen g - 1 + 1 =? zlen g) with true in R by lia.
  replace (zlen g) with (zlen g - 1 + 1) at 1 by lia. rewrite (off1_next _ _ _ R), off_F by lia. reflexivity.
Qed.
Lemma zlen_cF g : In g G -> zlen (concat (F g)) = ns * zlen g + (1 - ns).
Proof.
  intros H. destruct (HG g H) as (L & _). pose proof (off1_all (F g)) as A. rewrite zlen_F in A. rewrite (off1_next _ _ _ (rd_F_final g)), off_F_last in A by auto. change (zlen (@nil arc)) with 0 in A. lia.
Qed.
Lemma off_fs k : 0 <= k <= zlen G -> off1 fs k = off1 G k + k.
Proof. intros Hk. rewrite (off1_tab_sizes G F 1 1); auto; [lia|]. intros l _. rewrite zlen_F. lia. Qed.
Lemma abase_fs k : 0 <= k <= zlen G -> zlen (concat (concat (firstn (Z.to_nat k) fs))) = ns * off1 G k + (1 - ns) * k.
Proof. intros Hk. rewrite <- off1_map_concat, map_map. apply (off1_tab_sizes G (fun g => concat (F g)) ns (1 - ns)); auto. intros l Hl. now apply zlen_cF. Qed.
(** position of the first arc of state t of FSA k *)
Lemma state_off k g t : rd G k = Some g -> 0 <= t <= zlen g -> off1 (concat fs) (off1 fs k + t) = off1 G k * ns - k * (ns - 1) + off1 (F g) t.
Proof.
  intros Hk Ht. pose proof (rd_Some_bound _ _ _ Hk). rewrite (off1_concat fs k (F g) t) by (rewrite ?rd_map, ?Hk, ?zlen_F; auto; lia). rewrite abase_fs by lia. lia.
Qed.
Lemma num_states : zlen (concat fs) = n + zlen G.
Proof. pose proof (zlen_nonneg G). rewrite <- !off1_all, zlen_map. apply off_fs. lia. Qed.
Lemma num_arcs : zlen (concat (concat fs)) = n * ns - (ns - 1) * zlen G.
Proof. pose proof (zlen_nonneg G). pose proof (abase_fs (zlen G) ltac:(lia)) as A. rewrite firstn_all2 in A by (rewrite map_length; unfold zlen; lia). rewrite A, off1_all. lia. Qed.

Lemma body_ok k g t row s : rd G k = Some g -> rd g t = Some row -> 0 <= s < ns ->
  let i := off1 G k + t in let st := off1 fs k + t in let a0 := off1 (concat fs) st + s in let lst := t + 1 =? zlen g in
  dense_body (concat G) (splits_of G) (ids_of G) (ids_of fs) ns (n + zlen G) (n * ns - (ns - 1) * zlen G) i s =
    if lst && (0 <? s) then Some ([], [], [])
    else Some ([(a0, mkArc t (t + 1) (if lst then -1 else s) (DenseSpec.cell row (if lst then 0 else s + 1)))], [(a0, st)],
               (if lst then [(st + 1, a0 + 1)] else []) ++ (if s =? 0 then (st, a0) :: (if i =? 0 then [(n + zlen G, n * ns - (ns - 1) * zlen G)] else []) else [])).
Proof.
  intros Hk Ht Hs. cbv zeta. unfold dense_body. pose proof (rd_Some_bound _ _ _ Hk). pose proof (rd_Some_bound _ _ _ Ht) as Bt. destruct (rd_concat_off G k g t row Hk Ht) as (R1 & R2). rewrite R2, !rd_splits_off by lia. rewrite (off1_next _ _ _ Hk).
  replace (off1 G k + t - off1 G k) with t by lia. replace (off1 G k + zlen g - off1 G k) with (zlen g) by lia. destruct ((t + 1 =? zlen g) && (0 <? s)) eqn:E; auto. rewrite R1.
  rewrite (state_off k g t) by (auto; lia). rewrite (off_F g t) by lia. rewrite off_fs by lia.
  assert (LR : zlen row = ns + 1) by (apply (HG g (rd_In _ _ _ Hk)); eapply rd_In; eauto).
  assert (RC : forall j, 0 <= j < ns + 1 -> rd row j = Some (DenseSpec.cell row j)) by (intros j Hj; unfold DenseSpec.cell; destruct (rd_in_bound row j ltac:(lia)) as (z & ->); auto).
  assert (RI : rd (ids_of fs) (off1 G k + t + k) = Some k).
  { replace (off1 G k + t + k) with (off1 fs k + t) by (rewrite off_fs by lia; lia). eapply (rd_concat_off fs k (F g) t); [now rewrite rd_map, Hk|exact (rd_F g t row Ht)]. }
  replace (off1 G k + k + t) with (off1 G k + t + k) by lia. destruct (t + 1 =? zlen g) eqn:EL.
  - assert (s = 0) by lia. subst s. change (0 + -1 + 1) with 0. change (0 + -1) with (-1). rewrite RC by lia. change (0 =? 0) with true. cbv iota. rewrite RI, Z.eqb_refl. reflexivity.
  - rewrite Z.add_0_r, RC by lia. destruct (s =? 0) eqn:Es; [rewrite RI, Z.eqb_refl|]; reflexivity.
Qed.
(** threads *)
Lemma thread_of p : 0 <= p < n * ns -> exists k g t row s, rd G k = Some g /\ rd g t = Some row /\ 0 <= s < ns /\ p / ns = off1 G k + t /\ p mod ns = s.
Proof.
  intros Hp. assert (Q : 0 <= p / ns < n) by (split; [apply Z.div_pos; lia|apply Z.div_lt_upper_bound; lia]). pose proof (Z.mod_pos_bound p ns ltac:(lia)). destruct (rd_in_bound (concat G) (p / ns) Q) as (row & Hr).
  destruct (rd_concat_inv G _ row Hr) as (k & g & t & H1 & H2 & H3 & _). exists k, g, t, row, (p mod ns). auto.
Qed.
Lemma of_thread k g t row s : rd G k = Some g -> rd g t = Some row -> 0 <= s < ns -> let p := (off1 G k + t) * ns + s in 0 <= p < n * ns /\ p / ns = off1 G k + t /\ p mod ns = s.
Proof.
  intros H1 H2 Hs. cbv zeta. destruct (rd_concat_off G k g t row H1 H2) as (R & _). apply rd_Some_bound in R. split; [nia|]. split; [rewrite Z.div_add_l by lia; rewrite Z.div_small by lia; lia|]. rewrite Z.add_comm, Z.mod_add by lia. now apply Z.mod_small.
Qed.
Lemma state_arcs k g t row s : rd G k = Some g -> rd g t = Some row -> 0 <= s < (if t + 1 =? zlen g then 1 else ns) ->
  let a0 := off1 (concat fs) (off1 fs k + t) + s in let lst := t + 1 =? zlen g in
  rd (concat (concat fs)) a0 = Some (mkArc t (t + 1) (if lst then -1 else s) (DenseSpec.cell row (if lst then 0 else s + 1))) /\ rd (ids_of (concat fs)) a0 = Some (off1 fs k + t).
Proof.
  intros Hk Ht Hs. cbv zeta. assert (Hk' : rd fs k = Some (F g)) by now rewrite rd_map, Hk. pose proof (rd_F g t row Ht) as R. destruct (rd_concat_off fs k (F g) t _ Hk' R) as (R1 & _). eapply (rd_concat_off (concat fs)); [exact R1|].
  destruct (t + 1 =? zlen g) eqn:E; [now replace s with 0 by lia|]. unfold frame_arcs. now rewrite rd_tab by lia.
Qed.

Lemma convert_run ord dur : fair ord -> G <> [] ->
  convert_dense_to_fsa_vec ord (mkDense (concat G) (splits_of G) dur) (ns + 1) = Some (flat_vec fs, ids_of (concat fs)).
Proof.
  intros FO NE. unfold convert_dense_to_fsa_vec. cbn [d_scores d_rs]. rewrite zlen_splits_of. replace (zlen G + 1 - 1) with (zlen G) by lia. replace (ns + 1 - 1) with ns by lia. rewrite row_ids_of_splits.
  assert (CS : change_sublist_size (splits_of G) 1 = splits_of fs).
  { rewrite (splits_map_sizes G F 1 1) by (intros; rewrite zlen_F; lia). unfold change_sublist_size. apply list_ext_rd; [now rewrite !zlen_imap|]. intros i Hi. rewrite !rd_imap. destruct (rd (splits_of G) i); cbn; f_equal; lia. }
  rewrite CS. replace (row_splits_to_row_ids (splits_of fs) (n + zlen G)) with (Some (ids_of fs)) by (rewrite <- num_states; symmetry; apply row_ids_of_splits).
  set (body := fun p => dense_body (concat G) (splits_of G) (ids_of G) (ids_of fs) ns (n + zlen G) (n * ns - (ns - 1) * zlen G) (p / ns) (p mod ns)).
  assert (N0 : 0 < n). { destruct G as [|g G'] eqn:EG; [congruence|]. destruct (HG g (or_introl eq_refl)) as (L & _). cbn [concat]. rewrite zlen_app. pose proof (zlen_nonneg (concat G')). lia. }
  assert (A : k2_fill (n * ns - (ns - 1) * zlen G) (ord (n * ns)) (fun p => w <- body p;; Some (fst (fst w))) = Some (concat (concat fs))).
  { rewrite <- num_arcs. apply (k2_fill_list _ (n * ns)); auto.
    - intros p Hp. destruct (thread_of p Hp) as (k & g & t & row & s & H1 & H2 & H3 & E1 & E2). unfold body. rewrite E1, E2, (body_ok k g t row s H1 H2 H3). destruct ((t + 1 =? zlen g) && (0 <? s)) eqn:EL; eexists; (split; [reflexivity|]); constructor; [|constructor].
      cbn [fst snd]. apply (state_arcs k g t row s H1 H2). destruct (t + 1 =? zlen g); lia.
    - intros j Hj. destruct (rd_in_bound _ j Hj) as (a & Ha). destruct (rd_concat_inv _ j a Ha) as (st & r & s & B1 & B2 & -> & _). destruct (rd_concat_inv fs st r B1) as (k & f & t & C1 & C2 & -> & _).
      rewrite rd_map in C1. destruct (rd G k) as [g|] eqn:Hk; [|discriminate]. injection C1 as <-. pose proof (rd_Some_bound _ _ _ C2) as Bt. rewrite zlen_F in Bt. destruct (Z.eq_dec t (zlen g)) as [->|Nt].
      + rewrite rd_F_final in C2. injection C2 as <-. rewrite rd_nil in B2. discriminate.
      + destruct (rd_in_bound g t ltac:(lia)) as (row & Hr). rewrite (rd_F g t row Hr) in C2. injection C2 as <-. pose proof (rd_Some_bound _ _ _ B2) as Bs.
        assert (S1 : 0 <= s < ns /\ (t + 1 =? zlen g) && (0 <? s) = false) by (destruct (t + 1 =? zlen g); [change (zlen [_]) with 1 in Bs; lia|unfold frame_arcs in Bs; rewrite zlen_tab in Bs by lia; split; auto; lia]). destruct S1 as (S1 & S2).
        destruct (of_thread k g t row s Hk Hr S1) as (P1 & P2 & P3). eexists _, _. split; [exact P1|]. unfold body. rewrite P2, P3, (body_ok k g t row s Hk Hr S1), S2. split; [reflexivity|]. now left. }
  assert (B : k2_fill (n * ns - (ns - 1) * zlen G) (ord (n * ns)) (fun p => w <- body p;; Some (snd (fst w))) = Some (ids_of (concat fs))).
  { rewrite <- num_arcs, <- zlen_ids_of. apply (k2_fill_list _ (n * ns)); auto.
    - intros p Hp. destruct (thread_of p Hp) as (k & g & t & row & s & H1 & H2 & H3 & E1 & E2). unfold body. rewrite E1, E2, (body_ok k g t row s H1 H2 H3). destruct ((t + 1 =? zlen g) && (0 <? s)) eqn:EL; eexists; (split; [reflexivity|]); constructor; [|constructor].
      cbn [fst snd]. apply (state_arcs k g t row s H1 H2). destruct (t + 1 =? zlen g); lia.
    - intros j Hj. rewrite zlen_ids_of in Hj. destruct (rd_in_bound _ j Hj) as (a & Ha). destruct (rd_concat_inv _ j a Ha) as (st & r & s & B1 & B2 & -> & _). destruct (rd_concat_inv fs st r B1) as (k & f & t & C1 & C2 & -> & _).
      rewrite rd_map in C1. destruct (rd G k) as [g|] eqn:Hk; [|discriminate]. injection C1 as <-. pose proof (rd_Some_bound _ _ _ C2) as Bt. rewrite zlen_F in Bt. destruct (Z.eq_dec t (zlen g)) as [->|Nt].
      + rewrite rd_F_final in C2. injection C2 as <-. rewrite rd_nil in B2. discriminate.
      + destruct (rd_in_bound g t ltac:(lia)) as (row & Hr). rewrite (rd_F g t row Hr) in C2. injection C2 as <-. pose proof (rd_Some_bound _ _ _ B2) as Bs.
        assert (S1 : 0 <= s < ns /\ (t + 1 =? zlen g) && (0 <? s) = false) by (destruct (t + 1 =? zlen g); [change (zlen [_]) with 1 in Bs; lia|unfold frame_arcs in Bs; rewrite zlen_tab in Bs by lia; split; auto; lia]). destruct S1 as (S1 & S2).
        destruct (of_thread k g t row s Hk Hr S1) as (P1 & P2 & P3). eexists _, _. split; [exact P1|]. unfold body. rewrite P2, P3, (body_ok k g t row s Hk Hr S1), S2. split; [reflexivity|]. now left. }
  assert (D : k2_fill (n + zlen G + 1) (ord (n * ns)) (fun p => w <- body p;; Some (snd w)) = Some (splits_of (concat fs))).
  { rewrite <- num_states. replace (zlen (concat fs) + 1) with (zlen (splits_of (concat fs))) by apply zlen_splits_of. apply (k2_fill_list _ (n * ns)); auto.
    - intros p Hp. destruct (thread_of p Hp) as (k & g & t & row & s & H1 & H2 & H3 & E1 & E2). unfold body. rewrite E1, E2, (body_ok k g t row s H1 H2 H3). destruct ((t + 1 =? zlen g) && (0 <? s)) eqn:EL; eexists; (split; [reflexivity|]); [constructor|].
      pose proof (rd_Some_bound _ _ _ H1). pose proof (rd_Some_bound _ _ _ H2). assert (RS : rd (concat fs) (off1 fs k + t) <> None) by (destruct (rd_concat_off fs k (F g) t _ ltac:(now rewrite rd_map, H1) (rd_F g t row H2)) as (R & _); rewrite R; discriminate).
      assert (BS : 0 <= off1 fs k + t < zlen (concat fs)) by (destruct (rd (concat fs) (off1 fs k + t)) eqn:Q; [eapply rd_Some_bound; eauto|congruence]).
      cbn [snd]. apply Forall_forall. intros w Iw. apply in_app_or in Iw as [Iw|Iw].
      + destruct (t + 1 =? zlen g) eqn:EL2; [|destruct Iw]. destruct Iw as [<- | []]. cbn [fst snd]. assert (s = 0) by lia. subst s. rewrite rd_splits_off by lia. f_equal. rewrite <- Z.add_assoc. replace (t + 1) with (zlen g) by lia. rewrite (state_off k g (zlen g)), (state_off k g t) by (auto; lia). rewrite off_F_last, off_F by lia. replace t with (zlen g - 1) by lia. lia.
      + destruct (s =? 0) eqn:Es; [|destruct Iw]. destruct Iw as [<- | Iw]; [cbn [fst snd]; rewrite rd_splits_off by lia; f_equal; lia|]. destruct (off1 G k + t =? 0); [|destruct Iw]. destruct Iw as [<- | []]. cbn [fst snd]. rewrite <- num_states, <- num_arcs. apply rd_splits_last.
    - intros j Hj. rewrite zlen_splits_of in Hj. destruct (Z.eq_dec j (zlen (concat fs))) as [->|Nj].
      + destruct (rd_in_bound (concat G) 0 ltac:(lia)) as (row & Hr). destruct (rd_concat_inv G 0 row Hr) as (k & g & t & H1 & H2 & H3 & _). destruct (of_thread k g t row 0 H1 H2 ltac:(lia)) as (P1 & P2 & P3). eexists _, _. split; [exact P1|]. unfold body. rewrite P2, P3, (body_ok k g t row 0 H1 H2 ltac:(lia)).
        change (0 <? 0) with false. rewrite andb_false_r. split; [reflexivity|]. cbn [snd]. rewrite map_app, in_app_iff. right. change (0 =? 0) with true. cbv iota. rewrite <- H3. change (0 =? 0) with true. right. left. cbn [fst]. symmetry. apply num_states.
      + destruct (rd_in_bound (concat fs) j ltac:(lia)) as (r & B1). destruct (rd_concat_inv fs j r B1) as (k & f & t & C1 & C2 & -> & _). rewrite rd_map in C1. destruct (rd G k) as [g|] eqn:Hk; [|discriminate]. injection C1 as <-. pose proof (rd_Some_bound _ _ _ C2) as Bt. rewrite zlen_F in Bt.
        destruct (HG g (rd_In _ _ _ Hk)) as (L & _). set (t' := if t =? zlen g then t - 1 else t). assert (Bt' : 0 <= t' < zlen g) by (unfold t'; destruct (t =? zlen g) eqn:Q; lia).
        destruct (rd_in_bound g t' Bt') as (row & Hr). destruct (of_thread k g t' row 0 Hk Hr ltac:(lia)) as (P1 & P2 & P3). eexists _, _. split; [exact P1|]. unfold body. rewrite P2, P3, (body_ok k g t' row 0 Hk Hr ltac:(lia)).
        change (0 <? 0) with false. rewrite andb_false_r. split; [reflexivity|]. cbn [snd]. rewrite map_app, in_app_iff. unfold t'. destruct (t =? zlen g) eqn:Q.
        * left. replace (t - 1 + 1 =? zlen g) with true by lia. left. cbn [fst]. lia.
        * right. change (0 =? 0) with true. left. reflexivity. }
  unfold body in A, B, D. cbv zeta. rewrite A, B, D. reflexivity.
Qed.
End C.

(** C41, conversion: the FsaVec of an accepted list of segments has one FSA per
    segment, a chain with an arc for every class and frame and one final arc. *)
Theorem C41_convert (ninf N T C trunc : Z) (x : list (list (list Z))) (segs : list (list Z)) d ord :
  shaped3 N T C x -> fair ord -> dense_fsa_vec ninf N T C x segs trunc = Some d ->
  exists fs, convert_dense_to_fsa_vec ord d (C + 1) = Some (flat_vec fs, ids_of (concat fs)) /\ zlen fs = zlen segs /\
    forall k q s dur, rd segs k = Some [q; s; dur] ->
      rd fs k = Some (map (fun t => tab C (fun c => mkArc t (t + 1) c (match rd (at2 x q (s + t)) c with Some y => y | None => 0 end))) (zrange (kept T s dur))
                      ++ [[mkArc (kept T s dur) (kept T s dur + 1) (-1) 0]] ++ [[]]).
Proof.
  intros HX FO E. destruct (C41_dense_fsa_vec ninf N T C trunc x HX segs) as (IFF & EQ). assert (OK : 0 <= trunc /\ segs <> [] /\ 0 < C /\ Forall (segment_ok N T trunc) segs) by (apply IFF; congruence). rewrite (EQ d E). clear IFF EQ E. destruct OK as (H1 & H2 & H3 & HF).
  set (G := map (segment_rows ninf T C x) segs). assert (HG : forall g, In g G -> 1 <= zlen g /\ forall row, In row g -> zlen row = C + 1).
  { intros g Hg. unfold G in Hg. apply in_map_iff in Hg as (seg & <- & Hs). rewrite Forall_forall in HF. specialize (HF seg Hs). destruct (zlen_rows ninf N T C trunc x seg HF) as (L1 & L2). split; [lia|].
    destruct HF as (q & s & dd & -> & Hq & Hs' & Hd & Ht). cbn [segment_rows]. intros row Hr. apply in_app_or in Hr as [Hr|[<- | []]].
    - apply in_map_iff in Hr as (t & <- & It). apply in_zrange in It. destruct (kept_range T s dd Hs' Hd) as (K1 & K2 & K3). destruct (rd_flat N T C x HX q (s + t) Hq ltac:(lia)) as (_ & L). rewrite zlen_cons, L. lia.
    - rewrite zlen_cons, zlen_repeat. lia. }
  exists (map (rows_fsa C) G). split; [apply convert_run; auto; try lia; unfold G; intros Q; apply map_eq_nil in Q; congruence|]. split; [unfold G; now rewrite !zlen_map|].
  intros k q s dur Hk. unfold G. rewrite !rd_map, Hk. cbn [option_map]. f_equal. assert (SO : segment_ok N T trunc [q; s; dur]) by (rewrite Forall_forall in HF; apply HF; eapply rd_In; eauto).
  destruct (zlen_rows ninf N T C trunc x _ SO) as (L1 & L2). unfold rows_fsa. rewrite app_assoc. f_equal. rewrite L1. cbn [segment_rows segment_frames] in *. set (K := kept T s dur) in *.
  apply list_ext_rd; [rewrite zlen_imap, !zlen_app, !zlen_map; reflexivity|]. intros t Ht. rewrite zlen_imap, zlen_app, zlen_map, zlen_zrange in Ht by lia. change (zlen [_]) with 1 in Ht. rewrite rd_imap. destruct (Z.eq_dec t K) as [->|Nt].
  - rewrite !rd_app_r by (rewrite zlen_map, zlen_zrange by lia; lia). rewrite !zlen_map, zlen_zrange by lia. replace (K - K) with 0 by lia. cbn. rewrite Z.add_0_l. replace (K + 1 =? K + 1) with true by lia. reflexivity.
  - rewrite !rd_app_l by (rewrite zlen_map, zlen_zrange by lia; lia). rewrite !rd_map, rd_zrange by lia. cbn [option_map]. rewrite Z.add_0_l. replace (t + 1 =? K + 1) with false by lia. unfold frame_arcs. f_equal. apply tab_ext. intros c Hc. unfold DenseSpec.cell. rewrite rd_cons. replace (c + 1 =? 0) with false by lia. now replace (c + 1 - 1) with c by lia.
Qed.
Print Assumptions C41_convert.

(** Two sequences of two frames and two classes; the second segment is truncated
    and the third is empty. *)
Example C41_ex : exists d v, dense_fsa_vec (-99) 2 2 2 [[[1; 2]; [3; 4]]; [[5; 6]; [7; 8]]] [[1; 0; 2]; [0; 1; 2]; [0; 0; 0]] 1 = Some d /\
  d = mkDense [[-99; 5; 6]; [-99; 7; 8]; [0; -99; -99]; [-99; 3; 4]; [0; -99; -99]; [0; -99; -99]] [0; 3; 5; 6] [2; 1; 0] /\
  convert_dense_to_fsa_vec rev_ord d 3 = Some v /\ v_rs2 (fst v) = [0; 2; 4; 5; 5; 7; 8; 8; 9; 9] /\
  dense_fsa_vec (-99) 2 2 2 [[[1; 2]; [3; 4]]; [[5; 6]; [7; 8]]] [[1; 0; 2]; [0; 1; 3]] 1 = None /\ shaped3 2 2 2 [[[1; 2]; [3; 4]]; [[5; 6]; [7; 8]]].
Proof.
  eexists _, _. split; [reflexivity|]. split; [reflexivity|]. split; [vm_compute; reflexivity|]. split; [reflexivity|]. split; [reflexivity|].
  split; [reflexivity|]. intros m [<- | [<- | []]]; split; auto; intros row [<- | [<- | []]]; reflexivity.
Qed.
