(** * The pruned intersection, from its inputs to its result *)
From Coq Require Import ZArith List Lia Bool QArith.
From Coq Require Import ZifyBool ZifyNat.
From Verif Require Import Base RaggedModel RaggedSpec RaggedProofs FsaSpec FsaLemmas RaggedOpsModel OpsModel RaggedOpsProofs ConnectProofs ScoreSpec ScorePaths ShortestSpec
  IDenseModel IDenseSpec IDensePaths IPrunedModel IPrunedSpec IPrunedNest IPrunedCut IPrunedMerge IPrunedFwd IPrunedCol IPrunedInv IPrunedPrune IPrunedAlive IPrunedRun IPrunedStart IPrunedOut IPrunedPath IPrunedOne.
From Verif Require RmDevRagged IDenseInit.
Import ListNotations.
Open Scope Z_scope.

Lemma zlen_removelast {A} (l : list A) : 1 <= zlen l -> zlen (removelast l) = zlen l - 1.
Proof. intros H. destruct (exists_last (l := l)) as (l' & x & ->); [intros ->; rewrite zlen_nil in H; lia|]. rewrite removelast_last, zlen_app, zlen_cons, zlen_nil. lia. Qed.
Lemma rd_removelast {A} (l : list A) i : i < zlen l - 1 -> rd (removelast l) i = rd l i.
Proof.
  intros H. destruct l as [|x0 l0]; [reflexivity|]. destruct (exists_last (l := x0 :: l0)) as (l' & x & E); [discriminate|]. rewrite E in *. rewrite removelast_last. rewrite zlen_app, zlen_cons, zlen_nil in H. now rewrite rd_app_l by lia.
Qed.
Lemma map_removelast {A B} (f : A -> B) l : map f (removelast l) = removelast (map f l).
Proof. induction l as [|x l IH]; [reflexivity|]. cbn. destruct l; [reflexivity|]. cbn [map] in *. now rewrite IH. Qed.
Lemma concat2 {A} (ll : list (list (list A))) : concat (concat ll) = concat (map (@concat A) ll).
Proof. induction ll as [|l ll IH]; cbn; [reflexivity|]. now rewrite concat_app, IH. Qed.
Lemma zlen_concat_mm {A B} (f : A -> B) ll : zlen (concat (map (map f) ll)) = zlen (concat ll).
Proof. rewrite <- concat_map. apply zlen_map. Qed.
Lemma fold_max_ge l x : In x l -> x <= fold_right Z.max 0 l.
Proof. induction l as [|y l IH]; [easy|]. intros [->|H]; cbn; [lia|specialize (IH H); lia]. Qed.

Section All.
Context (V : list nfsa) (seqs : list frames) (cols stride sbeam obeam mina maxa : Z) (partial : bool).
Hypothesis HI : pruned_inputs V seqs cols stride sbeam obeam mina maxa.
Notation n := (zlen seqs).

Definition TM : Z := fold_right Z.max 0 (map zlen seqs).
Lemma TM_ge k : 0 <= k < n -> 0 < zlen (rw seqs k) <= TM.
Proof.
  intros Hk. destruct HI as (_ & _ & _ & HS & _). unfold rw. destruct (rd_in_bound seqs k Hk) as (s & E). rewrite E. pose proof (rd_In _ _ _ E) as Hin. destruct (HS s Hin) as ((A & _) & _). split; [exact A|]. unfold TM. apply fold_max_ge. now apply in_map.
Qed.
Lemma TM_pos : 0 < TM.
Proof. destruct (TM_ge 0); [destruct HI; lia|lia]. Qed.

Lemma construct_ok : exists c, p_construct (flat_vec V) (flat_dense cols stride seqs) sbeam obeam mina maxa partial = Some c /\ setup V seqs cols stride c /\
  c_sbeam c = sbeam /\ c_obeam c = obeam /\ c_max c = maxa /\ c_partial c = partial /\ c_online c = false /\ (zlen V = 1 -> c_astride c = 0) /\ (forall k, gi c k = graph_index V k) /\ max_T c = Some TM.
Proof.
  destruct HI as (I1 & I2 & I3 & I4 & I5 & I6 & I7 & I8 & I9). set (c := mkCfg (flat_vec V) (ids_of V) (flat_dense cols stride seqs) n sbeam obeam mina maxa partial (if zlen V =? 1 then 0 else 1) (if zlen V =? 1 then zlen (concat V) else 0) 32 false).
  assert (SU : setup V seqs cols stride c). { split; try reflexivity; auto.
    - cbn. destruct (Z.eqb_spec (zlen V) 1) as [E|E]; [left; auto|right]. destruct I2 as [I2|I2]; [lia|auto].
    - intros f Hf. apply (I3 f Hf).
    - intros f a Hf. apply (I3 f Hf).
    - intros s r Hs. apply (I4 s Hs). }
  exists c. split; [|split; [exact SU|]].
  - unfold p_construct, p_make. cbn [flat_vec v_rs1 v_rs2 flat_dense b_rs]. rewrite !zlen_splits_of. replace (zlen V + 1 - 1) with (zlen V) by lia. replace (zlen (concat V) + 1 - 1) with (zlen (concat V)) by lia. replace (n + 1 - 1) with n by lia.
    replace (0 <? sbeam) with true by lia. replace (0 <? obeam) with true by lia. replace (0 <=? mina) with true by lia. replace (mina <? maxa) with true by lia. replace ((zlen V =? n) || (zlen V =? 1)) with true by lia. replace (1 <=? n) with true by lia. rewrite row_ids_of_splits.
    assert (K : 2 ^ 32 <= 2 ^ 40) by (apply Z.pow_le_mono_r; lia). remember (2 ^ 40) as P40. remember (2 ^ 32) as P32. cbv zeta. replace (_ <? P40) with true by lia. replace (_ <? P32) with true by lia. reflexivity.
  - cbn [c c_sbeam c_obeam c_max c_partial c_astride c_online]. repeat (split; [reflexivity|]). split; [intros ->; reflexivity|]. split.
    + intros k. unfold gi, graph_index. cbn. destruct (zlen V =? 1); lia.
    + unfold max_T. cbn [c c_n]. rewrite (mapM_Some_map _ (fun k => zlen (rw seqs k))).
      * f_equal. unfold TM. f_equal. apply list_ext_rd; [rewrite !zlen_map, zlen_zrange; [reflexivity|apply zlen_nonneg]|]. intros i Hi. rewrite zlen_map, zlen_zrange in Hi by apply zlen_nonneg. rewrite !rd_map, rd_zrange by lia. cbn. unfold rw. destruct (rd_in_bound seqs i Hi) as (s & ->). reflexivity.
      * intros k Hk. apply in_zrange in Hk. apply (final_at V seqs cols stride c SU k Hk).
Qed.

Section Fin.
Context (c : cfg) (SU : setup V seqs cols stride c).
Hypothesis Ec1 : c_sbeam c = sbeam.
Hypothesis Ec2 : c_obeam c = obeam.
Hypothesis Ec3 : c_max c = maxa.
Hypothesis Ec4 : c_partial c = partial.
Hypothesis Ec5 : forall k, gi c k = graph_index V k.
Notation T := TM.

Lemma RH0 k : 0 <= k < n -> 0 < zlen (rw seqs k) /\ (forall t, 0 <= t < zlen (rw seqs k) - 1 -> frame (rw seqs k) t (-1) = None) /\ (forall l, l <> -1 -> frame (rw seqs k) (zlen (rw seqs k) - 1) l = None).
Proof. intros Hk. destruct HI as (_ & _ & _ & HS & _). unfold rw. destruct (rd_in_bound seqs k Hk) as (s & E). rewrite E. apply (HS s (rd_In _ _ _ E)). Qed.

(** the columns without the last one *)
Lemma cinv_last k pmf H : 0 <= k < n -> cinv V seqs c k pmf H T -> zlen H = T + 2 -> cinv V seqs c k pmf (removelast H) (T + 1).
Proof.
  intros Hk CI ZH. destruct (TM_ge k Hk) as (B1 & B2). assert (ZR : zlen (removelast H) = T + 1) by (rewrite zlen_removelast; lia).
  assert (R : forall i, i < T + 1 -> rd (removelast H) i = rd H i) by (intros; apply rd_removelast; lia).
  assert (ON : forall i x, on (removelast H) i x -> on H i x /\ 0 <= i < T + 1). { intros i x (col & A & B). pose proof (rd_Some_bound _ _ _ A) as BB. rewrite ZR in BB. split; [exists col; rewrite <- R by lia; auto|lia]. }
  assert (NA : forall i x y, on (removelast H) i x -> In y (snd x) -> i < zlen (rw seqs k)).
  { intros i x y Hx Hy. destruct (ON _ _ Hx) as (Ho & _). destruct (ci_rng _ _ _ _ _ _ _ CI _ _ Ho) as (R1 & R2 & R3). destruct (Z.eq_dec i (zlen (rw seqs k))) as [E|E]; [|lia]. exfalso. destruct (ci_arc _ _ _ _ _ _ _ CI _ _ _ Ho Hy) as (j & a & _ & A2 & A3 & _).
    destruct (fvalid V seqs cols stride c SU k) as (_ & _ & V3); [lia|]. destruct (V3 a (rd_In _ _ _ A2)) as (_ & _ & _ & N). apply N. unfold final. apply R3 in E. lia. }
  split.
  - lia.
  - apply (ci_pm _ _ _ _ _ _ _ CI).
  - rewrite R by lia. apply (ci_0 _ _ _ _ _ _ _ CI).
  - intros i x Hx. apply (ci_rng _ _ _ _ _ _ _ CI). apply ON. exact Hx.
  - intros i x Hx. apply (ci_gen _ _ _ _ _ _ _ CI). apply ON. exact Hx.
  - intros i col Hc. pose proof (rd_Some_bound _ _ _ Hc) as B. rewrite R in Hc by lia. eapply (ci_nd _ _ _ _ _ _ _ CI); eauto.
  - intros i x y Hx Hy. destruct (ON _ _ Hx) as (Ho & _). pose proof (NA _ _ _ Hx Hy). destruct (ci_arc _ _ _ _ _ _ _ CI _ _ _ Ho Hy) as (j & a & A1 & A2 & A3 & A4 & A5). exists j, a. rewrite R by lia. auto 6.
  - intros i x Hx. apply (ci_and _ _ _ _ _ _ _ CI i). apply ON. exact Hx.
  - intros i x y Hx Hy _. destruct (ON _ _ Hx) as (Ho & _). pose proof (NA _ _ _ Hx Hy). apply (ci_clean _ _ _ _ _ _ _ CI i x y Ho Hy). lia.
Qed.
Lemma alive_last k p pmf H : 0 <= k < n -> zlen H = T + 2 -> alive V seqs c k p pmf H -> alive V seqs c k p pmf (removelast H).
Proof.
  intros Hk ZH (A1 & A2). destruct (TM_ge k Hk) as (B1 & B2). assert (ZR : zlen (removelast H) = T + 1) by (rewrite zlen_removelast; lia). split; [intros _; apply A1; lia|].
  intros i j Hi Hj. destruct (A2 i j ltac:(lia) Hj) as (x & y & (col & C1 & C2) & C3). exists x, y. split; [exists col; rewrite rd_removelast by lia; auto|exact C3].
Qed.

Context (r : run) (Ns : list nframe).
Hypothesis RI : rinv V seqs c T r Ns.
Hypothesis FI : finished T r = true.
Notation Fs := (removelast (r_frames r)).
Notation Ms := (removelast Ns).
Lemma rt : r_t r = T + 1 /\ r_done r = zlen (prune_windows T).
Proof. pose proof (ri_T _ _ _ _ _ _ RI). unfold finished in FI. lia. Qed.
Lemma eT : eprev 0 (prune_windows T) (r_done r) = T.
Proof.
  pose proof TM_pos as HT. destruct rt as (_ & ->). unfold eprev. pose proof (prune_windows_ok T HT) as W. assert (N : 0 < zlen (prune_windows T)) by (destruct (prune_windows T); [destruct W|]; rewrite zlen_cons; pose proof (zlen_nonneg l); lia).
  replace (zlen (prune_windows T) =? 0) with false by lia. destruct (rd_in_bound (prune_windows T) (zlen (prune_windows T) - 1)) as (w & Hw); [lia|]. rewrite Hw. apply (wok_at _ _ _ _ _ W Hw). reflexivity.
Qed.
Lemma zFs : zlen Fs = T + 1 /\ zlen Ms = T + 1.
Proof. destruct rt as (E & _). pose proof TM_pos. pose proof (ri_lf _ _ _ _ _ _ RI). pose proof (ri_ln _ _ _ _ _ _ RI). rewrite !zlen_removelast by lia. lia. Qed.
Lemma isA_last i f N : rd Fs i = Some f -> rd Ms i = Some N -> isA f N.
Proof.
  intros A B. destruct rt as (E & _). destruct zFs as (Z1 & Z2). pose proof (rd_Some_bound _ _ _ A) as B1. pose proof (ri_lf _ _ _ _ _ _ RI). pose proof (ri_ln _ _ _ _ _ _ RI). rewrite rd_removelast in A by lia. rewrite rd_removelast in B by lia. destruct (ri_fr _ _ _ _ _ _ RI _ _ _ A B) as (_ & X). apply X. lia.
Qed.
Lemma n_last N : In N Ms -> zlen N = n.
Proof.
  intros HN. apply In_rd in HN as (i & B & HN). destruct zFs as (_ & Z2). pose proof (ri_ln _ _ _ _ _ _ RI). destruct rt as (E & _). rewrite rd_removelast in HN by lia. apply (ri_n _ _ _ _ _ _ RI). eapply rd_In; eauto.
Qed.
Lemma col_last k : 0 <= k < n -> exists pmf, cinv V seqs c k pmf (map (colk k) Ms) (T + 1) /\ forall p z, goodp V seqs c k p z -> alive V seqs c k p pmf (map (colk k) Ms).
Proof.
  intros Hk. destruct (rd_in_bound (r_beams r) k) as (beam & Hb); [rewrite (ri_b _ _ _ _ _ _ RI); exact Hk|]. destruct (ri_col _ _ _ _ _ _ RI k beam Hb) as (pmf & C1 & C2). rewrite eT in C1. pose proof (ri_ln _ _ _ _ _ _ RI). destruct rt as (E & _).
  exists pmf. rewrite map_removelast. split; [apply cinv_last; auto; rewrite zlen_map; lia|]. intros p z G. apply alive_last; auto; [rewrite zlen_map; lia|]. apply (C2 p z G).
Qed.

Notation ok := (fun k => orow_k V seqs cols c (fun k => zlen (rw seqs k)) Ms k).
Notation gs := (map (fun k => map (map fst) (ok k)) (zrange n)).
Notation xs := (concat (concat (map ok (zrange n)))).
Notation mapa := (map (fun x : arc * (Z * Z) => fst (snd x)) xs).
Notation mapb := (map (fun x : arc * (Z * Z) => snd (snd x)) xs).
Lemma format_fin : p_format_output c 0 T Fs = Some (splits_of gs, splits_of (concat gs), map (fun a => (src a, dst a, lab a, Some (sc a))) (concat (concat gs)), mapa, mapb).
Proof.
  destruct zFs as (Z1 & Z2). apply (format_ok V seqs cols stride c SU T Fs Ms); auto.
  - intros k Hk. split; [apply TM_ge; exact Hk|]. apply (RH0 k Hk).
  - exact isA_last.
  - exact n_last.
  - intros k Hk. destruct (col_last k Hk) as (pmf & C & _). eauto.
Qed.

Lemma xs_at k i : 0 <= k < n -> 0 <= i < zlen (concat (ok k)) -> rd xs (arcs_before gs k + i) = rd (concat (ok k)) i.
Proof.
  intros Hk Hi. destruct (rd_in_bound _ _ Hi) as (x & Hx). rewrite Hx. rewrite concat2, map_map.
  assert (E : arcs_before gs k = off1 (map (fun k => concat (ok k)) (zrange n)) k). { unfold arcs_before, off1. rewrite firstn_map, map_map, firstn_map. unfold all_arcs. rewrite <- (zlen_concat_mm fst), map_map. f_equal. f_equal. apply map_ext. intros. now rewrite concat_map. }
  rewrite E. apply (rd_concat_off _ _ (concat (ok k))); [|exact Hx]. now rewrite rd_map, rd_zrange by lia.
Qed.
Lemma AB_before k : 0 <= k < n -> AB V c k = arcs_before V (graph_index V k).
Proof. intros Hk. unfold AB, vb. rewrite Ec5. unfold off1 at 1. rewrite RmDevRagged.firstn_off1. unfold arcs_before, all_arcs. now rewrite concat2. Qed.

Lemma batch_ok : pruned_batch V seqs cols sbeam obeam maxa partial gs mapa mapb.
Proof.
  pose proof (zlen_nonneg seqs) as Z0. split; [rewrite zlen_map, zlen_zrange by exact Z0; reflexivity|].
  assert (ZC : zlen xs = zlen (concat (concat gs))). { rewrite <- (map_map ok (map (map fst))), <- (concat_map (map fst)), <- concat_map, zlen_map. reflexivity. }
  split; [now rewrite zlen_map|]. split; [now rewrite zlen_map|]. intros k rows Hr. pose proof (rd_Some_bound _ _ _ Hr) as Hk. assert (ER : rw seqs k = rows) by (unfold rw; now rewrite Hr).
  destruct (col_at V seqs cols stride c SU k Hk) as (Hg & _). rewrite Ec5 in Hg. exists (gr V c k), (map (map fst) (ok k)). split; [exact Hg|]. split; [now rewrite rd_map, rd_zrange by lia|].
  destruct (col_last k Hk) as (pmf & CI & ALV). destruct zFs as (Z1 & Z2). destruct (TM_ge k Hk) as (B1 & B2). destruct (RH0 k Hk) as (_ & HR1 & HR2). set (H := map (colk k) Ms) in *. assert (ZH : zlen H = T + 1) by (unfold H; rewrite zlen_map; exact Z2).
  destruct (rd_in_bound H (zlen (rw seqs k))) as (fc & Hfc); [lia|]. assert (EF : fin_col (fun k => zlen (rw seqs k)) Ms k = fc) by (unfold fin_col; fold H; now rewrite Hfc).
  assert (Hfl : zlen fc <= 1). { rewrite <- EF. apply (fin_len V seqs c T Fs Ms); auto; [|exact isA_last|intros k' Hk'; destruct (col_last k' Hk') as (p' & C & _); eauto]. intros k' Hk'. split; [apply TM_ge; exact Hk'|apply (RH0 k' Hk')]. }
  assert (Hext : extra V c (fun k => zlen (rw seqs k)) Ms k = b2z (0 <? zlen (gr V c k)) * (1 - zlen fc)) by (unfold extra; now rewrite EF). assert (EG : map (map fst) (ok k) = pg V seqs cols c k H (off1 seqs k) (extra V c (fun k => zlen (rw seqs k)) Ms k)) by reflexivity. rewrite EG. set (ext := extra V c (fun k => zlen (rw seqs k)) Ms k) in *. set (r0 := off1 seqs k) in *. set (g := pg V seqs cols c k H r0 ext) in *.
  set (am := fun i : Z => let x := at0 mapa (arcs_before gs k + i) in if x =? -1 then -1 else x - arcs_before V (graph_index V k)). set (bm := fun i : Z => at0 mapb _). change (first_row seqs k) with r0.
  assert (EA : forall i, 0 <= i < zlen (all_arcs g) -> am i = pam V seqs cols c k H r0 ext i /\ bm i = pbm V seqs cols c k H r0 ext i).
  { intros i Hi. assert (Hi' : 0 <= i < zlen (concat (ok k))) by (unfold g, pg, all_arcs in Hi; rewrite zlen_concat_mm in Hi; exact Hi). destruct (rd_in_bound _ _ Hi') as (o & Ho). unfold am, bm, at0. rewrite !rd_map, (xs_at k i Hk Hi'), Ho. cbn [option_map]. rewrite <- AB_before by exact Hk. unfold pam, pbm.
    assert (Ho' : rd (concat (orow (gr V c k) (AB V c k) (zlen (rw seqs k)) r0 cols H ext)) i = Some o) by exact Ho. rewrite Ho'. auto. }
  rewrite <- Ec1, <- Ec2, <- Ec3, <- Ec4, <- ER. apply (one_ok V seqs cols stride c SU k Hk B1 HR1 HR2 pmf H (T + 1) CI ZH ltac:(lia) ALV r0 ext fc Hfc Hfl Hext am bm EA).
Qed.
End Fin.
End All.
