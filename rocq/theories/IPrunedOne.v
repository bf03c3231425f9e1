(** * One sequence: frames that satisfy the invariants make a pruned intersection *)
From Coq Require Import ZArith List Lia Bool QArith.
From Coq Require Import ZifyBool ZifyNat.
From Verif Require Import Base RaggedModel RaggedSpec RaggedProofs FsaSpec FsaLemmas RaggedOpsModel OpsModel RaggedOpsProofs ConnectProofs ScoreSpec ScorePaths ShortestSpec
  IDenseModel IDenseSpec IDensePaths IPrunedModel IPrunedSpec IPrunedNest IPrunedCut IPrunedMerge IPrunedFwd IPrunedCol IPrunedInv IPrunedPrune IPrunedAlive IPrunedRun IPrunedStart IPrunedOut IPrunedPath.
From Verif Require RmDevRagged IDenseInit.
Import ListNotations.
Open Scope Z_scope.

Section One.
Context (V : list nfsa) (seqs : list frames) (cols stride : Z) (c : cfg) (SU : setup V seqs cols stride c).
Context (k : Z) (Hk : 0 <= k < zlen seqs).
Hypothesis B1 : 0 < zlen (rw seqs k).
Hypothesis HR1 : forall t, 0 <= t < zlen (rw seqs k) - 1 -> frame (rw seqs k) t (-1) = None.
Hypothesis HR2 : forall l, l <> -1 -> frame (rw seqs k) (zlen (rw seqs k) - 1) l = None.
Context (pmf : bool) (H : list (list nst)) (L : Z).
Hypothesis CI : cinv V seqs c k pmf H L.
Hypothesis ZH : zlen H = L.
Hypothesis HL : zlen (rw seqs k) < L.
Hypothesis ALV : forall p z, goodp V seqs c k p z -> alive V seqs c k p pmf H.
Context (r0 ext : Z) (fc : list nst).
Hypothesis Hfc : rd H (zlen (rw seqs k)) = Some fc.
Hypothesis Hfl : zlen fc <= 1.
Hypothesis Hext : ext = b2z (0 <? zlen (gr V c k)) * (1 - zlen fc).
Notation g := (pg V seqs cols c k H r0 ext).
Context (am bm : Z -> Z).
Hypothesis EA : forall i, 0 <= i < zlen (all_arcs g) -> am i = pam V seqs cols c k H r0 ext i /\ bm i = pbm V seqs cols c k H r0 ext i.

Lemma one_ok : is_pruned_intersection (gr V c k) (rw seqs k) (c_sbeam c) (c_obeam c) (c_max c) (c_partial c) (fun t l => (r0 + t) * cols + (l + 1)) g am bm.
Proof.
  assert (EM : forall q, (forall j, In j q -> 0 <= j < zlen (all_arcs g)) -> map am q = map (pam V seqs cols c k H r0 ext) q) by (intros q Hq; apply map_ext_in; intros j Hj; apply EA; auto).
  assert (QB : forall q s d, apath g s q d -> forall j, In j q -> 0 <= j < zlen (all_arcs g)). { induction 1 as [|j a q d Ha Hq IH]; intros i Hi; [easy|]. destruct Hi as [<-|Hi]; [apply rd_Some_bound in Ha; exact Ha|auto]. }
  assert (GV : gr V c k = [] \/ valid (gr V c k)) by apply (gr_valid V seqs cols stride c SU).
  assert (GP : forall p, zlen (gr V c k) <= c_max c -> c_obeam c < 10 ^ 10 -> good_path (gr V c k) (rw seqs k) (c_sbeam c) (c_obeam c) p -> exists z, goodp V seqs c k p z /\ 0 < zlen (gr V c k)).
  { intros p M1 M2 (((P0 & P1) & P2) & z & P3 & P4 & P5). exists z. split; [|exact P0]. split.
    - exact P1.
    - exact P2.
    - exact P3.
    - intros t l q x y. apply P5.
    - intros l x L1 L2 L3. eapply P4; eauto. split; [split; [exact P0|exact L1]|exact L2].
    - exact M2.
    - exact M1. }
  assert (ne : 0 < zlen g -> 0 < zlen (gr V c k)).
  { intros G. destruct GV as [E|(_ & E & _)]; [|unfold nstates in E; lia]. rewrite (empty_f V seqs cols c k HR1 HR2 pmf H L CI r0 ext fc Hfl Hext E), zlen_nil in G. lia. }
  assert (NG : zlen (gr V c k) <= c_max c -> c_obeam c < 10 ^ 10 -> forall p, good_path (gr V c k) (rw seqs k) (c_sbeam c) (c_obeam c) p -> pmf = false).
  { intros M1 M2 p G. destruct (GP p M1 M2 G) as (z & G' & _). apply (ALV p z G'). lia. }
  assert (CF : forall q s d, apath g s q d -> labels (arcs_at g q) = labels (arcs_at (gr V c k) (map (pam V seqs cols c k H r0 ext) q)) -> dense_score (gr V c k) (rw seqs k) 0 (map (pam V seqs cols c k H r0 ext) q) = Some (score (arcs_at g q)) -> bm_ok V seqs cols c k H r0 ext 0 q ->
    comes_from (gr V c k) (rw seqs k) (fun t l => (r0 + t) * cols + (l + 1)) g am bm q).
  { intros q s d Hq F3 F4 F5. unfold comes_from. rewrite (EM q (QB _ _ _ Hq)). split; [exact F3|]. split; [exact F4|]. intros t j a Hj Ha. destruct (EA j (rd_Some_bound _ _ _ Ha)) as (_ & ->). exact (F5 t j a Hj Ha). }
  split; [|split; [|split; [|split]]].
  - exact (empty_f V seqs cols c k HR1 HR2 pmf H L CI r0 ext fc Hfl Hext).
  - intros (_ & E & _). unfold nstates in E. apply (pg_valid V seqs cols stride c SU k Hk B1 HR1 HR2 pmf H L CI ZH ltac:(lia) r0 ext fc Hfc Hfl Hext). lia.
  - intros q Hq. pose proof Hq as (G0 & Hq'). pose proof (ne G0) as Hf.
    destruct (sound_0 V seqs cols c k Hk B1 HR1 HR2 pmf H L CI ZH ltac:(lia) r0 ext fc Hfc Hfl Hext Hf q Hq) as [(F1 & F2 & F3 & F4 & F5)|(Pm & q' & jj & a & b & s' & Q1 & Q2 & Q3 & Q4 & Q5 & Q6 & Q7 & Q8 & Q9 & Q10 & Q11 & Q12 & Q13 & Q14)].
    + left. split; [|eapply CF; eauto]. rewrite (EM q (QB _ _ _ Hq')). split; [split; [exact Hf|exact F1]|]. rewrite zlen_map, F2. lia.
    + right. split; [exact (ci_pm _ _ _ _ _ _ _ CI Pm)|]. split; [|intros M1 M2 p G; rewrite (NG M1 M2 p G) in Pm; discriminate].
      rewrite Q1 in Hq'. apply apath_app in Hq' as (u & U1 & U2). destruct (EA jj (rd_Some_bound _ _ _ Q7)) as (Ea & Eb). exists q', jj, a, b. split; [exact Q1|]. split; [rewrite Q2; lia|]. split; [rewrite (EM q' (QB _ _ _ U1)), Q11; exact Q3|]. split; [eapply CF; eauto|].
      rewrite Ea, Eb. auto 10.
  - intros M1 M2 p G. destruct (GP p M1 M2 G) as (z & G' & Hf). pose proof (ALV p z G') as AL. destruct G' as [P1 P2 P3 _ _ _ _].
    destruct (complete V seqs cols c k Hk B1 HR1 HR2 pmf H L CI ZH ltac:(lia) r0 ext fc Hfc Hfl Hext Hf p z P1 P2 P3 AL) as (q & (U1 & U2) & U3). exists q. split.
    + split; [exact U1|]. destruct U1 as (_ & U1). rewrite (EM q (QB _ _ _ U1)). exact U2.
    + intros q' (W1 & W2). apply U3. split; [exact W1|]. destruct W1 as (_ & W1). rewrite <- (EM q' (QB _ _ _ W1)). exact W2.
  - intros j a Ha. destruct (EA j (rd_Some_bound _ _ _ Ha)) as (-> & ->). destruct (arc_is V seqs cols c k HR1 HR2 pmf H L CI ZH r0 ext j a Ha) as (t & j' & m & x & y & x' & ja & b & I). destruct (arc_kind V seqs cols c k Hk HR1 HR2 pmf H L CI _ _ _ _ _ _ _ _ _ _ _ _ I) as (_ & _ & _ & K3 & K4). pose proof (ia_b _ _ _ _ _ _ _ _ _ _ _ _ _ _ _ _ _ _ _ I) as Hb.
    destruct K4 as [(K5 & K6 & (w & K7 & K8) & _)|(K5 & K6 & K7 & K8 & K9 & K10)].
    + left. exists b, t, w. rewrite K5. auto 6.
    + right. split; [exact (ci_pm _ _ _ _ _ _ _ CI K5)|]. split; [exact K6|]. exists b. pose proof (rd_In _ _ _ Hb). rewrite K3, K10. auto 6.
Qed.
End One.
