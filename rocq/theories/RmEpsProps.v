(** * Epsilon removal on the host: theorems *)
From Coq Require Import ZArith List Lia Bool.
From Verif Require Import Base RaggedModel RaggedSpec RaggedProofs FsaSpec FsaLemmas OpsModel ScoreSpec ScorePaths ShortestSpec PropsSpec DetProps RmEpsModel RmEpsSpec RmEpsProofs RmEpsLang.
Import ListNotations.
Open Scope Z_scope.

(** ** One FSA *)
Theorem C27_remove_epsilon_host f : valid f -> p_topsorted_acyclic f ->
  exists r g, remove_epsilon (splits_of f) (all_arcs f) = Some r /\ removed_into f r g /\ p_topsorted_acyclic g.
Proof.
  intros HV HT. destruct (host_ok f HV HT) as (kl & kept & K1 & K2 & K3 & E). rewrite (idx_ok f HV kl kept K1 K2 K3) in E.
  exists (splits_of (map (map toarc) kept), concat kept), (map (map toarc) kept). split; [exact E|]. split; [|exact (g_top f HT kl kept K1 K2 K3)].
  split; [reflexivity|]. split; [exact (g_valid f HV kl kept K1 K2 K3)|]. cbn [fst snd]. split; [exact (g_removed f HV kl kept K1 K2 K3)|]. split; [rewrite allg, zlen_map; reflexivity|].
  intros k o a Ho Ha. destruct (g_nan f HV kl kept K1 K2 K3 k o Ho) as (X1 & X2 & X3). rewrite X1 in Ha. injection Ha as <-. change (src (toarc o)) with (o_src o). split; [reflexivity|]. split; [reflexivity|]. split; [reflexivity|]. auto.
Qed.
Print Assumptions C27_remove_epsilon_host.

(** ** Several FSAs: the arc maps are indexes into the arcs of the FsaVec *)
Definition shift_o (off : Z) (o : oarc) : oarc := mkO (o_src o) (o_dst o) (o_lab o) (o_sc o) (map (fun j => off + j) (o_der o)).
Theorem C27_remove_epsilon_host_vec fs : (forall f, In f fs -> valid f /\ p_topsorted_acyclic f) ->
  exists rs, remove_epsilon_vec 0 (map (fun f => (splits_of f, all_arcs f)) fs) = Some rs /\ zlen rs = zlen fs /\
  forall i f r, rd fs i = Some f -> rd rs i = Some r -> exists idx out g,
    r = (idx, map (shift_o (zsum (map (fun f => zlen (all_arcs f)) (firstn (Z.to_nat i) fs)))) out) /\
    removed_into f (idx, out) g /\ p_topsorted_acyclic g.
Proof.
  assert (G : forall tot, (forall f, In f fs -> valid f /\ p_topsorted_acyclic f) -> exists rs, remove_epsilon_vec tot (map (fun f => (splits_of f, all_arcs f)) fs) = Some rs /\ zlen rs = zlen fs /\
    forall i f r, rd fs i = Some f -> rd rs i = Some r -> exists idx out g,
    r = (idx, map (shift_o (tot + zsum (map (fun f => zlen (all_arcs f)) (firstn (Z.to_nat i) fs)))) out) /\ removed_into f (idx, out) g /\ p_topsorted_acyclic g).
  { induction fs as [|f fs' IH]; intros tot H.
    - exists []. split; [reflexivity|]. split; [reflexivity|]. intros i f r Hf. rewrite rd_nil in Hf. discriminate.
    - destruct (H f (or_introl eq_refl)) as (HV & HT). destruct (C27_remove_epsilon_host f HV HT) as ((idx & out) & g & E & R & T).
      destruct (IH (tot + zlen (all_arcs f))) as (rs & E2 & L & S); [intros; apply H; now right|]. cbn [map remove_epsilon_vec]. rewrite E, E2. eexists. split; [reflexivity|]. split; [rewrite !zlen_cons; lia|].
      intros i f' r Hf Hr. rewrite rd_cons in Hf. rewrite rd_cons in Hr. destruct (i =? 0) eqn:Ei.
      + injection Hf as <-. injection Hr as <-. apply Z.eqb_eq in Ei. subst i. exists idx, out, g. split; [|auto]. cbn. f_equal. apply map_ext. intros o. unfold shift_o. rewrite Z.add_0_r. reflexivity.
      + pose proof (rd_Some_bound _ _ _ Hf). destruct (S _ _ _ Hf Hr) as (idx' & out' & g' & -> & R' & T'). exists idx', out', g'. split; [|auto]. replace (Z.to_nat i) with (Datatypes.S (Z.to_nat (i - 1))) by lia. cbn [firstn map zsum]. rewrite Z.add_assoc. reflexivity. }
  intros H. destruct (G 0 H) as (rs & E & L & S). exists rs. split; [exact E|]. split; [exact L|]. intros i f r Hf Hr. destruct (S i f r Hf Hr) as (idx & out & g & Er & R). exists idx, out, g. rewrite Z.add_0_l in Er. auto.
Qed.
Print Assumptions C27_remove_epsilon_host_vec.

(** An FSA with two epsilon paths of which the longer is better *)
Definition ex_f : nfsa := [[mkArc 0 1 0 1; mkArc 0 2 0 1; mkArc 0 3 5 2]; [mkArc 1 2 0 4; mkArc 1 4 7 1]; [mkArc 2 4 6 3]; [mkArc 3 4 0 1]; [mkArc 4 5 (-1) 0]; []].
Example C27_host_ex : valid ex_f /\ p_topsorted_acyclic ex_f /\ accessible ex_f /\
  remove_epsilon (splits_of ex_f) (all_arcs ex_f) = Some ([0; 3; 4; 5; 5],
    [mkO 0 1 5 (Some 2) [2]; mkO 0 2 7 (Some 2) [0; 4]; mkO 0 2 6 (Some 8) [0; 3; 5]; mkO 1 3 (-1) (Some 1) [6; 7]; mkO 2 3 (-1) (Some 0) [7]]).
Proof.
  split; [apply validb_ok; vm_compute; reflexivity|]. split; [intros a Ha; cbn in Ha; repeat (destruct Ha as [<-|Ha]; [reflexivity|]); destruct Ha|]. split; [|vm_compute; reflexivity].
  intros s Hs. change (nstates ex_f) with 6 in Hs. assert (C : s = 0 \/ s = 1 \/ s = 2 \/ s = 3 \/ s = 4 \/ s = 5) by lia.
  destruct C as [->|[->|[->|[->|[->| ->]]]]]; [exists []|exists [0]|exists [1]|exists [2]|exists [2; 6]|exists [2; 6; 7]]; apply pathb_ok; reflexivity.
Qed.

(** ** Scores of arcs of unreachable states are NaN

    State 2 can only be reached from state 1, which cannot be reached; the score of its arc
    should be 4. *)
Theorem C27_unreachable_nan_refuted : exists f o, valid f /\ p_topsorted_acyclic f /\
  (exists idx out, remove_epsilon (splits_of f) (all_arcs f) = Some (idx, out) /\ In o out) /\ o_sc o = None.
Proof.
  exists [[mkArc 0 3 5 1]; [mkArc 1 2 6 3]; [mkArc 2 3 7 4]; [mkArc 3 4 (-1) 0]; []], (mkO 1 2 7 None [2]). split; [apply validb_ok; vm_compute; reflexivity|]. split; [intros a Ha; cbn in Ha; repeat (destruct Ha as [<-|Ha]; [reflexivity|]); destruct Ha|]. split; [|reflexivity].
  exists [0; 1; 2; 3; 3], [mkO 0 2 5 (Some 1) [0]; mkO 1 2 7 None [2]; mkO 2 3 (-1) (Some 0) [3]]. split; [vm_compute; reflexivity|]. right. now left.
Qed.
Print Assumptions C27_unreachable_nan_refuted.
