(** * Properties of the FSA constructors (C16, C23, ...). *)
From Coq Require Import ZArith List Lia Bool Permutation.
From Coq Require Import ZifyBool ZifyNat.
From Verif Require Import Base RaggedModel RaggedSpec RaggedProofs FsaSpec FsaLemmas FsaOpsModel FsaOpsProofs.
Import ListNotations.
Open Scope Z_scope.

(** The row_ids stored in the result agree with its row_splits. *)
Definition shape_ok (o : fsa_out) : Prop :=
  row_splits_to_row_ids (row_splits (o_fsa o)) (zlen (arcs (o_fsa o))) = Some (o_row_ids o).

(** C16: LinearFsa succeeds exactly on label sequences without -1, builds a
    well-formed FSA for every execution order, and that FSA accepts exactly the
    given sequence, with score 0. *)
Theorem C16_linear_fsa : forall syms sched,
  ~ In (-1) syms -> is_sched (zlen syms + 1) sched ->
  exists f, linear_fsa sched syms = Some (mkOut (flat f) (ids_of f) []) /\
    shape_ok (mkOut (flat f) (ids_of f) []) /\
    src_ok f /\ nstates f = zlen syms + 2 /\ zlen (all_arcs f) = zlen syms + 1 /\
    (Forall (fun l => 0 <= l) syms -> valid f) /\
    forall w s, accepts f w s <-> w = syms /\ s = 0.
Proof.
  intros syms sched H Hs. exists (linear_nested syms).
  assert (SRC : src_ok (linear_nested syms)).
  { intros i st a Hi Ha. unfold linear_nested in Hi. rewrite rd_app in Hi.
    destruct (i <? _) eqn:E.
    - rewrite rd_map in Hi. rewrite zlen_map, zlen_linear_arcs in E.
      destruct (rd (linear_arcs 0 syms) i) eqn:E2; [|discriminate].
      pose proof (rd_Some_bound _ _ _ E2). rewrite rd_linear_arcs in E2 by lia.
      injection E2 as <-. injection Hi as <-. destruct Ha as [<-|[]]. reflexivity.
    - rewrite rd_cons in Hi. destruct (_ =? 0); [|now rewrite rd_nil in Hi].
      injection Hi as <-. destruct Ha. }
  split; [now apply linear_fsa_eq|]. split; [apply row_ids_of_splits|].
  split; [exact SRC|].
  assert (NS : nstates (linear_nested syms) = zlen syms + 2).
  { pose proof (final_linear syms). unfold final, nstates in *. lia. }
  split; [exact NS|].
  split; [now rewrite all_arcs_linear, zlen_linear_arcs|].
  split; [|apply linear_language].
  intros Hpos. split; [exact SRC|]. pose proof (zlen_nonneg syms). rewrite NS, final_linear. split; [lia|].
  intros a Ha. rewrite all_arcs_linear in Ha. apply In_rd in Ha as (i & Hi & E).
  rewrite zlen_linear_arcs in Hi. rewrite rd_linear_arcs in E by lia. injection E as <-. simpl.
  destruct (rd syms i) as [x|] eqn:E.
  - pose proof (rd_Some_bound _ _ _ E). apply rd_In in E. rewrite Forall_forall in Hpos.
    apply Hpos in E. lia.
  - apply rd_None in E. lia.
Qed.
Print Assumptions C16_linear_fsa.

(** C16: a -1 among the symbols is reported as an error. *)
Theorem C16_linear_fsa_rejects : forall syms sched,
  In (-1) syms -> is_sched (zlen syms + 1) sched -> linear_fsa sched syms = None.
Proof.
  intros syms sched H Hs. unfold linear_fsa, k2_fill.
  apply In_rd in H as (i & Hi & E).
  assert (Hin : In i sched) by (apply (in_sched _ _ _ Hs); lia).
  assert (G : forall arr, k2_eval sched (linear_fsa_body syms) arr = None); [|now rewrite G].
  clear Hs. induction sched as [|k t IH]; [destruct Hin|]. intros arr; simpl.
  destruct Hin as [->|Hin].
  - unfold linear_fsa_body at 1. replace (i <? zlen syms) with true by lia. rewrite E. reflexivity.
  - destruct (linear_fsa_body syms k) as [ws|]; auto. destruct (wrs arr ws); auto.
Qed.
Print Assumptions C16_linear_fsa_rejects.

Example C16_example : exists f, linear_fsa [2; 0; 1] [5; 7] = Some (mkOut (flat f) [0; 1; 2] []) /\
  f = [[mkArc 0 1 5 0]; [mkArc 1 2 7 0]; [mkArc 2 3 (-1) 0]; []] /\ is_sched 3 [2; 0; 1].
Proof. eexists. split; [|split; [reflexivity|]]; [reflexivity|solve_sched]. Qed.

(** C23: for every valid FSA with at least one arc and no arc entering the
    start state, and for every execution order of both kernels, Closure
    succeeds and its result accepts exactly the Kleene star. *)
Theorem C23_closure_is_star : forall f sched1 sched2,
  valid f -> no_arc_into_start f -> all_arcs f <> [] ->
  is_sched (zlen (all_arcs f)) sched1 -> is_sched (nstates f + 1) sched2 ->
  exists g m, closure sched1 sched2 (flat f) = Some (mkOut (flat g) (ids_of g) m) /\
    shape_ok (mkOut (flat g) (ids_of g) m) /\
    (forall w s, accepts_str g w s <-> star (accepts_str f) w s).
Proof.
  intros f sched1 sched2 Hv Hns Hne H1 H2. exists (closure_nested f), (closure_map f).
  split; [|split; [apply row_ids_of_splits|]].
  - destruct Hv as (Hsrc & Hn & _). now apply closure_eq.
  - intros. now apply closure_language.
Qed.
Print Assumptions C23_closure_is_star.

(** The arc map of Closure: every output arc is either the one new arc (-1)
    or the image of the input arc it names, and every input arc is named once. *)
Theorem C23_closure_arc_map : forall f sched1 sched2,
  src_ok f -> 2 <= nstates f -> all_arcs f <> [] ->
  is_sched (zlen (all_arcs f)) sched1 -> is_sched (nstates f + 1) sched2 ->
  exists g m, closure sched1 sched2 (flat f) = Some (mkOut (flat g) (ids_of g) m) /\
    zlen m = zlen (all_arcs g) /\
    Permutation m (-1 :: zrange (zlen (all_arcs f))) /\
    forall i k a, rd m i = Some k -> rd (all_arcs g) i = Some a ->
      (k = -1 /\ a = mkArc 0 (final f) (-1) 0) \/
      exists b, rd (all_arcs f) k = Some b /\ src a = src b /\ sc a = sc b /\
        ((dst b <> final f /\ dst a = dst b /\ lab a = lab b) \/
         (dst b = final f /\ dst a = 0 /\ lab a = 0)).
Proof.
  intros f sched1 sched2 Hsrc Hn Hne H1 H2. exists (closure_nested f), (closure_map f).
  split; [now apply closure_eq|].
  destruct f as [|st0 rest]; [cbv in Hn; lia|].
  pose proof (zlen_nonneg st0). pose proof (zlen_nonneg (concat rest)).
  unfold all_arcs. cbn [closure_nested concat closure_map].
  split; [|split].
  - rewrite !zlen_app, !zlen_map, <- concat_map, zlen_map, !zlen_zrange by lia.
    cbv [new_final_arc]. change (zlen [-1]) with 1. change (zlen [_]) with 1. lia.
  - rewrite zlen_app, zrange_app by lia. simpl app. symmetry. apply Permutation_middle.
  - set (fin := final (st0 :: rest)). intros i k a Hk Ha.
    rewrite <- app_assoc in Ha.
    assert (G : forall b, rd (st0 ++ concat rest) k = Some b -> a = closure_arc fin b ->
       exists b, rd (st0 ++ concat rest) k = Some b /\ src a = src b /\ sc a = sc b /\
        ((dst b <> fin /\ dst a = dst b /\ lab a = lab b) \/
         (dst b = fin /\ dst a = 0 /\ lab a = 0))).
    { intros b Hb ->. exists b. unfold closure_arc. destruct (dst b =? fin) eqn:E; simpl;
      (repeat split; auto); [right|left]; repeat split; auto; lia. }
    rewrite rd_app in Hk. rewrite rd_app in Ha. rewrite zlen_zrange in Hk by lia. rewrite zlen_map in Ha.
    destruct (i <? zlen st0) eqn:E.
    + right. pose proof (rd_Some_bound _ _ _ Hk). rewrite rd_map in Ha. rewrite rd_zrange in Hk by lia.
      injection Hk as <-. destruct (rd st0 i) as [b|] eqn:Eb; [|discriminate].
      injection Ha as <-. apply (G b); auto. rewrite rd_app_l; auto; lia.
    + rewrite rd_app in Hk. rewrite rd_app in Ha. change (zlen [-1]) with 1 in Hk. change (zlen [new_final_arc fin]) with 1 in Ha.
      destruct (i - zlen st0 <? 1) eqn:E2.
      * left. replace (i - zlen st0) with 0 in * by lia. rewrite rd_cons_0 in *.
        injection Hk as <-. injection Ha as <-. auto.
      * right. rewrite rd_map in Hk. rewrite <- concat_map, rd_map in Ha.
        destruct (rd (concat rest) (i - zlen st0 - 1)) as [b|] eqn:Eb; [|discriminate].
        pose proof (rd_Some_bound _ _ _ Eb). rewrite rd_zrange in Hk by lia.
        injection Hk as <-. injection Ha as <-. apply (G b); auto.
        rewrite rd_app_r by lia. rewrite <- Eb. f_equal. lia.
Qed.
Print Assumptions C23_closure_arc_map.

(** The closure example used below: (ab)|c as an FSA. *)
Definition ex_abc : nfsa :=
  [[mkArc 0 1 1 2; mkArc 0 2 3 5]; [mkArc 1 2 2 1]; [mkArc 2 3 (-1) 4]; []].

Ltac solve_valid := apply validb_ok; reflexivity.

Example C23_example : valid ex_abc /\ no_arc_into_start ex_abc /\ all_arcs ex_abc <> [] /\
  exists o, closure [0; 1; 2; 3] [0; 1; 2; 3; 4] (flat ex_abc) = Some o /\ o_map o = [0; 1; -1; 2; 3].
Proof.
  split; [solve_valid|]. split; [|split; [discriminate|]].
  - intros a Ha. vm_compute in Ha. intuition (subst; simpl in *; congruence).
  - eexists. split; reflexivity.
Qed.

(** The hypothesis [no_arc_into_start] of C23 cannot be dropped: with a loop on
    the start state (a*b) the result accepts "a", which is not in (a*b)*. *)
Definition ex_loop : nfsa := [[mkArc 0 0 1 0; mkArc 0 1 2 0]; [mkArc 1 2 (-1) 0]; []].

Lemma ex_loop_path p : forall s, path (all_arcs ex_loop) s p 2 -> s <> 2 ->
  strip (labels p) <> [1; -1] /\ strip (labels p) <> [].
Proof.
  induction p as [|a p IH]; intros s Hp Hs.
  - apply path_inv in Hp as [(_ & E)|(a & p' & E & _)]; congruence.
  - apply path_inv in Hp as [(E & _)|(a' & p' & E & Ha & Es & Hp)]; [discriminate|].
    injection E as <- <-. vm_compute in Ha. destruct Ha as [<-|[<-|[<-|[]]]]; simpl in *.
    + destruct (IH 0 Hp) as [I1 I2]; [lia|]. cbn.
      split; [|congruence]. intros E. injection E as E. unfold strip, labels in *.
      apply path_inv in Hp as [(-> & E')|(a' & p' & -> & Ha' & Es' & Hp')]; [discriminate|].
      vm_compute in Ha'. destruct Ha' as [<-|[<-|[<-|[]]]]; simpl in *; discriminate.
    + cbn. split; congruence.
    + cbn. split; congruence.
Qed.

Theorem C23_closure_loop_on_start_refuted :
  exists f g m w s, valid f /\ all_arcs f <> [] /\
    closure (zrange 3) (zrange 4) (flat f) = Some (mkOut (flat g) (ids_of g) m) /\
    accepts_str g w s /\ ~ star (accepts_str f) w s.
Proof.
  exists ex_loop, (closure_nested ex_loop), (closure_map ex_loop), [1], 0.
  split; [solve_valid|]. split; [discriminate|]. split; [reflexivity|]. split.
  - exists [mkArc 0 0 1 0; mkArc 0 2 (-1) 0]. split; [|split; reflexivity].
    apply path_step; [vm_compute; tauto|reflexivity|].
    apply path_step; [vm_compute; tauto|reflexivity|]. constructor.
  - intros (ws & HF & Hw & _).
    destruct ws as [|[u1 s1] ws]; [discriminate|].
    inversion HF as [|? ? (p & P1 & P2 & _) HF']; subst.
    destruct (ex_loop_path p 0 P1) as [N1 N2]; [lia|].
    simpl in Hw, P2. destruct u1 as [|x u1].
    + (* an empty word is not accepted *)
      clear - P1 P2. change (final ex_loop) with 2 in P1.
      apply path_inv in P1 as [(-> & E)|(a & p' & -> & Ha & Es & Hp)]; [discriminate|].
      vm_compute in Ha. destruct Ha as [<-|[<-|[<-|[]]]]; simpl in *; try discriminate.
    + injection Hw as <- Hw. destruct u1; [|discriminate]. now apply N1.
Qed.
Print Assumptions C23_closure_loop_on_start_refuted.

(** An FSA with states but no arcs (legal; it accepts nothing, so its closure
    should accept the empty string) makes Closure return uninitialised memory. *)
Theorem C23_closure_no_arcs_refuted :
  exists f, valid f /\ no_arc_into_start f /\
    forall sched1 sched2, is_sched (zlen (all_arcs f)) sched1 -> closure sched1 sched2 (flat f) = None.
Proof.
  exists [[]; []]. split; [solve_valid|]. split; [intros a []|].
  intros sched1 sched2 H. unfold closure. change (num_states (flat [[]; []])) with 2.
  change (2 <? 2) with false. cbv iota.
  change (row_splits_to_row_ids (row_splits (flat [[]; []])) (zlen (arcs (flat [[]; []])))) with (Some (@nil Z)).
  cbv iota beta. apply Permutation_sym, Permutation_nil in H. subst. reflexivity.
Qed.
Print Assumptions C23_closure_no_arcs_refuted.
