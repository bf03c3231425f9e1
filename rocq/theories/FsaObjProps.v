(** * C10, C11, C12: cached values, invert_, clone *)
From Coq Require Import ZArith List Lia Bool String.
From Coq Require Import ZifyBool.
From Verif Require Import Base PyBase RaggedModel FsaSpec RaggedOpsModel OpsModel FsaObjModel FsaObjSpec FsaObjProofs.
Import ListNotations.
Open Scope Z_scope.

Section Props.
  (** The C++ kernels behind the getters: arbitrary functions of the columns
      they read. *)
  Variable V : Type.
  Notation Topo := (list Z * list (Z * Z))%type.
  Notation WTopo := ((list Z * list (Z * Z)) * list Z)%type.
  Variable k_state_batches : Topo -> V.
  Variable k_dest_states : Topo -> V.
  Variable k_incoming_arcs : Topo -> V -> V.
  Variable k_entering_batches : Topo -> V -> V -> V.
  Variable k_leaving_batches : Topo -> V -> V.
  Variable k_forward : bool -> bool -> WTopo -> V -> V -> V * V.
  Variable k_tot : bool -> WTopo -> V -> V.
  Variable k_backward : bool -> bool -> WTopo -> V -> V -> V.
  Variable k_arc_post : bool -> WTopo -> V -> V -> V.
  Variable k_arc_cdf : bool -> WTopo -> V -> V.
  Variable k_props : WTopo -> Z.

  Notation read g f c := (fst (run_getter V k_state_batches k_dest_states k_incoming_arcs k_entering_batches k_leaving_batches
     k_forward k_tot k_backward k_arc_post k_arc_cdf g f c)).
  Notation properties f o := (fst (read_properties V k_props f o)).
  Notation step := (step V k_state_batches k_dest_states k_incoming_arcs k_entering_batches k_leaving_batches
     k_forward k_tot k_backward k_arc_post k_arc_cdf k_props).
  Notation run_any := (run_any V k_state_batches k_dest_states k_incoming_arcs k_entering_batches k_leaving_batches
     k_forward k_tot k_backward k_arc_post k_arc_cdf k_props).
  Notation run_lab := (run_lab V k_state_batches k_dest_states k_incoming_arcs k_entering_batches k_leaving_batches
     k_forward k_tot k_backward k_arc_post k_arc_cdf k_props).
  Notation init := (init V k_props).
  Notation invert_ := (invert_ V k_props).
  Definition valid_bits (f : fsa) : Prop := Z.land (k_props (ltopo f)) 1 = 1.

  (** C10.  After any history of getter reads, attribute and score and label
      assignments, deletions, renames, inversions and clones, every cached
      getter of every object returns what it returns on a freshly built Fsa
      (empty cache) with the same arcs, and [properties] are the properties of
      the current arcs.  [entering_arcs] is allowed to be either the float or
      the double version.  Operations may raise, except those writing labels. *)
  Theorem C10_never_stale fs h w i o f :
    Forall valid_bits fs ->
    Forall no_detach h -> Forall no_del_entering h ->
    run_lab h (init fs) = Some w ->
    rd (w_objs V w) i = Some o -> rd (w_heap V w) (o_loc V o) = Some f ->
    (forall g, exists v, read g f (o_cache V o) = Some v /\
       match g with
       | GEntering _ => exists d, read (GEntering d) f [] = Some v
       | _ => read g f [] = Some v
       end) /\
    (forall p, properties f o = Some p -> p = k_props (ltopo f)) /\
    (has_attr V o (s2z "labels") = true -> properties f o = Some (k_props (ltopo f))).
  Proof.
    intros H1 H2 H3 Hr Ho Hf.
    pose proof (inv_init V k_state_batches k_dest_states k_incoming_arcs k_entering_batches k_leaving_batches
     k_forward k_tot k_backward k_arc_post k_arc_cdf k_props fs H1) as I0.
    pose proof (run_lab_inv _ _ _ _ _ _ _ _ _ _ _ _ _ _ _ H2 H3 I0 Hr) as I.
    destruct (proj2 I _ _ _ Ho Hf) as ((Hc & Hp) & _ & Hh).
    assert (E : cok V k_state_batches k_dest_states k_incoming_arcs k_entering_batches k_leaving_batches
      k_forward k_tot k_backward k_arc_post k_arc_cdf [] (wtopo f)).
    { split; [|split]; [intros g v Hv; discriminate Hv|intros d v Hv; discriminate Hv|constructor]. }
    split; [|split].
    - intros g. destruct (run_getter_ok _ _ _ _ _ _ _ _ _ _ _ f g _ Hc) as (v & E1 & E2 & _).
      exists v. split; [exact E1|].
      destruct g; try (match goal with |- context [read ?g f []] =>
          destruct (run_getter_ok _ _ _ _ _ _ _ _ _ _ _ f g _ E) as (v' & E1' & E2' & _) end;
        rewrite E1'; f_equal; cbn in E2, E2'; congruence).
      destruct E2 as (d0 & ->). exists d0.
      unfold FsaObjModel.run_getter, get_entering_arcs. cbn [dget].
      destruct (fwd_good V k_state_batches k_dest_states k_incoming_arcs k_entering_batches k_leaving_batches
         k_forward k_tot k_backward k_arc_post k_arc_cdf f d0 false [] E) as (_ & _).
      reflexivity.
    - intros p Hq.
      destruct (read_properties_ok V k_state_batches k_dest_states k_incoming_arcs k_entering_batches k_leaving_batches
         k_forward k_tot k_backward k_arc_post k_arc_cdf k_props f o p) as (Q & _); auto. split; auto.
    - intros Hl. unfold read_properties. rewrite Hl. cbn [negb]. destruct (o_props V o) as [p|] eqn:Ep; [|now elim Hh].
      cbn [fst]. now destruct (Hp p Ep) as (-> & _).
  Qed.

  (** C12.  Operations on other objects, whether they return or raise, leave an
      object and its arcs exactly as they were: here from freshly built objects
      and any history without detach. *)
  Theorem C12_isolation fs h1 h2 w1 w2 j o f :
    Forall valid_bits fs ->
    Forall no_detach h1 -> Forall no_detach h2 ->
    run_any h1 (init fs) = Some w1 -> run_any h2 w1 = Some w2 ->
    Forall (fun x => target x <> j) h2 ->
    rd (w_objs V w1) j = Some o -> rd (w_heap V w1) (o_loc V o) = Some f ->
    rd (w_objs V w2) j = Some o /\ rd (w_heap V w2) (o_loc V o) = Some f.
  Proof.
    intros Hv H1 H2 R1 R2 Hj Ho Hf.
    pose proof (proj1 (inv_init V k_state_batches k_dest_states k_incoming_arcs k_entering_batches k_leaving_batches
     k_forward k_tot k_backward k_arc_post k_arc_cdf k_props fs Hv)) as L0.
    pose proof (run_any_locs _ _ _ _ _ _ _ _ _ _ _ _ _ _ _ H1 L0 R1) as L1.
    exact (run_any_other _ _ _ _ _ _ _ _ _ _ _ _ _ _ _ _ _ _ H2 L1 R2 Hj Ho Hf).
  Qed.

  (** A clone starts out with the same arcs, the same cached values, the same
      properties and the same attributes as the original (labels and scores
      being the columns of the arcs). *)
  Theorem C12_clone_equal fs h w i w' o f :
    Forall valid_bits fs ->
    Forall no_detach h -> Forall no_del_entering h ->
    run_lab h (init fs) = Some w ->
    rd (w_objs V w) i = Some o -> rd (w_heap V w) (o_loc V o) = Some f ->
    step (OClone i) w = Some (w', true) ->
    exists n, rd (w_objs V w') (zlen (w_objs V w)) = Some n /\ rd (w_heap V w') (o_loc V n) = Some f /\
      rd (w_objs V w') i = Some o /\ rd (w_heap V w') (o_loc V o) = Some f /\
      (forall g, read g f (o_cache V n) = read g f (o_cache V o)) /\
      properties f n = properties f o /\
      (forall name, name <> s2z "labels" -> name <> s2z "scores" -> getattr V f n name = getattr V f o name) /\
      getattr V f n (s2z "labels") = Some (inl (AI (map lab (arcs f)))) /\
      getattr V f n (s2z "scores") = Some (inl (AF (map sc (arcs f)))).
  Proof.
    intros Hv H1 H2 Hr Ho Hf Hs.
    pose proof (inv_init V k_state_batches k_dest_states k_incoming_arcs k_entering_batches k_leaving_batches
     k_forward k_tot k_backward k_arc_post k_arc_cdf k_props fs Hv) as I0.
    pose proof (run_lab_inv _ _ _ _ _ _ _ _ _ _ _ _ _ _ _ H1 H2 I0 Hr) as I.
    destruct (proj2 I _ _ _ Ho Hf) as ((Hc & _) & Hn & Hh). destruct Hc as (_ & _ & Hc).
    apply step_inv in Hs as (o1 & f1 & f' & o' & ok1 & Ho1 & Hf1 & Es & heap & objs & Z1 & Z2 & Rh & Ro & Hs).
    cbn [target] in *. assert (o1 = o) by congruence. subst o1. assert (f1 = f) by congruence. subst f1.
    cbn in Es. rewrite read_properties_id in Es by auto. injection Es as <- <- _.
    destruct Hs as [(n & Hcl & -> & _)|(_ & _ & Hs)]; [|discriminate].
    pose proof (clone_loc V k_props _ _ _ _ Hcl) as Ln.
    destruct (clone_same V k_props _ _ _ _ Hcl Hc Hn) as (S1 & S2 & S3 & S4 & S5 & S6 & S7).
    exists n. cbn [w_objs w_heap].
    assert (B1 : rd objs i = Some o) by (rewrite Ro, Z.eqb_refl; auto).
    assert (B2 : rd heap (o_loc V o) = Some f) by (rewrite Rh, Z.eqb_refl; auto).
    split. { rewrite rd_app_r by lia. rewrite Z2, Z.sub_diag. apply rd_cons_0. }
    split. { rewrite Ln, rd_app_r by lia. rewrite Z.sub_diag. apply rd_cons_0. }
    split. { rewrite rd_app_l; auto. apply rd_Some_bound in B1. lia. }
    split. { rewrite rd_app_l; auto. apply rd_Some_bound in B2. lia. }
    split. { intros g. now rewrite S1. }
    split. { rewrite S3. unfold read_properties, has_attr, dmem. rewrite S6. cbn [orb negb]. now destruct (o_props V n). }
    split; auto. unfold getattr. rewrite S6, S7. auto.
  Qed.

  (** C11.  invert_ puts the aux_labels in the place of the labels (with the
      final-arc convention applied), stores the old labels as aux_labels,
      renames the attributes that go with them ("aux_labels_sym" <->
      "labels_sym"), and changes nothing else: not the topology, the scores,
      the cached values, or any other attribute. *)
  Theorem C11_invert f o aux :
    nd V o ->
    dget (o_tens V o) (s2z "labels") = Some ViewLabels -> dget (o_tens V o) (s2z "aux_labels") = Some (AI aux) ->
    zlen aux = zlen (arcs f) ->
    (forall a x, In (a, x) (combine (arcs f) aux) -> dst a + 1 = zlen (row_splits f) - 1 -> x = -1 \/ x = 0) ->
    valid_bits (inverted f aux) ->
    exists f' o', invert_ f o = (f', o', true) /\
      topo f' = topo f /\ map sc (arcs f') = map sc (arcs f) /\
      map lab (arcs f') = map (fun p => fixed (zlen (row_splits f) - 1) (fst p) (snd p)) (combine (arcs f) aux) /\
      getattr V f' o' (s2z "aux_labels") = Some (inl (AI (map lab (arcs f)))) /\
      getattr V f' o' (s2z "labels") = Some (inl (AI (map lab (arcs f')))) /\
      (forall n, n <> s2z "labels" -> n <> s2z "aux_labels" -> n <> s2z "__temp" ->
         dget (o_tens V o') n = dget (o_tens V o) n) /\
      (forall n, prefix_of (s2z "__temp") n = false -> dget (o_non V o') n = dget (o_non V o) (swap_name n)) /\
      o_cache V o' = o_cache V o /\ o_props V o' = Some (k_props (ltopo f')).
  Proof.
    intros Hn Hl Ha Hlen Hfin Hv.
    destruct (invert_spec V k_props f o aux Hn Hl Ha Hlen Hfin Hv) as (o' & E & L & P & C & T & N).
    exists (inverted f aux), o'. split; auto.
    assert (W : topo (inverted f aux) = topo f /\ map sc (arcs (inverted f aux)) = map sc (arcs f)).
    { unfold topo, inverted. cbn [row_splits arcs]. rewrite !map_map. cbn [src dst sc].
      rewrite (map_via_fst (fun a => (src a, dst a))), (map_via_fst sc) by auto. auto. }
    destruct W as (W1 & W2). split; auto. split; auto.
    split. { unfold inverted. cbn [arcs]. rewrite map_map. reflexivity. }
    split. { unfold getattr. rewrite T. now destruct (eqd (s2z "aux_labels") (s2z "aux_labels")); [|congruence]. }
    split. { unfold getattr. rewrite T.
      destruct (eqd (s2z "labels") (s2z "aux_labels")) as [X|_]; [discriminate X|].
      destruct (eqd (s2z "labels") (s2z "__temp")) as [X|_]; [discriminate X|]. now rewrite Hl. }
    split. { intros n N1 N2 N3. rewrite T. destruct (eqd n _); [congruence|]. destruct (eqd n _); congruence. }
    split. { intros n Hp. rewrite N, Hp. reflexivity. }
    auto.
  Qed.

  (** Applying it twice restores the Fsa: the arcs, every tensor attribute,
      every other attribute and the cache, when both labels and aux_labels are
      -1 exactly on the arcs into the final state. *)
  Theorem C11_involution f o aux :
    nd V o ->
    dget (o_tens V o) (s2z "labels") = Some ViewLabels -> dget (o_tens V o) (s2z "aux_labels") = Some (AI aux) ->
    dget (o_tens V o) (s2z "__temp") = None ->
    (forall n, prefix_of (s2z "__temp") n = true -> dget (o_non V o) n = None) ->
    zlen aux = zlen (arcs f) ->
    (forall a x, In (a, x) (combine (arcs f) aux) -> (x = -1 <-> dst a + 1 = zlen (row_splits f) - 1)) ->
    (forall a, In a (arcs f) -> (lab a = -1 <-> dst a + 1 = zlen (row_splits f) - 1)) ->
    valid_bits f -> valid_bits (inverted f aux) ->
    exists f1 o1 o2, invert_ f o = (f1, o1, true) /\ invert_ f1 o1 = (f, o2, true) /\
      (forall n, dget (o_tens V o2) n = dget (o_tens V o) n) /\
      (forall n, dget (o_non V o2) n = dget (o_non V o) n) /\
      o_cache V o2 = o_cache V o /\ o_props V o2 = Some (k_props (ltopo f)).
  Proof.
    intros Hn Hl Ha Ht Htn Hlen Hfin Hlab Hv Hv1.
    assert (Hfin' : forall a x, In (a, x) (combine (arcs f) aux) -> dst a + 1 = zlen (row_splits f) - 1 -> x = -1 \/ x = 0).
    { intros a x Hi Hd. left. now apply (Hfin a x). }
    destruct (invert_spec V k_props f o aux Hn Hl Ha Hlen Hfin' Hv1) as (o1 & E & L & P & C & T & N).
    set (f1 := inverted f aux) in *.
    assert (LA : map lab (arcs f1) = aux).
    { unfold f1, inverted. cbn [arcs]. rewrite map_map. cbn [lab].
      rewrite <- (combine_snd (arcs f) aux Hlen) at 2. apply map_ext_in. intros [a x] Hi. cbn [fst snd]. unfold fixed.
      specialize (Hfin a x Hi). destruct (dst a + 1 =? _) eqn:Ed; [symmetry; apply Hfin; lia|].
      destruct (x =? -1) eqn:Ex; auto. exfalso. assert (x = -1) by lia. apply Hfin in H. lia. }
    assert (L1 : zlen (arcs f1) = zlen (arcs f)).
    { unfold f1, inverted. cbn [arcs]. rewrite zlen_map. unfold zlen in *. rewrite combine_length. lia. }
    assert (B : inverted f1 (map lab (arcs f)) = f).
    { unfold f1, inverted. cbn [row_splits arcs]. destruct f as [rs as_]. cbn [row_splits arcs] in *.
      f_equal. clear -Hlen Hlab. revert aux Hlen. induction as_ as [|a t IH]; intros [|x aux] Hlen; auto.
      { rewrite zlen_cons in Hlen. change (zlen (@nil Z)) with 0 in Hlen. pose proof (zlen_nonneg t). lia. }
      cbn [combine map fst snd src dst sc]. f_equal.
      - unfold fixed. cbn [dst]. specialize (Hlab a (or_introl eq_refl)). destruct a as [s d l w]. cbn [src dst lab sc] in *. f_equal.
        destruct (d + 1 =? _) eqn:Ed; [symmetry; apply Hlab; lia|].
        destruct (l =? -1) eqn:Ex; auto. exfalso. assert (l = -1) by lia. apply Hlab in H. lia.
      - apply IH; [intros b Hb; apply Hlab; now right|]. rewrite !zlen_cons in Hlen. lia. }
    assert (N1 : nd V o1) by (eapply invert_nd; eauto).
    assert (Tl : dget (o_tens V o1) (s2z "labels") = Some ViewLabels).
    { rewrite T. destruct (eqd (s2z "labels") (s2z "aux_labels")) as [X|_]; [discriminate X|].
      destruct (eqd (s2z "labels") (s2z "__temp")) as [X|_]; [discriminate X|]. auto. }
    assert (Ta : dget (o_tens V o1) (s2z "aux_labels") = Some (AI (map lab (arcs f)))).
    { rewrite T. destruct (eqd (s2z "aux_labels") (s2z "aux_labels")); [auto|congruence]. }
    destruct (invert_spec V k_props f1 o1 (map lab (arcs f)) N1 Tl Ta) as (o2 & E' & L' & P' & C' & T' & N').
    - now rewrite zlen_map.
    - unfold f1, inverted. cbn [row_splits arcs]. intros a x Hi Hd. left. revert Hi.
      assert (G : forall (l : list arc) (y : list Z) F, (forall p : arc * Z, dst (F p) = dst (fst p)) ->
        (forall b, In b l -> (lab b = -1 <-> dst b + 1 = zlen (row_splits f) - 1)) ->
        In (a, x) (combine (map F (combine l y)) (map lab l)) -> x = -1).
      { clear -Hd. induction l as [|b l IH]; intros [|z y] F HF Hl Hi; cbn in Hi; try tauto. destruct Hi as [Hi|Hi].
        - injection Hi as <- <-. rewrite HF in Hd. cbn in Hd. apply (Hl b); [now left|auto].
        - eapply (IH y F); eauto. intros b' Hb'. apply Hl. now right. }
      apply G; auto.
    - now rewrite B.
    - rewrite B in *. exists f1, o1, o2. split; auto. split; auto. split; [|split; [|split]].
      + intros n. rewrite T', T, LA. destruct (eqd n (s2z "aux_labels")) as [->|]; auto.
        destruct (eqd n (s2z "__temp")) as [->|]; auto.
      + intros n. rewrite N'. destruct (prefix_of (s2z "__temp") n) eqn:Pt; [now rewrite Htn|].
        rewrite N.
        destruct (prefix_of (s2z "labels") n) eqn:Pl.
        * rewrite (rest_prefix _ _ Pl). reflexivity.
        * destruct (prefix_of (s2z "aux_labels") n) eqn:Pa; [rewrite (rest_prefix _ _ Pa); reflexivity|].
          assert (E1 : swap_name n = n) by (unfold swap_name; now rewrite Pl, Pa). now rewrite E1, Pt, E1.
      + congruence.
      + exact P'.
  Qed.
End Props.
Print Assumptions C10_never_stale.
Print Assumptions C12_isolation.
Print Assumptions C12_clone_equal.
Print Assumptions C11_invert.
Print Assumptions C11_involution.

(** ** Concrete kernels, for examples and counterexamples *)
Notation Topo := (list Z * list (Z * Z))%type.
Notation WTopo := ((list Z * list (Z * Z)) * list Z)%type.
Definition toy_sb (t : Topo) := fst t.
Definition toy_ds (t : Topo) := map snd (snd t).
Definition toy_inc (_ : Topo) (d : list Z) := d.
Definition toy_eb (_ : Topo) (i s : list Z) := i ++ s.
Definition toy_lb (_ : Topo) (s : list Z) := s.
(** The double and the float version of a kernel may differ. *)
Definition toy_fwd (d l : bool) (w : WTopo) (s e : list Z) : list Z * list Z :=
  ((if d then 1 else 0) :: (if l then 1 else 0) :: snd w, [if d then 1 else 0]).
Definition toy_tot (d : bool) (w : WTopo) (s : list Z) := [zsum s].
Definition toy_bwd (d l : bool) (w : WTopo) (s e : list Z) := rev (snd w).
Definition toy_post (d : bool) (w : WTopo) (a b : list Z) := a ++ b.
Definition toy_cdf (d : bool) (w : WTopo) (p : list Z) := p.
(** the valid bit: -1 exactly on the arcs into the final state *)
Definition toy_props (w : WTopo) : Z :=
  if forallb (fun p => Bool.eqb (snd (fst p) + 1 =? zlen (fst (fst w)) - 1) (snd p =? -1)) (combine (snd (fst w)) (snd w))
  then 1 else 0.
Notation step := (step (list Z) toy_sb toy_ds toy_inc toy_eb toy_lb toy_fwd toy_tot toy_bwd toy_post toy_cdf toy_props).
Notation run_any := (run_any (list Z) toy_sb toy_ds toy_inc toy_eb toy_lb toy_fwd toy_tot toy_bwd toy_post toy_cdf toy_props).
Notation run_lab := (run_lab (list Z) toy_sb toy_ds toy_inc toy_eb toy_lb toy_fwd toy_tot toy_bwd toy_post toy_cdf toy_props).
Notation read g f c := (fst (run_getter (list Z) toy_sb toy_ds toy_inc toy_eb toy_lb toy_fwd toy_tot toy_bwd toy_post toy_cdf g f c)).
Notation init := (init (list Z) toy_props).
Notation properties f o := (fst (read_properties (list Z) toy_props f o)).

(** 0 -5-> 1 -(-1)-> 2 *)
Definition f0 : fsa := mkFsa [0; 1; 2; 2] [mkArc 0 1 5 30; mkArc 1 2 (-1) 10].
Definition h0 : list op :=
  [ORead 0 (GTot false true); OSetAttr 0 (s2z "scores") (AF [7; 8]); ORead 0 (GPost true false);
   OSetAttr 0 (s2z "aux_labels") (AI [9; -1]); OSetNon 0 (s2z "labels_sym") (PObj 1); OClone 0;
   OSetAttr 2 (s2z "scores") (AF [1; 2]); OInvert 2; ORead 2 (GCdf false false); OSetAttr 0 (s2z "scores") (AI [1; 2]);
   OSetAttr 0 (s2z "labels") (AI [4; 0])].

Example C10_ex : exists w o f, Forall (valid_bits toy_props) [f0; f0] /\ Forall no_detach h0 /\ Forall no_del_entering h0 /\
  run_lab h0 (init [f0; f0]) = Some w /\ rd (w_objs _ w) 0 = Some o /\ rd (w_heap _ w) (o_loc _ o) = Some f /\
  map lab (arcs f) = [4; -1] /\ map sc (arcs f) = [7; 8] /\
  dget (o_cache _ o) (s2z "arc_post_double_tropical") <> None.
Proof.
  do 3 eexists. split; [repeat constructor|]. split; [repeat constructor|]. split; [repeat constructor|].
  split; [vm_compute; reflexivity|]. split; [vm_compute; reflexivity|]. split; [vm_compute; reflexivity|].
  vm_compute. repeat split. discriminate.
Qed.

(** The three restrictions of C10 are needed.  A label assignment that raises
    (an arc into the final state gets a label other than 0 or -1) leaves the
    labels written and the old properties cached, so properties still reports
    a valid Fsa. *)
Theorem C10_failed_label_assignment_refuted :
  exists w o f, run_any [OSetAttr 0 (s2z "labels") (AI [5; 6])] (init [f0]) = Some w /\
    rd (w_objs _ w) 0 = Some o /\ rd (w_heap _ w) (o_loc _ o) = Some f /\
    properties f o = Some 1 /\ toy_props (ltopo f) = 0.
Proof. do 3 eexists. split; [vm_compute; reflexivity|]. repeat split. Qed.
(** A detached copy shares the arcs but has its own cache: writing the scores
    of one leaves the total score of the other stale. *)
Theorem C10_detach_stale_refuted :
  exists w o f, run_lab [ORead 0 (GTot true true); ODetach 0; OSetAttr 1 (s2z "scores") (AF [100; 200])] (init [f0]) = Some w /\
    rd (w_objs _ w) 0 = Some o /\ rd (w_heap _ w) (o_loc _ o) = Some f /\
    read (GTot true true) f (o_cache _ o) <> read (GTot true true) f [].
Proof. do 3 eexists. split; [vm_compute; reflexivity|]. split; [vm_compute; reflexivity|]. split; [vm_compute; reflexivity|]. vm_compute. discriminate. Qed.
(** entering_arcs is cached under one name for float and double. *)
Theorem C10_entering_arcs_precision_refuted :
  exists w o f, run_lab [ORead 0 (GForward false false)] (init [f0]) = Some w /\
    rd (w_objs _ w) 0 = Some o /\ rd (w_heap _ w) (o_loc _ o) = Some f /\
    read (GEntering true) f (o_cache _ o) <> read (GEntering true) f [].
Proof. do 3 eexists. split; [vm_compute; reflexivity|]. split; [vm_compute; reflexivity|]. split; [vm_compute; reflexivity|]. vm_compute. discriminate. Qed.
(** Deleting the cached entering_arcs makes the next read raise KeyError. *)
Theorem C10_delete_entering_arcs_refuted :
  exists w o f, run_lab [ORead 0 (GForward false false); ODel 0 (s2z "entering_arcs")] (init [f0]) = Some w /\
    rd (w_objs _ w) 0 = Some o /\ rd (w_heap _ w) (o_loc _ o) = Some f /\
    read (GEntering false) f (o_cache _ o) = None /\ read (GEntering false) f [] <> None.
Proof. do 3 eexists. split; [vm_compute; reflexivity|]. split; [vm_compute; reflexivity|]. split; [vm_compute; reflexivity|]. vm_compute. split; [reflexivity|discriminate]. Qed.

Example C12_ex : exists w1 w2 o f,
  run_any h0 (init [f0; f0]) = Some w1 /\
  run_any [OSetAttr 0 (s2z "scores") (AF [50; 60]); ODel 0 (s2z "aux_labels"); OInvert 0; ORename 0 (s2z "scores") (s2z "x"); OClone 0] w1 = Some w2 /\
  rd (w_objs _ w1) 2 = Some o /\ rd (w_heap _ w1) (o_loc _ o) = Some f /\ o_loc _ o = 2 /\ zlen (w_objs _ w2) = 4.
Proof.
  do 4 eexists. split; [vm_compute; reflexivity|]. split; [vm_compute; reflexivity|]. split; [vm_compute; reflexivity|].
  split; [vm_compute; reflexivity|]. vm_compute. auto.
Qed.
(** detach does not isolate: assigning scores (and labels) of the detached copy
    is visible through the arcs of the original. *)
Theorem C12_detach_shares_refuted :
  exists w o f, run_any [ODetach 0; OSetAttr 1 (s2z "scores") (AF [100; 200]); OSetAttr 1 (s2z "labels") (AI [6; -1])] (init [f0]) = Some w /\
    rd (w_objs _ w) 0 = Some o /\ rd (w_heap _ w) (o_loc _ o) = Some f /\
    map sc (arcs f) = [100; 200] /\ getattr _ f o (s2z "labels") = Some (inl (AI [6; -1])).
Proof. do 3 eexists. split; [vm_compute; reflexivity|]. repeat split. Qed.

(** an object with aux_labels and a symbol table *)
Definition o0 : obj (list Z) :=
  mkObj _ 0 (Some 1) [(s2z "scores", ViewScores); (s2z "labels", ViewLabels); (s2z "aux_labels", AI [9; -1])]
    [(s2z "labels_sym", PObj 1)] [].
Example C11_ex :
  nd _ o0 /\ dget (o_tens _ o0) (s2z "labels") = Some ViewLabels /\ dget (o_tens _ o0) (s2z "aux_labels") = Some (AI [9; -1]) /\
  dget (o_tens _ o0) (s2z "__temp") = None /\
  (forall n, prefix_of (s2z "__temp") n = true -> dget (o_non _ o0) n = None) /\
  (forall a x, In (a, x) (combine (arcs f0) [9; -1]) -> (x = -1 <-> dst a + 1 = zlen (row_splits f0) - 1)) /\
  (forall a, In a (arcs f0) -> (lab a = -1 <-> dst a + 1 = zlen (row_splits f0) - 1)) /\
  valid_bits toy_props f0 /\ valid_bits toy_props (inverted f0 [9; -1]) /\
  map lab (arcs (inverted f0 [9; -1])) = [9; -1] /\ swap_name (s2z "aux_labels_sym") = s2z "labels_sym".
Proof.
  split. { split; cbn; repeat constructor; cbn; intuition discriminate. }
  split; [reflexivity|]. split; [reflexivity|]. split; [reflexivity|].
  split. { intros n H. cbn [o0 o_non dget]. destruct (eqd (s2z "labels_sym") n) as [<-|]; auto. discriminate H. }
  split. { cbn. intros a x [H|[H|[]]]; injection H as <- <-; cbn; split; intros; try reflexivity; try discriminate; lia. }
  split. { cbn. intros a [<-|[<-|[]]]; cbn; split; intros; try reflexivity; try discriminate; lia. }
  vm_compute. auto.
Qed.
(** Without the final-arc convention invert_ raises, after overwriting the
    labels: here the aux label of the arc into the final state is 7. *)
Theorem C11_final_aux_refuted :
  let o := mkObj (list Z) 0 (Some 1) [(s2z "scores", ViewScores); (s2z "labels", ViewLabels); (s2z "aux_labels", AI [9; 7])] [] [] in
  exists f' o', invert_ _ toy_props f0 o = (f', o', false) /\ map lab (arcs f') = [9; 7].
Proof. do 2 eexists. split; vm_compute; reflexivity. Qed.
(** A 0 on an arc into the final state is accepted, but becomes -1: inverting
    twice does not restore it. *)
Theorem C11_zero_final_aux_refuted :
  let o := mkObj (list Z) 0 (Some 1) [(s2z "scores", ViewScores); (s2z "labels", ViewLabels); (s2z "aux_labels", AI [9; 0])] [] [] in
  exists f1 o1 f2 o2, invert_ _ toy_props f0 o = (f1, o1, true) /\ invert_ _ toy_props f1 o1 = (f2, o2, true) /\
    f2 = f0 /\ getattr _ f2 o2 (s2z "aux_labels") = Some (inl (AI [9; -1])).
Proof. do 4 eexists. split; [vm_compute; reflexivity|]. split; [vm_compute; reflexivity|]. split; vm_compute; reflexivity. Qed.
