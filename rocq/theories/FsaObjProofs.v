(** * Proofs about the Fsa object: cache consistency and isolation *)
From Coq Require Import ZArith List Lia Bool String.
From Coq Require Import ZifyBool.
From Verif Require Import Base PyBase RaggedModel FsaSpec RaggedOpsModel OpsModel FsaObjModel FsaObjSpec.
Import ListNotations.
Open Scope Z_scope.

Lemma dget_filter_key {K V} {EQ : Eqd K} (P : K -> bool) (d : dict K V) k :
  dget (filter (fun kv => P (fst kv)) d) k = if P k then dget d k else None.
Proof.
  induction d as [|[k' v] d IH]; simpl; [now destruct (P k)|].
  destruct (P k') eqn:E; simpl.
  - destruct (eqd k' k) as [->|]; [now rewrite E|exact IH].
  - rewrite IH. destruct (eqd k' k) as [->|]; [now rewrite E|reflexivity].
Qed.
Lemma NoDup_filter_key {K V} (P : K * V -> bool) (d : dict K V) : NoDup (keys d) -> NoDup (keys (filter P d)).
Proof.
  induction d as [|[k v] d IH]; simpl; auto. intros H. inversion H as [|? ? H1 H2]; subst.
  destruct (P (k, v)); simpl; auto. constructor; auto. intros Hin. apply H1.
  unfold keys in *. apply in_map_iff in Hin as (x & E & Hx). apply in_map_iff. exists x. split; auto. now apply filter_In in Hx.
Qed.

Definition dsets {K A} {EQ : Eqd K} (l : list (K * A)) (d : dict K A) := fold_left (fun c kv => dset c (fst kv) (snd kv)) l d.
Lemma dget_dsets {K A} {EQ : Eqd K} (l : list (K * A)) : NoDup (keys l) -> forall d k,
  dget (dsets l d) k = match dget l k with Some v => Some v | None => dget d k end.
Proof.
  unfold dsets. induction l as [|[k0 v0] l IH]; intros H d k; cbn [fold_left]; auto.
  inversion H as [|? ? H1 H2]; subst. rewrite IH by auto. cbn [fst snd dget]. rewrite dget_dset.
  destruct (eqd k0 k) as [->|]; auto. apply dget_None in H1. now rewrite H1.
Qed.
Lemma dset_new {K A} {EQ : Eqd K} (d : dict K A) k v : ~ In k (keys d) -> dset d k v = d ++ [(k, v)].
Proof.
  induction d as [|[k0 v0] d IH]; simpl; auto. intros H. destruct (eqd k0 k) as [->|]; [tauto|]. now rewrite IH by tauto.
Qed.
Lemma dsets_nil {K A} {EQ : Eqd K} (l : list (K * A)) : NoDup (keys l) -> dsets l [] = l.
Proof.
  assert (G : forall (l : list (K * A)) (d : dict K A), NoDup (keys (d ++ l)) -> dsets l d = d ++ l).
  { clear l. intros l. unfold dsets. induction l as [|[k v] l IH]; intros d H; cbn [fold_left]; [now rewrite app_nil_r|].
    cbn [fst snd].
    assert (Hk : ~ In k (keys d)).
    { unfold keys in H. rewrite map_app in H. cbn in H. apply NoDup_remove_2 in H. rewrite in_app_iff in H. tauto. }
    rewrite dset_new by auto. rewrite IH; rewrite <- app_assoc; auto. }
  intros H. now rewrite G.
Qed.

Lemma keys_map_snd {K A B} (c : A -> B) (l : dict K A) : keys (map (fun kv => (fst kv, c (snd kv))) l) = keys l.
Proof. unfold keys. rewrite map_map. reflexivity. Qed.
Lemma dget_map_snd {K A B} {EQ : Eqd K} (c : A -> B) (l : dict K A) k :
  dget (map (fun kv => (fst kv, c (snd kv))) l) k = option_map c (dget l k).
Proof. induction l as [|[k0 v0] l IH]; simpl; auto. destruct (eqd k0 k); auto. Qed.


Section P.
  Variable V : Type.
  Notation Topo := (list Z * list (Z * Z))%type.
  Notation WTopo := ((list Z * list (Z * Z)) * list Z)%type.
  Variable k_state_batches : Topo -> V.
  Variable k_dest_states : Topo -> V.
  Variable k_incoming_arcs : Topo -> V -> V.
  Variable k_entering_batches : Topo -> V -> V -> V.
  Variable k_leaving_batches : Topo -> V -> V.
  Variable k_forward : bool -> bool -> WTopo -> V -> V -> V * V.
  Variable k_tot : bool -> WTopo -> V -> V.
  Variable k_backward : bool -> bool -> WTopo -> V -> V -> V.
  Variable k_arc_post : bool -> WTopo -> V -> V -> V.
  Variable k_arc_cdf : bool -> WTopo -> V -> V.
  Variable k_props : WTopo -> Z.

  Notation obj := (obj V).
  Notation cache := (dict str V).
  Notation g_sb := (get_state_batches V k_state_batches).
  Notation g_ds := (get_dest_states V k_dest_states).
  Notation g_inc := (get_incoming_arcs V k_dest_states k_incoming_arcs).
  Notation g_eb := (get_entering_arc_batches V k_state_batches k_dest_states k_incoming_arcs k_entering_batches).
  Notation g_lb := (get_leaving_arc_batches V k_state_batches k_leaving_batches).
  Notation g_fwd := (get_forward_scores V k_state_batches k_dest_states k_incoming_arcs k_entering_batches k_forward).
  Notation g_tot := (get_tot_scores V k_state_batches k_dest_states k_incoming_arcs k_entering_batches k_forward k_tot).
  Notation g_bwd := (get_backward_scores V k_state_batches k_leaving_batches k_backward).
  Notation g_post := (get_arc_post V k_state_batches k_dest_states k_incoming_arcs k_entering_batches k_leaving_batches k_forward k_backward k_arc_post).
  Notation g_cdf := (get_arc_cdf V k_state_batches k_dest_states k_incoming_arcs k_entering_batches k_leaving_batches k_forward k_backward k_arc_post k_arc_cdf).
  Notation g_ent := (get_entering_arcs V k_state_batches k_dest_states k_incoming_arcs k_entering_batches k_forward).
  Notation run_getter := (run_getter V k_state_batches k_dest_states k_incoming_arcs k_entering_batches k_leaving_batches
     k_forward k_tot k_backward k_arc_post k_arc_cdf).
  Notation read_properties := (read_properties V k_props).
  Notation setattr := (setattr V k_props).
  Notation rename := (rename V k_props).
  Notation invert_ := (invert_ V k_props).
  Notation step_obj := (step_obj V k_state_batches k_dest_states k_incoming_arcs k_entering_batches k_leaving_batches
     k_forward k_tot k_backward k_arc_post k_arc_cdf k_props).
  Notation step := (step V k_state_batches k_dest_states k_incoming_arcs k_entering_batches k_leaving_batches
     k_forward k_tot k_backward k_arc_post k_arc_cdf k_props).
  Notation run_any := (run_any V k_state_batches k_dest_states k_incoming_arcs k_entering_batches k_leaving_batches
     k_forward k_tot k_backward k_arc_post k_arc_cdf k_props).
  Notation run_lab := (run_lab V k_state_batches k_dest_states k_incoming_arcs k_entering_batches k_leaving_batches
     k_forward k_tot k_backward k_arc_post k_arc_cdf k_props).

  (** the value a getter computes from scratch *)
  Definition i_sb (w : WTopo) := k_state_batches (fst w).
  Definition i_ds (w : WTopo) := k_dest_states (fst w).
  Definition i_inc w := k_incoming_arcs (fst w) (i_ds w).
  Definition i_eb w := k_entering_batches (fst w) (i_inc w) (i_sb w).
  Definition i_lb w := k_leaving_batches (fst w) (i_sb w).
  Definition i_fwd d l w := fst (k_forward d l w (i_sb w) (i_eb w)).
  Definition i_ent d w := snd (k_forward d false w (i_sb w) (i_eb w)).
  Definition i_tot d l w := k_tot d w (i_fwd d l w).
  Definition i_bwd d l w := k_backward d l w (i_sb w) (i_lb w).
  Definition i_post d l w := k_arc_post d w (i_fwd d l w) (i_bwd d l w).
  Definition i_cdf d l w := k_arc_cdf d w (i_post d l w).
  Definition ideal (g : getter) (w : WTopo) : V :=
    match g with
    | GBatches => i_sb w | GDest => i_ds w | GIncoming => i_inc w | GEntBatches => i_eb w | GLeavBatches => i_lb w
    | GForward d l => i_fwd d l w | GTot d l => i_tot d l w | GBackward d l => i_bwd d l w
    | GPost d l => i_post d l w | GCdf d l => i_cdf d l w | GEntering d => i_ent d w
    end.
  Definition okv (g : getter) (w : WTopo) (v : V) : Prop :=
    match g with GEntering _ => exists d, v = i_ent d w | _ => v = ideal g w end.
  Definition gname (g : getter) : str :=
    match g with
    | GBatches => s2z "state_batches" | GDest => s2z "dest_states" | GIncoming => s2z "incoming_arcs"
    | GEntBatches => s2z "entering_arc_batches" | GLeavBatches => s2z "leaving_arc_batches"
    | GForward d l => s2z "forward_scores_" ++ suffix d l | GTot d l => s2z "tot_scores_" ++ suffix d l
    | GBackward d l => s2z "backward_scores_" ++ suffix d l | GPost d l => s2z "arc_post_" ++ suffix d l
    | GCdf d l => s2z "arc_cdf_" ++ suffix d l | GEntering _ => s2z "entering_arcs"
    end.
  Definition norm (g : getter) := match g with GEntering _ => GEntering false | _ => g end.
  Lemma gname_inj g g' : gname g = gname g' -> norm g = norm g'.
  Proof.
    intros H.
    destruct g as [| | | | |[] []|[] []|[] []|[] []|[] []|[]];
    destruct g' as [| | | | |[] []|[] []|[] []|[] []|[] []|[]]; try reflexivity; discriminate H.
  Qed.
  Lemma okv_norm g g' w v : norm g = norm g' -> okv g w v -> okv g' w v.
  Proof. destruct g, g'; simpl; intros H; inversion H; subst; auto. Qed.

  Definition consistent (c : cache) (w : WTopo) : Prop := forall g v, dget c (gname g) = Some v -> okv g w v.
  Definition ent_ok (c : cache) : Prop :=
    forall d v, dget c (gname (GForward d false)) = Some v -> exists e, dget c (s2z "entering_arcs") = Some e.
  Definition cok c w := consistent c w /\ ent_ok c /\ NoDup (keys c).

  Definition is_fwd_trop (g : getter) : bool := match g with GForward _ l => negb l | _ => false end.

  Lemma cok_set c w g v : cok c w -> okv g w v -> is_fwd_trop g = false -> cok (dset c (gname g) v) w.
  Proof.
    intros (C & E & N) Hv Hg. split; [|split].
    - intros g' v' H. rewrite dget_dset in H. destruct (eqd (gname g) (gname g')) as [Eq|].
      + injection H as <-. apply (okv_norm g); auto. now apply gname_inj.
      + now apply C.
    - intros d v' H. rewrite dget_dset in H. destruct (eqd (gname g) (gname (GForward d false))) as [Eq|].
      + apply gname_inj in Eq. destruct g; try discriminate Eq. inversion Eq; subst. discriminate Hg.
      + destruct (E _ _ H) as (e & He). rewrite dget_dset. destruct (eqd _ _); eauto.
    - now apply NoDup_dset.
  Qed.

  Definition good (g : getter) (w : WTopo) (m : cache -> V * cache) : Prop :=
    forall c, cok c w -> fst (m c) = ideal g w /\ cok (snd (m c)) w.
  Lemma memo_good g w compute : is_fwd_trop g = false -> (forall d, g <> GEntering d) -> good g w compute ->
    good g w (memo V (gname g) compute).
  Proof.
    intros Hf He H c Hc. unfold memo. destruct (dget c (gname g)) as [v|] eqn:E; cbn [fst snd].
    - split; auto. destruct Hc as (C & _). apply C in E. destruct g; try exact E. exfalso. now apply (He d).
    - destruct (H c Hc) as (H1 & H2). split; auto. apply cok_set; auto. rewrite H1.
      destruct g; try reflexivity. simpl. eauto.
  Qed.

  Ltac use L c Hc v c' E H :=
    let A := fresh in pose proof (L c Hc) as A; destruct A as (E & H);
    match goal with |- context [let (_, _) := ?m c in _] => destruct (m c) as [v c'] end;
    cbn [fst snd] in E, H.

  Section F.
  Variable f : fsa.
  Let w := wtopo f.
  Lemma sb_good : good GBatches w (g_sb f).
  Proof. apply (memo_good GBatches); try reflexivity; [discriminate|]. intros c Hc; simpl; auto. Qed.
  Lemma ds_good : good GDest w (g_ds f).
  Proof. apply (memo_good GDest); try reflexivity; [discriminate|]. intros c Hc; simpl; auto. Qed.
  Lemma inc_good : good GIncoming w (g_inc f).
  Proof.
    apply (memo_good GIncoming); try reflexivity; [discriminate|]. intros c Hc.
    use ds_good c Hc v c' E H. subst v. auto.
  Qed.
  Lemma eb_good : good GEntBatches w (g_eb f).
  Proof.
    apply (memo_good GEntBatches); try reflexivity; [discriminate|]. intros c Hc.
    use inc_good c Hc v c' E H. use sb_good c' H v2 c2 E2 H2. subst. auto.
  Qed.
  Lemma lb_good : good GLeavBatches w (g_lb f).
  Proof.
    apply (memo_good GLeavBatches); try reflexivity; [discriminate|]. intros c Hc.
    use sb_good c Hc v c' E H. subst v. auto.
  Qed.
  Lemma fwd_good d l : good (GForward d l) w (g_fwd d l f).
  Proof.
    intros c Hc. unfold get_forward_scores. fold (gname (GForward d l)).
    destruct (dget c (gname (GForward d l))) as [v|] eqn:E; cbn [fst snd].
    - split; auto. destruct Hc as (C & _). now apply C in E.
    - use sb_good c Hc v c' E1 H1. use eb_good c' H1 v2 c2 E2 H2. subst v v2. cbn [fst snd]. split; [reflexivity|].
      destruct l.
      + apply cok_set; auto. reflexivity.
      + destruct H2 as (C & En & N). split; [|split].
        * intros g' v' Hg. rewrite dget_dset in Hg. destruct (eqd (s2z "entering_arcs") (gname g')) as [Eq|].
          { injection Hg as <-. apply (okv_norm (GEntering d)); [now apply gname_inj|]. simpl. exists d. reflexivity. }
          rewrite dget_dset in Hg. destruct (eqd (gname (GForward d false)) (gname g')) as [Eq|].
          { injection Hg as <-. apply (okv_norm (GForward d false)); [now apply gname_inj|]. reflexivity. }
          now apply C.
        * intros d' v' _. eexists. apply dget_dset_same.
        * now apply NoDup_dset, NoDup_dset.
  Qed.
  Lemma tot_good d l : good (GTot d l) w (g_tot d l f).
  Proof.
    apply (memo_good (GTot d l)); try reflexivity; [discriminate|]. intros c Hc.
    use (fwd_good d l) c Hc v c' E H. subst v. auto.
  Qed.
  Lemma bwd_good d l : good (GBackward d l) w (g_bwd d l f).
  Proof.
    apply (memo_good (GBackward d l)); try reflexivity; [discriminate|]. intros c Hc.
    use sb_good c Hc v c' E H. use lb_good c' H v2 c2 E2 H2. subst. auto.
  Qed.
  Lemma post_good d l : good (GPost d l) w (g_post d l f).
  Proof.
    apply (memo_good (GPost d l)); try reflexivity; [discriminate|]. intros c Hc.
    use (fwd_good d l) c Hc v c' E H. use (bwd_good d l) c' H v2 c2 E2 H2. subst. auto.
  Qed.
  Lemma cdf_good d l : good (GCdf d l) w (g_cdf d l f).
  Proof.
    apply (memo_good (GCdf d l)); try reflexivity; [discriminate|]. intros c Hc.
    use (post_good d l) c Hc v c' E H. subst v. auto.
  Qed.
  Lemma run_getter_ok g c : cok c w -> exists v, fst (run_getter g f c) = Some v /\ okv g w v /\ cok (snd (run_getter g f c)) w.
  Proof.
    intros Hc. destruct g; cbn [FsaObjModel.run_getter fst snd].
    1: eexists; split; [reflexivity|apply (sb_good c Hc)].
    1: eexists; split; [reflexivity|apply (ds_good c Hc)].
    1: eexists; split; [reflexivity|apply (inc_good c Hc)].
    1: eexists; split; [reflexivity|apply (eb_good c Hc)].
    1: eexists; split; [reflexivity|apply (lb_good c Hc)].
    1: eexists; split; [reflexivity|apply (fwd_good d l c Hc)].
    1: eexists; split; [reflexivity|apply (tot_good d l c Hc)].
    1: eexists; split; [reflexivity|apply (bwd_good d l c Hc)].
    1: eexists; split; [reflexivity|apply (post_good d l c Hc)].
    1: eexists; split; [reflexivity|apply (cdf_good d l c Hc)].
    unfold get_entering_arcs. destruct (dget c (s2z "entering_arcs")) as [v|] eqn:E; cbn [fst snd].
    - exists v. split; auto. split; auto. destruct Hc as (C & _). apply (C (GEntering d)) in E. exact E.
    - destruct (fwd_good d false c Hc) as (E1 & H1).
      assert (exists e, dget (snd (g_fwd d false f c)) (s2z "entering_arcs") = Some e) as (e & He).
      { destruct H1 as (_ & En & _). destruct Hc as (_ & En0 & _).
        unfold get_forward_scores in *. fold (gname (GForward d false)) in *.
        destruct (dget c (gname (GForward d false))) as [v|] eqn:E2; cbn [snd] in *.
        - destruct (En0 _ _ E2) as (e & He). eauto.
        - destruct (g_sb f c) as [a1 c1], (g_eb f c1) as [a2 c2]. cbn [snd]. eexists. apply dget_dset_same. }
      exists e. split; auto. split; auto. destruct H1 as (C & _). now apply (C (GEntering d)) in He.
  Qed.
  End F.

  (** ** Objects *)
  Definition props_ok (f : fsa) (o : obj) : Prop :=
    forall p, o_props V o = Some p -> p = k_props (ltopo f) /\ Z.land p 1 = 1.
  Definition obj_ok (f : fsa) (o : obj) : Prop := cok (o_cache V o) (wtopo f) /\ props_ok f o.

  Lemma combine_fst {A B} (x : list A) : forall (y : list B), zlen y = zlen x -> map fst (combine x y) = x.
  Proof.
    induction x as [|a x IH]; intros [|b y] H; simpl; auto.
    - rewrite zlen_cons in H. change (zlen (@nil B)) with 0 in H. pose proof (zlen_nonneg x). lia.
    - rewrite !zlen_cons in H. f_equal. apply IH. lia.
  Qed.
  Lemma combine_snd {A B} (x : list A) : forall (y : list B), zlen y = zlen x -> map snd (combine x y) = y.
  Proof.
    induction x as [|a x IH]; intros [|b y] H; simpl; auto.
    - rewrite zlen_cons in H. change (zlen (@nil A)) with 0 in H. pose proof (zlen_nonneg y). lia.
    - rewrite !zlen_cons in H. f_equal. apply IH. lia.
  Qed.
  Lemma map_via_fst {A B C} (g : A -> C) (x : list A) (y : list B) : zlen y = zlen x ->
    map (fun p => g (fst p)) (combine x y) = map g x.
  Proof. intros H. rewrite <- map_map. now rewrite combine_fst. Qed.

  Lemma with_labels_ok f v : zlen v = zlen (arcs f) ->
    wtopo (with_labels f v) = wtopo f /\ map lab (arcs (with_labels f v)) = v /\ zlen (arcs (with_labels f v)) = zlen (arcs f).
  Proof.
    intros H. unfold wtopo, topo, with_labels. cbn [row_splits arcs]. rewrite !map_map. cbn [src dst lab sc].
    rewrite (map_via_fst (fun a => (src a, dst a))), (map_via_fst sc) by auto. split; auto. split.
    - rewrite <- (combine_snd (arcs f) v) at 2 by auto. reflexivity.
    - rewrite zlen_map. unfold zlen in *. rewrite combine_length. lia.
  Qed.
  Lemma with_scores_ok f v : zlen v = zlen (arcs f) ->
    ltopo (with_scores f v) = ltopo f /\ map sc (arcs (with_scores f v)) = v /\ zlen (arcs (with_scores f v)) = zlen (arcs f).
  Proof.
    intros H. unfold ltopo, topo, with_scores. cbn [row_splits arcs]. rewrite !map_map. cbn [src dst lab sc].
    rewrite (map_via_fst (fun a => (src a, dst a))), (map_via_fst lab) by auto. split; auto. split.
    - rewrite <- (combine_snd (arcs f) v) at 2 by auto. reflexivity.
    - rewrite zlen_map. unfold zlen in *. rewrite combine_length. lia.
  Qed.
  Lemma fix_final_wtopo f f' : fix_final_labels f = Some f' -> wtopo f' = wtopo f /\ zlen (arcs f') = zlen (arcs f).
  Proof.
    unfold fix_final_labels. destruct (mapM _ _) as [l|] eqn:E; [|discriminate]. intros H. injection H as <-.
    pose proof (mapM_length _ _ _ E) as L. unfold wtopo, topo. cbn [row_splits arcs].
    apply mapM_Some_iff in E.
    assert (G : map (fun a => (src a, dst a)) l = map (fun a => (src a, dst a)) (arcs f) /\ map sc l = map sc (arcs f)).
    { clear L. induction E as [|a b x y Hab _ IH]; auto. destruct IH as (I1 & I2). simpl. rewrite I1, I2.
      revert Hab. unfold fix_final_label.
      destruct (dst a + 1 =? _), (lab a =? -1), (lab a =? 0); intros H; try discriminate H; injection H as <-; auto. }
    destruct G as (-> & ->). split; auto. unfold zlen. now rewrite L.
  Qed.

  Lemma cok_invalidate f f' c : topo f' = topo f -> cok c (wtopo f) -> cok (invalidate V c) (wtopo f').
  Proof.
    intros Ht (C & E & N).
    set (P := fun k : str => negb (score_key k || (if eqd k (s2z "entering_arcs") then true else false))).
    assert (D : forall k, dget (invalidate V c) k = if P k then dget c k else None) by (intros k; exact (dget_filter_key P c k)).
    split; [|split].
    - intros g v H. rewrite D in H. destruct (P (gname g)) eqn:Ep; [|discriminate]. apply C in H.
      destruct g as [| | | | |[] []|[] []|[] []|[] []|[] []|[]]; try discriminate Ep; simpl in *; subst v;
        unfold i_sb, i_ds, i_inc, i_eb, i_lb, i_inc, i_ds, i_sb, wtopo; cbn [fst]; now rewrite Ht.
    - intros d v H. rewrite D in H. destruct d; discriminate H.
    - now apply NoDup_filter_key.
  Qed.

  Lemma read_properties_ok f o p : obj_ok f o -> fst (read_properties f o) = Some p ->
    p = k_props (ltopo f) /\ Z.land p 1 = 1 /\ obj_ok f (snd (read_properties f o)).
  Proof.
    intros (Hc & Hp). unfold FsaObjModel.read_properties. destruct (negb _); [discriminate|].
    destruct (o_props V o) as [q|] eqn:E; cbn [fst snd].
    - intros H; injection H as <-. destruct (Hp _ E). split; auto. split; auto. now split.
    - destruct (Z.land (k_props (ltopo f)) 1 =? 1) eqn:Ev; [|discriminate]. intros H; injection H as <-.
      split; auto. split; [lia|]. split; [exact Hc|]. intros p Hq. cbn in Hq. injection Hq as <-. split; auto. lia.
  Qed.
  Lemma read_properties_frame f o : let o' := snd (read_properties f o) in
    o_loc V o' = o_loc V o /\ o_tens V o' = o_tens V o /\ o_non V o' = o_non V o /\ o_cache V o' = o_cache V o.
  Proof.
    unfold FsaObjModel.read_properties. destruct (negb _); simpl; auto. destruct (o_props V o); simpl; auto.
  Qed.

  Lemma data_len f a : is_ragged a = false -> zlen (data_of f a) = attr_len f a.
  Proof. destruct a; simpl; intros; try discriminate; unfold data_of; simpl; rewrite ?zlen_map; auto. Qed.

  Lemma setattr_ok n v f o f' o' : obj_ok f o -> setattr n v f o = (f', o', true) ->
    obj_ok f' o' /\ topo f' = topo f.
  Proof.
    intros (Hc & Hp). unfold FsaObjModel.setattr.
    destruct (attr_len f v =? zlen (arcs f)) eqn:El; cbn [negb]; [|discriminate].
    destruct (is_ragged v) eqn:Er.
    { intros H; injection H as <- <-. split; auto. split; auto. }
    pose proof (data_len f v Er) as DL.
    destruct (eqd n (s2z "labels")).
    - destruct (is_i32 v); cbn [negb]; [|discriminate].
      destruct (with_labels_ok f (data_of f v)) as (W1 & W2 & W3); [lia|].
      destruct (fix_final_labels _) as [f2|] eqn:Ef; [|discriminate].
      destruct (fix_final_wtopo _ _ Ef) as (F1 & F2).
      assert (O : obj_ok f2 (set_props V o None)).
      { split; [|intros p Hq; discriminate Hq]. rewrite F1, W1. exact Hc. }
      destruct (fst (read_properties f2 (set_props V o None))) as [p|] eqn:Ep; [|discriminate].
      intros H; injection H as <- <-. destruct (read_properties_ok _ _ _ O Ep) as (_ & _ & O'). split; auto.
      assert (E : wtopo f2 = wtopo f) by congruence. exact (f_equal fst E).
    - destruct (eqd n (s2z "scores")).
      + destruct (is_f32 v); cbn [negb]; [|discriminate]. intros H; injection H as <- <-.
        destruct (with_scores_ok f (data_of f v)) as (W1 & W2 & W3); [lia|].
        assert (Et : topo (with_scores f (data_of f v)) = topo f) by exact (f_equal fst W1).
        split; [|exact Et]. split; [now apply (cok_invalidate f)|]. intros p Hq. cbn in Hq. rewrite W1. now apply Hp.
      + intros H; injection H as <- <-. split; auto. split; auto.
  Qed.
  Lemma setattr_loc n v f o f' o' b : setattr n v f o = (f', o', b) -> o_loc V o' = o_loc V o.
  Proof.
    unfold FsaObjModel.setattr. destruct (negb _); [now intros H; injection H as _ <- _|].
    destruct (is_ragged v); [now intros H; injection H as _ <- _|].
    destruct (eqd n _).
    - destruct (negb _); [now intros H; injection H as _ <- _|].
      destruct (fix_final_labels _) as [f0|]; [|now intros H; injection H as _ <- _].
      intros H. injection H as _ <- _. exact (proj1 (read_properties_frame f0 (set_props V o None))).
    - destruct (eqd n _); [|now intros H; injection H as _ <- _].
      destruct (negb _); now intros H; injection H as _ <- _.
  Qed.

  Lemma rename_ok a b f o f' o' : obj_ok f o -> rename a b f o = (f', o', true) -> obj_ok f' o' /\ topo f' = topo f.
  Proof.
    intros Ho. unfold FsaObjModel.rename. destruct (eqd a b); [discriminate|].
    destruct (dget (o_tens V o) a) as [v|]; [|discriminate].
    destruct (setattr b _ f o) as [[f1 o1] ok] eqn:E. destruct ok; cbn [negb]; [|discriminate].
    intros H; injection H as <- <-. destruct (setattr_ok _ _ _ _ _ _ Ho E) as ((Hc & Hp) & Ht). split; auto. split; auto.
  Qed.
  Lemma rename_loc a b f o f' o' ok : rename a b f o = (f', o', ok) -> o_loc V o' = o_loc V o.
  Proof.
    unfold FsaObjModel.rename. destruct (eqd a b); [now intros H; injection H as _ <- _|].
    destruct (dget (o_tens V o) a) as [v|]; [|now intros H; injection H as _ <- _].
    destruct (setattr b _ f o) as [[f1 o1] ok1] eqn:E. apply setattr_loc in E.
    destruct (negb ok1); intros H; injection H as _ <- _; auto.
  Qed.

  Lemma invert_ok f o f' o' : obj_ok f o -> invert_ f o = (f', o', true) -> obj_ok f' o' /\ topo f' = topo f.
  Proof.
    intros Ho. unfold FsaObjModel.invert_. destruct (dget (o_tens V o) (s2z "aux_labels")) as [a|]; [|discriminate].
    destruct (is_ragged a); [discriminate|].
    unfold seq.
    destruct (rename _ _ f o) as [[f1 o1] k1] eqn:E1. destruct k1; [|discriminate].
    destruct (rename_ok _ _ _ _ _ _ Ho E1) as (O1 & T1).
    destruct (rename _ _ f1 o1) as [[f2 o2] k2] eqn:E2. destruct k2; [|discriminate].
    destruct (rename_ok _ _ _ _ _ _ O1 E2) as (O2 & T2).
    destruct (rename _ _ f2 o2) as [[f3 o3] k3] eqn:E3. destruct k3; [|discriminate].
    destruct (rename_ok _ _ _ _ _ _ O2 E3) as (O3 & T3).
    destruct (fix_final_labels f3) as [f4|] eqn:Ef; [|discriminate].
    destruct (fix_final_wtopo _ _ Ef) as (F1 & F2).
    assert (O : obj_ok f4 (set_props V o3 None)).
    { split; [|intros p Hq; discriminate Hq]. rewrite F1. apply O3. }
    destruct (fst (read_properties f4 (set_props V o3 None))) as [p|] eqn:Ep; [|discriminate].
    intros H; injection H as <- <-. destruct (read_properties_ok _ _ _ O Ep) as (_ & _ & O'). split; auto.
    apply (f_equal fst) in F1. cbn in F1. congruence.
  Qed.
  Lemma invert_loc f o f' o' ok : invert_ f o = (f', o', ok) -> o_loc V o' = o_loc V o.
  Proof.
    unfold FsaObjModel.invert_. destruct (dget (o_tens V o) (s2z "aux_labels")) as [a|]; [|now intros H; injection H as _ <- _].
    destruct (is_ragged a); [now intros H; injection H as _ <- _|].
    unfold seq.
    destruct (rename _ _ f o) as [[f1 o1] k1] eqn:E1. apply rename_loc in E1.
    destruct k1; [|intros H; injection H as _ <- _; auto].
    destruct (rename _ _ f1 o1) as [[f2 o2] k2] eqn:E2. apply rename_loc in E2.
    destruct k2; [|intros H; injection H as _ <- _; congruence].
    destruct (rename _ _ f2 o2) as [[f3 o3] k3] eqn:E3. apply rename_loc in E3.
    destruct k3; [|intros H; injection H as _ <- _; congruence].
    destruct (fix_final_labels f3) as [f4|] eqn:Ef; [|intros H; injection H as _ <- _; congruence].
    intros H; injection H as _ <- _.
    destruct (read_properties_frame f4 (set_props V o3 None)) as (L & _). cbn in L. congruence.
  Qed.

  Lemma delattr_ok n f o o' : n <> s2z "entering_arcs" -> obj_ok f o -> delattr V n o = (o', true) -> obj_ok f o'.
  Proof.
    intros Hn (Hc & Hp). unfold delattr. destruct (eqd n _); [discriminate|].
    destruct (dmem (o_tens V o) n); [intros H; injection H as <-; now split|].
    destruct (dmem (o_non V o) n); [intros H; injection H as <-; now split|].
    destruct (dmem (o_cache V o) n); [|discriminate]. intros H; injection H as <-. split; [|exact Hp].
    destruct Hc as (C & E & N). cbn [o_cache]. split; [|split].
    - intros g v H. rewrite dget_ddel in H by auto. destruct (eqd n (gname g)); [discriminate|]. now apply C.
    - intros d v H. rewrite dget_ddel in H by auto. destruct (eqd n _) as [|]; [discriminate|].
      destruct (E _ _ H) as (e & He). exists e. rewrite dget_ddel by auto. destruct (eqd n _); [congruence|exact He].
    - now apply NoDup_ddel.
  Qed.
  Lemma delattr_loc n o o' ok : delattr V n o = (o', ok) -> o_loc V o' = o_loc V o.
  Proof.
    unfold delattr. destruct (eqd n _); [now intros H; injection H as <- _|].
    destruct (dmem (o_tens V o) n); [now intros H; injection H as <- _|].
    destruct (dmem (o_non V o) n); [now intros H; injection H as <- _|].
    destruct (dmem (o_cache V o) n); now intros H; injection H as <- _.
  Qed.

  Lemma props_keep f o : obj_ok f o -> (exists p, fst (read_properties f o) = Some p) -> obj_ok f (snd (read_properties f o)).
  Proof. intros Ho (p & Hp). now destruct (read_properties_ok _ _ _ Ho Hp). Qed.

  Lemma step_obj_ok x f o f' o' : no_del_entering x -> obj_ok f o -> step_obj x f o = (f', o', true) ->
    (match x with OClone _ | ODetach _ => exists p, fst (read_properties f o) = Some p | _ => True end) ->
    obj_ok f' o' /\ topo f' = topo f.
  Proof.
    intros Hx Ho H Hcl. destruct x; cbn [FsaObjModel.step_obj] in H.
    - destruct Ho as (Hc & Hp). destruct (run_getter_ok f g _ Hc) as (v & E1 & E2 & E3).
      injection H as <- <- _. split; auto. split; auto.
    - destruct (fst (read_properties f o)) eqn:E; [|discriminate]. injection H as <- <-. split; auto. apply props_keep; eauto.
    - now apply setattr_ok in H.
    - injection H as <- <-. split; auto.
    - destruct (delattr V name o) as [o1 ok] eqn:E. cbn in H. injection H as <- <- ->. split; auto. eapply delattr_ok; eauto.
    - now apply rename_ok in H.
    - now apply invert_ok in H.
    - injection H as <- <-. split; auto. now apply props_keep.
    - injection H as <- <-. split; auto. now apply props_keep.
  Qed.
  Lemma step_obj_loc x f o f' o' ok : step_obj x f o = (f', o', ok) -> o_loc V o' = o_loc V o.
  Proof.
    intros H. destruct x; cbn [FsaObjModel.step_obj] in H.
    - injection H as _ <- _. reflexivity.
    - injection H as _ <- _. apply read_properties_frame.
    - now apply setattr_loc in H.
    - injection H as _ <- _. reflexivity.
    - destruct (delattr V name o) as [o1 k] eqn:E. cbn in H. injection H as _ <- _. now apply delattr_loc in E.
    - now apply rename_loc in H.
    - now apply invert_loc in H.
    - injection H as _ <- _. apply read_properties_frame.
    - injection H as _ <- _. apply read_properties_frame.
  Qed.

  (** ** Worlds *)
  Notation world := (world V).
  Notation nd := (nd V).
  Notation init := (init V k_props).
  Definition locs_ok (w : world) : Prop :=
    (forall i j a b, rd (w_objs V w) i = Some a -> rd (w_objs V w) j = Some b -> o_loc V a = o_loc V b -> i = j) /\
    (forall i a, rd (w_objs V w) i = Some a -> exists f, rd (w_heap V w) (o_loc V a) = Some f).

  (** copying an object *)
  Lemma setattr_user n v f o f' o' : n <> s2z "labels" -> n <> s2z "scores" -> setattr n v f o = (f', o', true) ->
    f' = f /\ o' = mkObj V (o_loc V o) (o_props V o) (dset (o_tens V o) n v) (o_non V o) (o_cache V o) /\ attr_len f v = zlen (arcs f).
  Proof.
    intros H1 H2. unfold FsaObjModel.setattr.
    destruct (attr_len f v =? zlen (arcs f)) eqn:E; cbn [negb]; [|discriminate].
    destruct (is_ragged v); [intros H; injection H as <- <-; repeat split; lia|].
    destruct (eqd n (s2z "labels")); [contradiction|]. destruct (eqd n (s2z "scores")); [contradiction|].
    intros H; injection H as <- <-. repeat split; lia.
  Qed.
  Lemma setattrs_user l : forall f o f' o', (forall n v, In (n, v) l -> n <> s2z "labels" /\ n <> s2z "scores") ->
    setattrs V k_props l f o = (f', o', true) ->
    f' = f /\ o' = mkObj V (o_loc V o) (o_props V o) (dsets l (o_tens V o)) (o_non V o) (o_cache V o).
  Proof.
    induction l as [|[n v] l IH]; intros f o f' o' Hl H; cbn [setattrs] in H.
    - injection H as <- <-. split; auto. now destruct o.
    - unfold seq in H. destruct (setattr n v f o) as [[f1 o1] ok] eqn:E. destruct ok; [|discriminate].
      destruct (Hl n v (or_introl eq_refl)) as (H1 & H2).
      destruct (setattr_user _ _ _ _ _ _ H1 H2 E) as (-> & -> & _).
      destruct (IH _ _ _ _ (fun n' v' h => Hl n' v' (or_intror h)) H) as (-> & ->). auto.
  Qed.
  Lemma setattr_non_fold (l : list (str * pv)) : forall o,
    fold_left (fun o kv => setattr_non V (fst kv) (snd kv) o) l o =
    mkObj V (o_loc V o) (o_props V o) (o_tens V o) (dsets l (o_non V o)) (o_cache V o).
  Proof. induction l as [|[n v] l IH]; intros o; cbn [fold_left]; [now destruct o|]. rewrite IH. reflexivity. Qed.

  Lemma user_attrs_names o n v : In (n, v) (user_attrs V o) -> n <> s2z "labels" /\ n <> s2z "scores".
  Proof.
    unfold user_attrs. rewrite filter_In. cbn [fst]. intros (_ & H).
    destruct (eqd n (s2z "scores")); [discriminate|]. destruct (eqd n (s2z "labels")); [discriminate|]. auto.
  Qed.
  Lemma copy_to_inv loc c f o n : copy_to V k_props loc c f o = Some n -> NoDup (keys (o_cache V o)) ->
    NoDup (keys (o_non V o)) ->
    exists p, fst (read_properties f o) = Some p /\
      n = mkObj V loc (Some p) (dsets (map (fun kv => (fst kv, c (snd kv))) (user_attrs V o)) (o_tens V (new_obj V loc None)))
            (o_non V o) (o_cache V o).
  Proof.
    unfold copy_to. destruct (fst (read_properties f o)) as [p|]; [|discriminate].
    destruct (setattrs _ _ _ _ _) as [[f1 o1] ok] eqn:E. destruct ok; [|discriminate]. intros H N1 N2.
    injection H as H. apply setattrs_user in E.
    - destruct E as (-> & ->). rewrite setattr_non_fold in H. cbn in H.
      exists p. split; auto. rewrite <- H. change (fold_left _ (o_cache V o) []) with (dsets (o_cache V o) []).
      now rewrite !dsets_nil.
    - intros n0 v Hin. apply in_map_iff in Hin as ([n1 v1] & Eq & Hin). injection Eq as <- _. now apply user_attrs_names in Hin.
  Qed.


  (** ** No duplicate names *)
  Lemma NoDup_rename_non s d (D : dict str pv) : NoDup (keys D) -> NoDup (keys (rename_non s d D)).
  Proof.
    intros H. unfold rename_non.
    assert (G : forall (l : list (str * pv)) acc, NoDup (keys acc) -> NoDup (keys
      (fold_left (fun acc kv => ddel (dset acc (d ++ skipn (List.length s) (fst kv)) (snd kv)) (fst kv)) l acc))).
    { induction l as [|kv l IH]; intros acc Ha; cbn [fold_left]; auto. apply IH. apply NoDup_ddel. now apply NoDup_dset. }
    apply G. now apply NoDup_filter_key.
  Qed.
  Lemma setattr_nd n v f o f' o' b : nd o -> setattr n v f o = (f', o', b) -> nd o'.
  Proof.
    intros (N1 & N2). unfold FsaObjModel.setattr. destruct (negb _); [intros H; injection H as _ <- _; now split|].
    destruct (is_ragged v); [intros H; injection H as _ <- _; split; auto; now apply NoDup_dset|].
    destruct (eqd n _).
    - destruct (negb _); [intros H; injection H as _ <- _; now split|].
      destruct (fix_final_labels _) as [f0|]; [|intros H; injection H as _ <- _; now split].
      intros H. injection H as _ <- _. destruct (read_properties_frame f0 (set_props V o None)) as (_ & E1 & E2 & _).
      unfold nd. now rewrite E1, E2.
    - destruct (eqd n _); [|intros H; injection H as _ <- _; split; auto; now apply NoDup_dset].
      destruct (negb _); intros H; injection H as _ <- _; split; auto; now apply NoDup_dset.
  Qed.
  Lemma rename_nd a b f o f' o' ok : nd o -> rename a b f o = (f', o', ok) -> nd o'.
  Proof.
    intros Hn. unfold FsaObjModel.rename. destruct (eqd a b); [now intros H; injection H as _ <- _|].
    destruct (dget (o_tens V o) a) as [v|]; [|now intros H; injection H as _ <- _].
    destruct (setattr b _ f o) as [[f1 o1] ok1] eqn:E. apply setattr_nd in E; auto. destruct E as (N1 & N2).
    destruct (negb ok1); intros H; injection H as _ <- _; [now split|]. split; cbn.
    - destruct (_ || _); auto. now apply NoDup_ddel.
    - now apply NoDup_rename_non.
  Qed.
  Lemma nd_props f o : nd o -> nd (snd (read_properties f o)).
  Proof. intros H. destruct (read_properties_frame f o) as (_ & E1 & E2 & _). unfold nd. now rewrite E1, E2. Qed.
  Lemma invert_nd f o f' o' ok : nd o -> invert_ f o = (f', o', ok) -> nd o'.
  Proof.
    intros Hn. unfold FsaObjModel.invert_. destruct (dget (o_tens V o) (s2z "aux_labels")) as [a|]; [|now intros H; injection H as _ <- _].
    destruct (is_ragged a); [now intros H; injection H as _ <- _|].
    unfold seq.
    destruct (rename _ _ f o) as [[f1 o1] k1] eqn:E1. apply rename_nd in E1; auto.
    destruct k1; [|intros H; injection H as _ <- _; auto].
    destruct (rename _ _ f1 o1) as [[f2 o2] k2] eqn:E2. apply rename_nd in E2; auto.
    destruct k2; [|intros H; injection H as _ <- _; auto].
    destruct (rename _ _ f2 o2) as [[f3 o3] k3] eqn:E3. apply rename_nd in E3; auto.
    destruct k3; [|intros H; injection H as _ <- _; auto].
    destruct (fix_final_labels f3) as [f4|] eqn:Ef; [|intros H; injection H as _ <- _; auto].
    intros H; injection H as _ <- _. now apply nd_props.
  Qed.
  Lemma step_obj_nd x f o f' o' ok : nd o -> step_obj x f o = (f', o', ok) -> nd o'.
  Proof.
    intros Hn H. destruct x; cbn [FsaObjModel.step_obj] in H.
    - injection H as _ <- _. exact Hn.
    - injection H as _ <- _. now apply nd_props.
    - now apply setattr_nd in H.
    - injection H as _ <- _. destruct Hn. split; auto. now apply NoDup_dset.
    - destruct Hn as (N1 & N2). unfold delattr in H.
      destruct (eqd name _); [injection H as _ <- _; now split|].
      destruct (dmem (o_tens V o) name); [injection H as _ <- _; split; auto; now apply NoDup_ddel|].
      destruct (dmem (o_non V o) name); [injection H as _ <- _; split; auto; now apply NoDup_ddel|].
      destruct (dmem (o_cache V o) name); injection H as _ <- _; now split.
    - now apply rename_nd in H.
    - now apply invert_nd in H.
    - injection H as _ <- _. now apply nd_props.
    - injection H as _ <- _. now apply nd_props.
  Qed.

  (** ** One step of the world *)
  Notation clone := (clone V k_props).
  Notation detach := (detach V k_props).
  Lemma step_inv x w w' ok : step x w = Some (w', ok) -> exists o f f' o' ok1,
    rd (w_objs V w) (target x) = Some o /\ rd (w_heap V w) (o_loc V o) = Some f /\ step_obj x f o = (f', o', ok1) /\
    exists heap objs,
      zlen heap = zlen (w_heap V w) /\ zlen objs = zlen (w_objs V w) /\
      (forall j, rd heap j = if j =? o_loc V o then Some f' else rd (w_heap V w) j) /\
      (forall j, rd objs j = if j =? target x then Some o' else rd (w_objs V w) j) /\
      match x with
      | OClone _ =>
          (exists n, clone (zlen heap) f o = Some n /\ w' = mkWorld V (heap ++ [f]) (objs ++ [n]) /\ ok = true) \/
          (clone (zlen heap) f o = None /\ w' = mkWorld V heap objs /\ ok = false)
      | ODetach _ =>
          (exists n, detach f o = Some n /\ w' = mkWorld V heap (objs ++ [n]) /\ ok = true) \/
          (detach f o = None /\ w' = mkWorld V heap objs /\ ok = false)
      | _ => w' = mkWorld V heap objs /\ ok = ok1
      end.
  Proof.
    unfold FsaObjModel.step. destruct (rd (w_objs V w) (target x)) as [o|] eqn:Eo; [|discriminate].
    destruct (rd (w_heap V w) (o_loc V o)) as [f|] eqn:Ef; [|discriminate].
    destruct (step_obj x f o) as [[f' o'] ok1] eqn:Es.
    destruct (wr_Some (w_heap V w) (o_loc V o) f') as (heap & W1 & W2 & W3); [eapply rd_Some_bound; eauto|].
    destruct (wr_Some (w_objs V w) (target x) o') as (objs & U1 & U2 & U3); [eapply rd_Some_bound; eauto|].
    rewrite W1, U1. intros H. exists o, f, f', o', ok1. split; auto. split; auto. split; auto. exists heap, objs.
    split; auto. split; auto. split; auto. split; auto.
    destruct x; try (injection H as <- <-; auto; fail).
    - destruct (clone (zlen heap) f o) as [n|]; injection H as <- <-; [left; eauto|right; auto].
    - destruct (detach f o) as [n|]; injection H as <- <-; [left; eauto|right; auto].
  Qed.

  Lemma locs_update (w : world) t o f f' o' heap objs :
    locs_ok w -> rd (w_objs V w) t = Some o -> rd (w_heap V w) (o_loc V o) = Some f -> o_loc V o' = o_loc V o ->
    (forall j, rd heap j = if j =? o_loc V o then Some f' else rd (w_heap V w) j) ->
    (forall j, rd objs j = if j =? t then Some o' else rd (w_objs V w) j) ->
    locs_ok (mkWorld V heap objs).
  Proof.
    intros (L1 & L2) Ht Hf El Hh Ho. split; cbn [w_heap w_objs].
    - intros i j a b Hi Hj E. rewrite Ho in Hi, Hj.
      destruct (i =? t) eqn:Ei; destruct (j =? t) eqn:Ej.
      + lia.
      + injection Hi as <-. rewrite El in E. assert (t = j) by (eapply L1; eauto). lia.
      + injection Hj as <-. rewrite El in E. assert (i = t) by (eapply L1; eauto). lia.
      + eapply L1; eauto.
    - intros i a Hi. rewrite Hh. destruct (o_loc V a =? o_loc V o); eauto.
      rewrite Ho in Hi. destruct (i =? t); [injection Hi as <-; rewrite El; eauto|eauto].
  Qed.
  Lemma rd_snoc {A} (l : list A) x i y : rd (l ++ [x]) i = Some y -> rd l i = Some y \/ (i = zlen l /\ y = x).
  Proof.
    intros H. pose proof (rd_Some_bound _ _ _ H) as B. rewrite zlen_app in B. change (zlen [x]) with 1 in B.
    destruct (Z.eq_dec i (zlen l)) as [->|N].
    - rewrite rd_app_r in H by lia. rewrite Z.sub_diag, rd_cons_0 in H. injection H as <-. auto.
    - rewrite rd_app_l in H by lia. auto.
  Qed.
  Lemma locs_clone heap objs f n :
    locs_ok (mkWorld V heap objs) -> o_loc V n = zlen heap -> locs_ok (mkWorld V (heap ++ [f]) (objs ++ [n])).
  Proof.
    intros (L1 & L2) Hl. cbn [w_heap w_objs] in *.
    assert (B : forall i a, rd objs i = Some a -> o_loc V a < zlen heap).
    { intros i a Hi. destruct (L2 _ _ Hi) as (g & Hg). apply rd_Some_bound in Hg. lia. }
    split; cbn [w_heap w_objs].
    - intros i j a b Hi Hj E. apply rd_snoc in Hi as [Hi|(Hi & ->)]; apply rd_snoc in Hj as [Hj|(Hj & ->)].
      + eapply L1; eauto.
      + apply B in Hi. lia.
      + apply B in Hj. lia.
      + lia.
    - intros i a Hi. apply rd_snoc in Hi as [Hi|(Hi & ->)].
      + rewrite rd_app_l by eauto. eauto.
      + rewrite Hl, rd_app_r by lia. rewrite Z.sub_diag. exists f. apply rd_cons_0.
  Qed.
  Lemma clone_loc loc f o n : clone loc f o = Some n -> o_loc V n = loc.
  Proof.
    unfold FsaObjModel.clone, copy_to. destruct (fst (read_properties f o)); [|discriminate].
    destruct (setattrs _ _ _ _ _) as [[f1 o1] ok] eqn:E. destruct ok; [|discriminate]. intros H; injection H as <-. reflexivity.
  Qed.

  Lemma step_locs x w w' ok : no_detach x -> locs_ok w -> step x w = Some (w', ok) -> locs_ok w'.
  Proof.
    intros Hx L H. apply step_inv in H as (o & f & f' & o' & ok1 & Ho & Hf & Es & heap & objs & Z1 & Z2 & Rh & Ro & H).
    pose proof (step_obj_loc _ _ _ _ _ _ Es) as El.
    pose proof (locs_update _ _ _ _ _ _ _ _ L Ho Hf El Rh Ro) as L'.
    destruct x; try (destruct H as (-> & _); exact L').
    - destruct H as [(n & Hn & -> & _)|(_ & -> & _)]; auto. apply locs_clone; auto. now apply clone_loc in Hn.
    - destruct Hx.
  Qed.

  (** Isolation: the arcs and the object behind any other index are untouched,
      whether or not the operation raises. *)
  Lemma step_other x w w' ok j a f : locs_ok w -> step x w = Some (w', ok) -> target x <> j ->
    rd (w_objs V w) j = Some a -> rd (w_heap V w) (o_loc V a) = Some f ->
    rd (w_objs V w') j = Some a /\ rd (w_heap V w') (o_loc V a) = Some f.
  Proof.
    intros L H Hj Ha Hf. apply step_inv in H as (o & g & f' & o' & ok1 & Ho & Hg & Es & heap & objs & Z1 & Z2 & Rh & Ro & H).
    assert (R1 : rd objs j = Some a). { rewrite Ro. now replace (j =? target x) with false by lia. }
    assert (R2 : rd heap (o_loc V a) = Some f).
    { rewrite Rh. destruct (o_loc V a =? o_loc V o) eqn:E; auto. exfalso. apply Hj. apply (proj1 L _ _ _ _ Ho Ha). lia. }
    assert (B1 : j < zlen objs) by (apply rd_Some_bound in R1; lia).
    assert (B2 : o_loc V a < zlen heap) by (apply rd_Some_bound in R2; lia).
    destruct x; try (destruct H as (-> & _); auto; fail).
    - destruct H as [(n & Hn & -> & _)|(_ & -> & _)]; cbn [w_objs w_heap]; auto. rewrite !rd_app_l; auto.
    - destruct H as [(n & Hn & -> & _)|(_ & -> & _)]; cbn [w_objs w_heap]; auto. rewrite !rd_app_l; auto.
  Qed.

  (** ** Never stale *)
  Definition has_props (o : obj) : Prop := o_props V o <> None.
  Definition inv (w : world) : Prop :=
    locs_ok w /\ forall i a f, rd (w_objs V w) i = Some a -> rd (w_heap V w) (o_loc V a) = Some f ->
      obj_ok f a /\ nd a /\ has_props a.

  Lemma read_properties_has f o p : fst (read_properties f o) = Some p -> has_props (snd (read_properties f o)).
  Proof.
    unfold FsaObjModel.read_properties. destruct (negb _); [discriminate|]. unfold has_props.
    destruct (o_props V o) eqn:E; cbn; [congruence|]. discriminate.
  Qed.
  Lemma read_properties_id f o : has_props o -> snd (read_properties f o) = o.
  Proof.
    unfold FsaObjModel.read_properties, has_props. destruct (negb _); auto. destruct (o_props V o); [reflexivity|tauto].
  Qed.
  Lemma setattr_has n v f o f' o' : has_props o -> setattr n v f o = (f', o', true) -> has_props o'.
  Proof.
    intros Hp. unfold FsaObjModel.setattr. destruct (negb _); [discriminate|].
    destruct (is_ragged v); [intros H; injection H as _ <-; exact Hp|].
    destruct (eqd n _).
    - destruct (negb _); [discriminate|]. destruct (fix_final_labels _) as [f0|]; [|discriminate].
      destruct (fst (read_properties _ _)) eqn:E; [|discriminate]. intros H; injection H as _ <-. eapply read_properties_has; eauto.
    - destruct (eqd n _); [|intros H; injection H as _ <-; exact Hp].
      destruct (negb _); [discriminate|]. intros H; injection H as _ <-; exact Hp.
  Qed.
  Lemma rename_has a b f o f' o' : has_props o -> rename a b f o = (f', o', true) -> has_props o'.
  Proof.
    intros Hp. unfold FsaObjModel.rename. destruct (eqd a b); [discriminate|].
    destruct (dget (o_tens V o) a) as [v|]; [|discriminate].
    destruct (setattr b _ f o) as [[f1 o1] ok1] eqn:E. destruct ok1; [|discriminate].
    apply setattr_has in E; auto. intros H; injection H as _ <-. exact E.
  Qed.
  Lemma invert_has f o f' o' : invert_ f o = (f', o', true) -> has_props o'.
  Proof.
    unfold FsaObjModel.invert_. destruct (dget (o_tens V o) (s2z "aux_labels")) as [a|]; [|discriminate].
    destruct (is_ragged a); [discriminate|].
    unfold seq.
    destruct (rename _ _ f o) as [[f1 o1] k1]. destruct k1; [|discriminate].
    destruct (rename _ _ f1 o1) as [[f2 o2] k2]. destruct k2; [|discriminate].
    destruct (rename _ _ f2 o2) as [[f3 o3] k3]. destruct k3; [|discriminate].
    destruct (fix_final_labels f3) as [f4|]; [|discriminate].
    destruct (fst (read_properties _ _)) eqn:E; [|discriminate]. intros H; injection H as _ <-. eapply read_properties_has; eauto.
  Qed.

  Lemma setattr_fail n v f o f' o' : n <> s2z "labels" -> obj_ok f o -> has_props o ->
    setattr n v f o = (f', o', false) -> f' = f /\ obj_ok f o' /\ has_props o'.
  Proof.
    intros Hn Ho Hp. unfold FsaObjModel.setattr. destruct (negb _); [intros H; injection H as <- <-; auto|].
    destruct (is_ragged v); [discriminate|].
    destruct (eqd n (s2z "labels")); [contradiction|].
    destruct (eqd n _); [|discriminate]. destruct (negb _); [|discriminate]. intros H; injection H as <- <-; auto.
  Qed.
  Lemma step_obj_all x f o f' o' ok : no_del_entering x -> obj_ok f o -> has_props o ->
    step_obj x f o = (f', o', ok) -> ok = true \/ writes_labels x = false ->
    obj_ok f' o' /\ has_props o'.
  Proof.
    intros Hx Ho Hp H Hok. destruct ok.
    - assert (G : match x with OClone _ | ODetach _ => True | _ => obj_ok f' o' end).
      { destruct x; auto; exact (proj1 (step_obj_ok _ f o _ _ Hx Ho H I)). }
      split.
      + destruct x; auto.
        * cbn in H. injection H as <- <-. now rewrite read_properties_id.
        * cbn in H. injection H as <- <-. now rewrite read_properties_id.
      + destruct x; cbn [FsaObjModel.step_obj] in H.
        * injection H as <- <- _. exact Hp.
        * injection H as <- <- _. now rewrite read_properties_id.
        * eapply setattr_has; eauto.
        * injection H as <- <-. exact Hp.
        * unfold delattr in H. destruct (eqd name _); [discriminate|].
          destruct (dmem (o_tens V o) name); [injection H as <- <-; exact Hp|].
          destruct (dmem (o_non V o) name); [injection H as <- <-; exact Hp|].
          destruct (dmem (o_cache V o) name); [|discriminate]. injection H as <- <-; exact Hp.
        * eapply rename_has; eauto.
        * eapply invert_has; eauto.
        * injection H as <- <-. now rewrite read_properties_id.
        * injection H as <- <-. now rewrite read_properties_id.
    - destruct Hok as [|Hw]; [discriminate|]. destruct x; cbn [FsaObjModel.step_obj writes_labels] in *; try discriminate.
      + destruct Ho as (Hc & Hq). destruct (run_getter_ok f g _ Hc) as (v & E1 & _). rewrite E1 in H. discriminate.
      + injection H as <- <- _. now rewrite read_properties_id.
      + destruct (eqd name (s2z "labels")); [discriminate|]. destruct (setattr_fail _ _ _ _ _ _ n Ho Hp H) as (-> & ? & ?). auto.
      + unfold delattr in H. destruct (eqd name _); [injection H as <- <-; auto|].
        destruct (dmem (o_tens V o) name); [discriminate|].
        destruct (dmem (o_non V o) name); [discriminate|].
        destruct (dmem (o_cache V o) name); [discriminate|]. injection H as <- <-; auto.
      + destruct (eqd dest (s2z "labels")); [discriminate|]. unfold FsaObjModel.rename in H.
        destruct (eqd src dest); [injection H as <- <-; auto|].
        destruct (dget (o_tens V o) src) as [v|]; [|injection H as <- <-; auto].
        destruct (setattr dest _ f o) as [[f1 o1] ok1] eqn:E. destruct ok1; [discriminate|]. injection H as <- <-.
        destruct (setattr_fail _ _ _ _ _ _ n Ho Hp E) as (-> & ? & ?). auto.
  Qed.

  Lemma clone_ok loc f o n : clone loc f o = Some n -> obj_ok f o -> nd o -> obj_ok f n /\ nd n /\ has_props n.
  Proof.
    intros H Ho Hn. destruct Ho as (Hc & Hq). destruct Hc as (C1 & C2 & C3). destruct Hn as (N1 & N2).
    destruct (copy_to_inv _ _ _ _ _ H C3 N2) as (p & Hp & ->).
    destruct (read_properties_ok f o p) as (P1 & P2 & _); [split; [split|]; auto|auto|].
    split; [|split].
    - split; [split; auto|]. intros q Hq'. cbn in Hq'. injection Hq' as <-. auto.
    - split; auto. cbn [o_tens].
      assert (G : forall l (d : dict str attr), NoDup (keys d) -> NoDup (keys (dsets l d))).
      { unfold dsets. induction l as [|kv l IH]; intros d Hd; cbn [fold_left]; auto. apply IH. now apply NoDup_dset. }
      apply G. cbn. constructor; [|constructor; [tauto|constructor]]. intros [|[]]. discriminate.
    - discriminate.
  Qed.

  Lemma step_inv_keep x w w' ok : no_detach x -> no_del_entering x -> inv w -> step x w = Some (w', ok) ->
    ok = true \/ writes_labels x = false -> inv w'.
  Proof.
    intros Hd Hx (L & I) H Hok. split; [eapply step_locs; eauto|].
    pose proof H as H0. apply step_inv in H as (o & f & f' & o' & ok1 & Ho & Hf & Es & heap & objs & Z1 & Z2 & Rh & Ro & H).
    destruct (I _ _ _ Ho Hf) as (K1 & K2 & K3).
    pose proof (step_obj_loc _ _ _ _ _ _ Es) as El.
    assert (G : obj_ok f' o' /\ nd o' /\ has_props o').
    { assert (Hk : ok1 = true \/ writes_labels x = false).
      { destruct x; auto; destruct H as (_ & ->); auto. }
      destruct (step_obj_all _ _ _ _ _ _ Hx K1 K3 Es Hk). split; auto. split; auto. eapply step_obj_nd; eauto. }
    assert (Gall : forall i a g, rd objs i = Some a -> rd heap (o_loc V a) = Some g -> obj_ok g a /\ nd a /\ has_props a).
    { intros i a g Ha Hg. rewrite Ro in Ha. destruct (i =? target x) eqn:Ei.
      - injection Ha as <-. rewrite Rh, El, Z.eqb_refl in Hg. injection Hg as <-. exact G.
      - rewrite Rh in Hg. destruct (o_loc V a =? o_loc V o) eqn:E; [|eapply I; eauto].
        exfalso. assert (i = target x) by (apply (proj1 L _ _ _ _ Ha Ho); lia). lia. }
    destruct x; try (destruct H as (-> & _); exact Gall).
    - destruct H as [(n & Hn & -> & _)|(_ & -> & _)]; [|exact Gall]. cbn [w_heap w_objs].
      pose proof (clone_loc _ _ _ _ Hn) as Ln.
      intros i0 a g Ha Hg. apply rd_snoc in Ha as [Ha|(_ & ->)].
      + assert (B : exists g', rd heap (o_loc V a) = Some g').
        { apply (proj2 (locs_update _ _ _ _ _ _ _ _ L Ho Hf El Rh Ro) i0 a Ha). }
        destruct B as (g' & B). rewrite rd_app_l in Hg by (apply rd_Some_bound in B; lia). eapply Gall; eauto.
      + rewrite Ln, rd_app_r, Z.sub_diag, rd_cons_0 in Hg by lia. injection Hg as <-. eapply clone_ok; eauto.
    - destruct Hd.
  Qed.

  (** histories *)
  Lemma inv_init fs : Forall (fun f => Z.land (k_props (ltopo f)) 1 = 1) fs -> inv (init fs).
  Proof.
    intros H. unfold init.
    assert (R : forall i a, rd (imap (fun i f => new_obj V i (Some (k_props (ltopo f)))) 0 fs) i = Some a ->
      exists f, rd fs i = Some f /\ a = new_obj V i (Some (k_props (ltopo f)))).
    { intros i a Ha. rewrite rd_imap in Ha. destruct (rd fs i) as [f|]; [|discriminate]. cbn in Ha. exists f. split; auto. rewrite Z.add_0_l in Ha. congruence. }
    split; [split|]; cbn [w_objs w_heap].
    - intros i j a b Ha Hb E. apply R in Ha as (f & _ & ->). apply R in Hb as (g & _ & ->). exact E.
    - intros i a Ha. apply R in Ha as (f & Hf & ->). cbn. eauto.
    - intros i a f Ha Hf. apply R in Ha as (g & Hg & ->). cbn in Hf. assert (g = f) by congruence. subst g.
      rewrite Forall_forall in H. apply rd_In in Hf. split; [split; [split; [|split]|]|split].
      + intros g v E. discriminate E.
      + intros d v E. discriminate E.
      + constructor.
      + intros p E. cbn in E. injection E as <-. auto.
      + split; cbn; [|constructor]. constructor; [|constructor; [tauto|constructor]]. intros [|[]]. discriminate.
      + discriminate.
  Qed.
  Lemma run_lab_inv h : forall w w', Forall no_detach h -> Forall no_del_entering h -> inv w -> run_lab h w = Some w' -> inv w'.
  Proof.
    induction h as [|x h IH]; intros w w' H1 H2 Hi H; cbn [run_lab] in H; [injection H as <-; auto|].
    inversion H1; inversion H2; subst. destruct (step x w) as [[w1 ok]|] eqn:E; [|discriminate]. cbn [fst snd] in H.
    destruct (ok || negb (writes_labels x)) eqn:Eo; [|discriminate].
    eapply (IH w1); eauto. eapply step_inv_keep; eauto. destruct ok; auto. right. now destruct (writes_labels x).
  Qed.
  Lemma run_any_locs h : forall w w', Forall no_detach h -> locs_ok w -> run_any h w = Some w' -> locs_ok w'.
  Proof.
    induction h as [|x h IH]; intros w w' H1 Hl H; cbn [run_any] in H; [injection H as <-; auto|].
    inversion H1; subst. destruct (step x w) as [[w1 ok]|] eqn:E; [|discriminate]. cbn [fst] in H.
    eapply (IH w1); eauto. eapply step_locs; eauto.
  Qed.
  Lemma run_any_other h : forall w w' j a f, Forall no_detach h -> locs_ok w -> run_any h w = Some w' ->
    Forall (fun x => target x <> j) h -> rd (w_objs V w) j = Some a -> rd (w_heap V w) (o_loc V a) = Some f ->
    rd (w_objs V w') j = Some a /\ rd (w_heap V w') (o_loc V a) = Some f.
  Proof.
    induction h as [|x h IH]; intros w w' j a f H1 Hl H H2 Ha Hf; cbn [run_any] in H; [injection H as <-; auto|].
    inversion H1; inversion H2; subst. destruct (step x w) as [[w1 ok]|] eqn:E; [|discriminate]. cbn [fst] in H.
    destruct (step_other _ _ _ _ _ _ _ Hl E (Forall_inv H2) Ha Hf). eapply (IH w1); eauto. eapply step_locs; eauto.
  Qed.

  (** ** Clone *)
  Lemma clone_same loc f o n : clone loc f o = Some n -> NoDup (keys (o_cache V o)) -> nd o ->
    o_cache V n = o_cache V o /\ o_non V n = o_non V o /\ fst (read_properties f o) = o_props V n /\
    o_props V n <> None /\
    (forall name, name <> s2z "labels" -> name <> s2z "scores" -> getattr V f n name = getattr V f o name) /\
    dget (o_tens V n) (s2z "labels") = Some ViewLabels /\ dget (o_tens V n) (s2z "scores") = Some ViewScores.
  Proof.
    intros H Hc (N1 & N2). destruct (copy_to_inv _ _ _ _ _ H Hc N2) as (p & Hp & ->).
    split; auto. split; auto. split; auto. split; [discriminate|].
    assert (Hd : forall k, dget (dsets (map (fun kv => (fst kv, resolve f (snd kv))) (user_attrs V o)) (o_tens V (new_obj V loc None))) k =
      match option_map (resolve f) (if eqd k (s2z "scores") then None else if eqd k (s2z "labels") then None else dget (o_tens V o) k) with
      | Some v => Some v | None => dget (o_tens V (new_obj V loc None)) k end).
    { intros k. rewrite dget_dsets.
      - rewrite dget_map_snd. unfold user_attrs.
        rewrite (dget_filter_key (fun k => negb ((if eqd k (s2z "scores") then true else false) || (if eqd k (s2z "labels") then true else false)))).
        destruct (eqd k (s2z "scores")); cbn [orb negb]; auto. destruct (eqd k (s2z "labels")); cbn [orb negb]; auto.
      - rewrite keys_map_snd. now apply NoDup_filter_key. }
    split; [|split; cbn [o_tens]; rewrite Hd; reflexivity].
    intros name H1 H2. unfold getattr. cbn [o_tens o_non]. rewrite Hd.
    destruct (eqd name (s2z "scores")); [contradiction|]. destruct (eqd name (s2z "labels")); [contradiction|].
    destruct (dget (o_tens V o) name) as [v|]; cbn [option_map].
    - f_equal. f_equal. destruct v; reflexivity.
    - cbn [o_tens new_obj dget].
      destruct (eqd (s2z "scores") name); [congruence|]. destruct (eqd (s2z "labels") name); [congruence|]. reflexivity.
  Qed.

  (** ** Renaming and invert_ *)
  Lemma prefix_of_spec p : forall k, prefix_of p k = true <-> exists x, k = p ++ x.
  Proof.
    induction p as [|a p IH]; intros k; simpl; [split; eauto|].
    destruct k as [|b k]; [split; [discriminate|intros (x & E); discriminate]|].
    rewrite andb_true_iff, IH, Z.eqb_eq. split.
    - intros (-> & x & ->). eauto.
    - intros (x & E). injection E as -> ->. eauto.
  Qed.
  Lemma skipn_app_len {A} (p x : list A) : skipn (List.length p) (p ++ x) = x.
  Proof. now rewrite skipn_app, skipn_all, Nat.sub_diag. Qed.
  Lemma rest_prefix p k : prefix_of p k = true -> k = p ++ rest p k.
  Proof. rewrite prefix_of_spec. intros (x & ->). unfold rest. now rewrite skipn_app_len. Qed.
  Lemma prefix_app p x : prefix_of p (p ++ x) = true.
  Proof. rewrite prefix_of_spec. eauto. Qed.
  Lemma rest_app p x : rest p (p ++ x) = x.
  Proof. apply skipn_app_len. Qed.

  Definition apart (s d : str) : Prop := forall k, prefix_of s k = true -> prefix_of d k = false.
  Lemma apart_sym s d : apart s d -> apart d s.
  Proof. intros H k Hk. destruct (prefix_of s k) eqn:E; auto. apply H in E. congruence. Qed.

  Lemma rename_fold s d (l : list (str * pv)) : apart s d -> NoDup (keys l) -> (forall k v, In (k, v) l -> prefix_of s k = true) ->
    forall acc k, NoDup (keys acc) ->
    dget (fold_left (fun acc kv => ddel (dset acc (d ++ skipn (List.length s) (fst kv)) (snd kv)) (fst kv)) l acc) k =
    if prefix_of d k then match dget l (s ++ rest d k) with Some v => Some v | None => dget acc k end
    else match dget l k with Some _ => None | None => dget acc k end.
  Proof.
    intros Hap. induction l as [|[k0 v0] l IH]; intros Hn Hl acc k Ha; cbn [fold_left].
    - simpl. now destruct (prefix_of d k).
    - inversion Hn as [|? ? Hk0 Hn']; subst. cbn [fst snd].
      assert (Nd : NoDup (keys (dset acc (d ++ skipn (List.length s) k0) v0))) by now apply NoDup_dset.
      rewrite IH; [|auto|intros k1 v1 Hin; apply (Hl k1 v1); right; auto|now apply NoDup_ddel].
      assert (P0 : prefix_of s k0 = true) by (apply (Hl k0 v0); left; auto).
      apply dget_None in Hk0.
      rewrite dget_ddel by auto. rewrite dget_dset. cbn [dget].
      destruct (prefix_of d k) eqn:Ed.
      + destruct (eqd k0 (s ++ rest d k)) as [E|E].
        * subst k0. rewrite Hk0. destruct (eqd (s ++ rest d k) k) as [E1|_].
          { apply Hap in P0. rewrite E1 in P0. congruence. }
          change (skipn (List.length s) (s ++ rest d k)) with (rest s (s ++ rest d k)). rewrite rest_app, <- rest_prefix by auto.
          destruct (eqd k k); congruence.
        * destruct (dget l (s ++ rest d k)); auto.
          destruct (eqd k0 k) as [->|_]. { apply Hap in P0. congruence. }
          destruct (eqd (d ++ _) k) as [E1|_]; auto. exfalso. apply E.
          rewrite <- E1, rest_app. apply rest_prefix. auto.
      + destruct (eqd k0 k) as [->|N].
        * now rewrite Hk0.
        * destruct (dget l k); auto. destruct (eqd (d ++ _) k) as [E1|_]; auto. rewrite <- E1, prefix_app in Ed. discriminate.
  Qed.

  Lemma rename_non_ok s d D k : apart s d -> NoDup (keys D) ->
    dget (rename_non s d D) k =
    if prefix_of d k then dget D (s ++ rest d k) else if prefix_of s k then None else dget D k.
  Proof.
    intros Hap Hn. unfold rename_non. rewrite rename_fold; auto.
    - rewrite (dget_filter_key (fun k => prefix_of s k)), (dget_filter_key (fun k => prefix_of s k || negb (prefix_of d k))).
      rewrite (dget_filter_key (fun k => prefix_of s k)), prefix_app.
      destruct (prefix_of d k) eqn:Ed; cbn [negb].
      + replace (prefix_of s k) with false; [now destruct (dget D _)|]. symmetry. now apply (apart_sym _ _ Hap).
      + rewrite orb_true_r. destruct (prefix_of s k); auto. now destruct (dget D k).
    - now apply NoDup_filter_key.
    - intros k0 v0 H. now apply filter_In in H.
    - now apply NoDup_filter_key.
  Qed.

  Definition fixarc (nst : Z) (a : arc) : arc := mkArc (src a) (dst a) (fixed nst a (lab a)) (sc a).
  Lemma fix_final_ok f : (forall a, In a (arcs f) -> dst a + 1 = zlen (row_splits f) - 1 -> lab a = -1 \/ lab a = 0) ->
    fix_final_labels f = Some (mkFsa (row_splits f) (map (fixarc (zlen (row_splits f) - 1)) (arcs f))).
  Proof.
    intros H. unfold fix_final_labels. rewrite (mapM_Some_map _ (fixarc (zlen (row_splits f) - 1))); auto.
    intros a Ha. unfold fix_final_label, fixarc, fixed. specialize (H a Ha).
    destruct a as [s d l w]. cbn [dst src lab sc] in *. destruct (d + 1 =? _) eqn:E.
    - destruct H as [->| ->]; [lia| |]; cbn; auto.
    - destruct (l =? -1); auto.
  Qed.

  Lemma apart_lt : apart (s2z "labels") (s2z "__temp").
  Proof. intros k H. apply prefix_of_spec in H as (x & ->). reflexivity. Qed.
  Lemma apart_al : apart (s2z "aux_labels") (s2z "labels").
  Proof. intros k H. apply prefix_of_spec in H as (x & ->). reflexivity. Qed.
  Lemma apart_ta : apart (s2z "__temp") (s2z "aux_labels").
  Proof. intros k H. apply prefix_of_spec in H as (x & ->). reflexivity. Qed.

  Lemma set_temp f o : setattr (s2z "__temp") (AI (map lab (arcs f))) f o =
    (f, mkObj V (o_loc V o) (o_props V o) (dset (o_tens V o) (s2z "__temp") (AI (map lab (arcs f)))) (o_non V o) (o_cache V o), true).
  Proof.
    unfold FsaObjModel.setattr. cbn [attr_len is_ragged]. rewrite zlen_map, Z.eqb_refl. cbn [negb].
    destruct (eqd (s2z "__temp") (s2z "labels")) as [E|_]; [discriminate E|].
    destruct (eqd (s2z "__temp") (s2z "scores")) as [E|_]; [discriminate E|]. reflexivity.
  Qed.
  Lemma set_aux v f o : zlen v = zlen (arcs f) -> setattr (s2z "aux_labels") (AI v) f o =
    (f, mkObj V (o_loc V o) (o_props V o) (dset (o_tens V o) (s2z "aux_labels") (AI v)) (o_non V o) (o_cache V o), true).
  Proof.
    intros H. unfold FsaObjModel.setattr. cbn [attr_len is_ragged]. rewrite H, Z.eqb_refl. cbn [negb].
    destruct (eqd (s2z "aux_labels") (s2z "labels")) as [E|_]; [discriminate E|].
    destruct (eqd (s2z "aux_labels") (s2z "scores")) as [E|_]; [discriminate E|]. reflexivity.
  Qed.
  Lemma read_none f o : dmem (o_tens V o) (s2z "labels") = true -> Z.land (k_props (ltopo f)) 1 = 1 ->
    read_properties f (set_props V o None) = (Some (k_props (ltopo f)), set_props V o (Some (k_props (ltopo f)))).
  Proof.
    intros H1 H2. unfold FsaObjModel.read_properties, has_attr. cbn [o_tens set_props o_props]. rewrite H1. cbn [orb negb].
    rewrite H2. reflexivity.
  Qed.

  Lemma invert_spec f o aux :
    nd o -> dget (o_tens V o) (s2z "labels") = Some ViewLabels -> dget (o_tens V o) (s2z "aux_labels") = Some (AI aux) ->
    zlen aux = zlen (arcs f) ->
    (forall a x, In (a, x) (combine (arcs f) aux) -> dst a + 1 = zlen (row_splits f) - 1 -> x = -1 \/ x = 0) ->
    Z.land (k_props (ltopo (inverted f aux))) 1 = 1 ->
    exists o', invert_ f o = (inverted f aux, o', true) /\ o_loc V o' = o_loc V o /\
      o_props V o' = Some (k_props (ltopo (inverted f aux))) /\ o_cache V o' = o_cache V o /\
      (forall n, dget (o_tens V o') n = if eqd n (s2z "aux_labels") then Some (AI (map lab (arcs f)))
                                        else if eqd n (s2z "__temp") then None else dget (o_tens V o) n) /\
      (forall n, dget (o_non V o') n = if prefix_of (s2z "__temp") n then None else dget (o_non V o) (swap_name n)).
  Proof.
    intros (N1 & N2) Hlab Haux Hlen Hfin Hval.
    unfold FsaObjModel.invert_. rewrite Haux. cbn [is_ragged].
    unfold FsaObjModel.rename at 1.
    destruct (eqd (s2z "labels") (s2z "__temp")) as [E|_]; [discriminate E|].
    rewrite Hlab. destruct (eqd (s2z "labels") (s2z "labels")) as [_|E]; [|congruence].
    cbn [resolve]. rewrite set_temp. cbn [negb o_loc o_props o_tens o_non o_cache].
    destruct (eqd (s2z "labels") (s2z "scores")) as [E|_]; [discriminate E|]. cbn [orb].
    unfold seq at 1.
    set (T1 := dset (o_tens V o) (s2z "__temp") (AI (map lab (arcs f)))).
    set (D1 := rename_non (s2z "labels") (s2z "__temp") (o_non V o)).
    unfold FsaObjModel.rename at 1.
    destruct (eqd (s2z "aux_labels") (s2z "labels")) as [E|_]; [discriminate E|].
    cbn [o_tens].
    assert (G1 : dget T1 (s2z "aux_labels") = Some (AI aux)).
    { unfold T1. rewrite dget_dset. destruct (eqd (s2z "__temp") (s2z "aux_labels")) as [E|_]; [discriminate E|auto]. }
    rewrite G1.
    assert (Gl : dmem T1 (s2z "labels") = true).
    { unfold T1, dmem. rewrite dget_dset. destruct (eqd (s2z "__temp") (s2z "labels")) as [E|_]; [discriminate E|]. now rewrite Hlab. }
    assert (F1 : fix_final_labels (with_labels f aux) = Some (inverted f aux)).
    { rewrite fix_final_ok.
      - unfold with_labels, inverted. cbn [row_splits arcs]. rewrite map_map. reflexivity.
      - unfold with_labels. cbn [row_splits arcs]. intros a Ha. apply in_map_iff in Ha as ([a' x] & <- & Ha). cbn. intros Hd.
        now apply (Hfin a' x). }
    unfold FsaObjModel.setattr at 1. cbn [attr_len is_ragged is_i32 data_of resolve]. rewrite Hlen, Z.eqb_refl. cbn [negb].
    destruct (eqd (s2z "labels") (s2z "labels")) as [_|E]; [|congruence].
    change (data_of f (AI aux)) with aux. rewrite F1.
    rewrite read_none by (cbn [o_tens]; auto). cbn [fst snd negb set_props o_loc o_props o_tens o_non o_cache].
    destruct (eqd (s2z "aux_labels") (s2z "scores")) as [E|_]; [discriminate E|].
    destruct (eqd (s2z "aux_labels") (s2z "labels")) as [E|_]; [discriminate E|]. cbn [orb].
    unfold seq at 1.
    assert (NT1 : NoDup (keys T1)) by now apply NoDup_dset.
    assert (ND1 : NoDup (keys D1)) by now apply NoDup_rename_non.
    set (T2 := ddel T1 (s2z "aux_labels")).
    set (D2 := rename_non (s2z "aux_labels") (s2z "labels") D1).
    assert (NT2 : NoDup (keys T2)) by now apply NoDup_ddel.
    assert (ND2 : NoDup (keys D2)) by now apply NoDup_rename_non.
    unfold FsaObjModel.rename at 1.
    destruct (eqd (s2z "__temp") (s2z "aux_labels")) as [E|_]; [discriminate E|]. cbn [o_tens].
    assert (G2 : dget T2 (s2z "__temp") = Some (AI (map lab (arcs f)))).
    { unfold T2. rewrite dget_ddel by auto. destruct (eqd (s2z "aux_labels") (s2z "__temp")) as [E|_]; [discriminate E|].
      unfold T1. now rewrite dget_dset_same. }
    rewrite G2. destruct (eqd (s2z "__temp") (s2z "labels")) as [E|_]; [discriminate E|].
    assert (L1 : zlen (arcs (inverted f aux)) = zlen (arcs f)).
    { unfold inverted. cbn [arcs]. rewrite zlen_map. unfold zlen in *. rewrite combine_length. lia. }
    rewrite set_aux by (rewrite zlen_map, L1; reflexivity). cbn [negb o_loc o_props o_tens o_non o_cache].
    destruct (eqd (s2z "__temp") (s2z "scores")) as [E|_]; [discriminate E|]. cbn [orb].
    unfold seq at 1.
    set (T3' := dset T2 (s2z "aux_labels") (AI (map lab (arcs f)))).
    set (D3 := rename_non (s2z "__temp") (s2z "aux_labels") D2).
    assert (NT3 : NoDup (keys T3')) by now apply NoDup_dset.
    assert (HT3 : forall n, dget (ddel T3' (s2z "__temp")) n = if eqd n (s2z "aux_labels") then Some (AI (map lab (arcs f)))
                                        else if eqd n (s2z "__temp") then None else dget (o_tens V o) n).
    { intros n. rewrite dget_ddel by auto. unfold T3', T2. rewrite dget_dset, dget_ddel by auto. unfold T1. rewrite dget_dset.
      destruct (eqd n (s2z "aux_labels")) as [->|Na].
      - destruct (eqd (s2z "__temp") (s2z "aux_labels")) as [E|_]; [discriminate E|].
        destruct (eqd (s2z "aux_labels") (s2z "aux_labels")); congruence.
      - destruct (eqd n (s2z "__temp")) as [->|Nt]; [destruct (eqd (s2z "__temp") (s2z "__temp")); congruence|].
        destruct (eqd (s2z "__temp") n); [congruence|]. destruct (eqd (s2z "aux_labels") n); congruence. }
    assert (F2 : fix_final_labels (inverted f aux) = Some (inverted f aux)).
    { rewrite fix_final_ok.
      - unfold inverted. cbn [row_splits arcs]. rewrite map_map. do 2 f_equal. apply map_ext. intros [a x]. unfold fixarc, fixed. cbn.
        destruct (dst a + 1 =? _); auto. destruct (x =? -1) eqn:E; auto. now rewrite E.
      - unfold inverted. cbn [row_splits arcs]. intros a Ha. apply in_map_iff in Ha as ([a' x] & <- & Ha). cbn. intros Hd.
        left. unfold fixed. cbn. replace (dst a' + 1 =? _) with true by lia. auto. }
    rewrite F2. rewrite read_none; [|cbn [o_tens]; unfold dmem; rewrite HT3|auto].
    2:{ destruct (eqd (s2z "labels") (s2z "aux_labels")) as [E|_]; [discriminate E|].
        destruct (eqd (s2z "labels") (s2z "__temp")) as [E|_]; [discriminate E|]. now rewrite Hlab. }
    cbn [fst snd]. eexists. split; [reflexivity|]. cbn [set_props o_loc o_props o_tens o_non o_cache].
    split; auto. split; auto. split; auto. split; auto.
    intros n. unfold D3. rewrite rename_non_ok; [|apply apart_ta|auto].
    unfold D2. rewrite !rename_non_ok by (auto using apart_al).
    unfold D1. rewrite !rename_non_ok by (auto using apart_lt).
    unfold swap_name.
    destruct (prefix_of (s2z "aux_labels") n) eqn:Pa.
    - pose proof (apart_al _ Pa) as Pl. pose proof (apart_sym _ _ apart_ta _ Pa) as Pt. rewrite Pl, Pt.
      set (r := rest (s2z "aux_labels") n). change (prefix_of (s2z "labels") (s2z "__temp" ++ r)) with false. cbn match.
      change (prefix_of (s2z "aux_labels") (s2z "__temp" ++ r)) with false. cbn match.
      change (prefix_of (s2z "__temp") (s2z "__temp" ++ r)) with true. cbn match. rewrite rest_app. reflexivity.
    - destruct (prefix_of (s2z "__temp") n) eqn:Pt; auto.
      destruct (prefix_of (s2z "labels") n) eqn:Pl; auto.
  Qed.
End P.
