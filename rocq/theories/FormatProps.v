(** * C52: the attributes of the lattice of format_output *)
From Coq Require Import String.
From Coq Require Import ZArith List Lia Bool.
From Coq Require Import ZifyBool.
From Verif Require Import Base PyBase RaggedModel RaggedSpec RaggedProofs FsaSpec FsaLemmas SelectProofs
  RaggedOpsModel RaggedOpsSpec RaggedOpsProofs RaggedListProofs OpsModel OpsSpec OpsProofs FsaObjModel FsaObjProofs RaggedOpsProps OpsProps
  RaggedCatProofs AttrModel AttrProps FormatModel.
Import ListNotations.
Open Scope Z_scope.

(** ** Specification *)

(** The attribute of the lattice arcs of one stream whose graph is [g]: the value
    at the graph arc; [fill] where there is no graph arc (-1) or the graph has no
    such attribute (for ragged attributes, no items). *)
Definition tensor_part (fill : Z) (name : str) (g : pyfsa) (arc_map : list Z) : list Z :=
  match dget (p_tens g) name with
  | Some (AI x) | Some (AF x) => map (sel fill x) arc_map
  | _ => map (fun _ => fill) arc_map
  end.
Definition ragged_part (name : str) (g : pyfsa) (arc_map : list Z) (y : list (list Z)) : Prop :=
  match dget (p_tens g) name with
  | Some a => forall x, a = ragged_attr x -> y = map (pick x) arc_map
  | None => y = map (fun _ => []) arc_map
  end.
Definition zip_with {A B C} (f : A -> B -> C) (x : list A) (y : list B) : list C := map (fun p => f (fst p) (snd p)) (combine x y).

Definition is_tensor (a : attr) : Prop := match a with AI _ | AF _ => True | _ => False end.

(** [fill] is the filler of every attribute that is a tensor; it is 0 if some attribute is
    ragged. *)
Definition common_filler (graphs : list pyfsa) (fill : Z) : Prop :=
  forall g name a, In g graphs -> dget (p_tens g) name = Some a ->
    if is_ragged a then fill = 0 else filler_of g name = fill.

(** Graphs whose attributes are well formed, agree on what is ragged, and whose
    tensor attributes are not non-tensor attributes of others. *)
Definition graphs_ok (graphs : list pyfsa) : Prop :=
  (forall g, In g graphs -> wf_src wf_attr2 g) /\
  (forall g g' name a a', In g graphs -> In g' graphs -> dget (p_tens g) name = Some a -> dget (p_tens g') name = Some a' ->
     is_ragged a = is_ragged a') /\
  (forall g g' name a, In g graphs -> In g' graphs -> dget (p_tens g) name = Some a -> dget (p_non g') name = None).
(** The arc map of a stream points into its graph, which has arcs. *)
Definition map_ok (g : pyfsa) (arc_map : list Z) : Prop :=
  idx_ok (zlen (arcs (p_arcs g))) arc_map /\ (0 < zlen (arcs (p_arcs g)) \/ arc_map = []).

(** ** Proofs *)
Definition first_attr (graphs : list pyfsa) (name : str) : option attr :=
  fold_left (fun r g => match r with Some a => Some a | None => dget (p_tens g) name end) graphs None.
Definition info_of (a : attr) : info := mkInfo (is_ragged a) (match a with AF _ => true | _ => false end).

Lemma gather_attr_ok src l : forall d f,
  fillers_ok src ->
  (forall name a, In (name, a) l -> wf_attr2 (zlen (arcs (p_arcs src))) a) ->
  NoDup (keys d) ->
  exists d' f', foldM (gather_attr src) l (d, f) = Some (d', f') /\ NoDup (keys d') /\
    (forall F, (forall name a, In (name, a) l -> if is_ragged a then F = 0 else filler_of src name = F) -> d = [] \/ f = F -> d' = [] \/ f' = F) /\
    forall name, dget d' name = match dget d name with Some i => Some i | None => option_map info_of (dget l name) end.
Proof.
  induction l as [|[k v] l IH]; intros d f Hf H Hn; cbn [foldM].
  - exists d, f. split; [reflexivity|]. split; auto. split; auto. intros name. cbn. now destruct (dget d name).
  - pose proof (H k v (or_introl eq_refl)) as W.
    assert (H' : forall name a, In (name, a) l -> wf_attr2 (zlen (arcs (p_arcs src))) a) by (intros; eapply H; right; eassumption).
    unfold gather_attr at 1. unfold dmem. destruct (dget d k) as [i|] eqn:Ek.
    + destruct (IH d f Hf H' Hn) as (d' & f' & E1 & E2 & E3 & E4). exists d', f'. split; auto. split; auto. split.
      { intros F HF Hd. apply E3; auto. intros; apply HF; now right. }
      intros name. rewrite E4. destruct (dget d name) eqn:En; auto. cbn [dget]. destruct (eqd k name) as [->|]; congruence.
    + assert (G : exists fv, (match v with
          | AI _ => f <- get_filler src k;; Some (dset d k (mkInfo false false), f)
          | AF _ => f <- get_filler src k;; Some (dset d k (mkInfo false true), f)
          | AR ls _ => check (zlen ls =? 1);; Some (dset d k (mkInfo true false), 0)
          | _ => None end) = Some (dset d k (info_of v), fv) /\ forall F, (if is_ragged v then F = 0 else filler_of src k = F) -> fv = F).
      { destruct v as [x|x|ls x| |]; cbn in W; try contradiction.
        - rewrite get_filler_ok by auto. eexists; split; [reflexivity|auto].
        - rewrite get_filler_ok by auto. eexists; split; [reflexivity|auto].
        - destruct W as (y & -> & _). eexists; split; [reflexivity|cbn; auto]. }
      destruct G as (fv & -> & GF). cbv beta iota.
      destruct (IH (dset d k (info_of v)) fv Hf H') as (d' & f' & E1 & E2 & E3 & E4); auto.
      { now apply NoDup_dset. }
      exists d', f'. split; auto. split; auto. split.
      { intros F HF Hd. apply E3; [intros; apply HF; now right|]. right. apply GF. apply (HF k v). now left. }
      intros name. rewrite E4, dget_dset. cbn [dget].
      destruct (eqd k name) as [->|N]; auto. now rewrite Ek.
Qed.

Definition fa_acc (r : option attr) (graphs : list pyfsa) (name : str) : option attr :=
  fold_left (fun r g => match r with Some a => Some a | None => dget (p_tens g) name end) graphs r.
Lemma fa_acc_some a graphs name : fa_acc (Some a) graphs name = Some a.
Proof. induction graphs; cbn; auto. Qed.
Lemma fa_acc_cons r g graphs name : fa_acc r (g :: graphs) name = fa_acc (match r with Some a => Some a | None => dget (p_tens g) name end) graphs name.
Proof. reflexivity. Qed.

Lemma gather_ok graphs : (forall g, In g graphs -> wf_src wf_attr2 g) ->
  exists d f, gather graphs = Some (d, f) /\ NoDup (keys d) /\ (forall F, common_filler graphs F -> d = [] \/ f = F) /\
    forall name, dget d name = option_map info_of (first_attr graphs name).
Proof.
  intros HW. unfold gather, first_attr.
  assert (G : forall l d f, (forall g, In g l -> In g graphs) -> NoDup (keys d) ->
    exists d' f', foldM (fun st src => foldM (gather_attr src) (p_tens src) st) l (d, f) = Some (d', f') /\ NoDup (keys d') /\
      (forall F, common_filler graphs F -> d = [] \/ f = F -> d' = [] \/ f' = F) /\
      forall name, dget d' name = match dget d name with Some i => Some i | None => option_map info_of (fa_acc None l name) end).
  { induction l as [|g l IH]; intros d f Hin Hn; cbn [foldM].
    - exists d, f. split; [reflexivity|]. split; auto. split; auto. intros name. cbn. now destruct (dget d name).
    - assert (Hg : In g graphs) by (apply Hin; now left). destruct (HW g Hg) as (W1 & W2 & W3 & W4).
      destruct (gather_attr_ok g (p_tens g) d f) as (d1 & f1 & E1 & E2 & E3 & E4); auto.
      { intros name a Ha. apply In_dget in Ha; auto. eauto. }
      rewrite E1. cbv beta iota. destruct (IH d1 f1) as (d2 & f2 & G1 & G2 & G3 & G4); auto.
      { intros; apply Hin; now right. }
      exists d2, f2. split; auto. split; auto. split.
      { intros F HC Hd. apply G3; auto. apply E3; auto. intros name a Ha. apply In_dget in Ha; auto. exact (HC g name a Hg Ha). }
      intros name. rewrite G4, E4, fa_acc_cons.
      destruct (dget d name); auto. destruct (dget (p_tens g) name) eqn:Eg; cbn [option_map]; auto. now rewrite fa_acc_some. }
  destruct (G graphs [] 0) as (d & f & E1 & E2 & E3 & E4); auto; [constructor|]. exists d, f. split; auto.
Qed.

Lemma first_attr_some graphs name a : first_attr graphs name = Some a -> exists g, In g graphs /\ dget (p_tens g) name = Some a.
Proof.
  unfold first_attr. fold (fa_acc None graphs name). induction graphs as [|g l IH]; [discriminate|]. rewrite fa_acc_cons.
  destruct (dget (p_tens g) name) eqn:E.
  - rewrite fa_acc_some. intros [= ->]. exists g. split; [now left|auto].
  - intros H. destruct (IH H) as (g' & ? & ?). exists g'. split; [now right|auto].
Qed.
Lemma first_attr_none graphs name : first_attr graphs name = None <-> forall g, In g graphs -> dget (p_tens g) name = None.
Proof.
  unfold first_attr. fold (fa_acc None graphs name). induction graphs as [|g l IH].
  - split; auto. intros _ g [].
  - rewrite fa_acc_cons. destruct (dget (p_tens g) name) eqn:E.
    + rewrite fa_acc_some. split; [discriminate|]. intros H. rewrite (H g) in E by now left. discriminate.
    + rewrite IH. split; intros H g' Hg; [destruct Hg as [-> | Hg]; auto|apply H; now right].
Qed.

(** one stream *)
Lemma stream_tensor_ok F name i g am : i_ragged i = false -> wf_src wf_attr2 g -> map_ok g am ->
  (forall a, dget (p_tens g) name = Some a -> is_ragged a = false) -> dget (p_non g) name = None ->
  exists a, stream_value F name i g am = Some a /\ tens_vals a = Some (tensor_part F name g am).
Proof.
  intros Hi (W1 & W2 & W3 & W4) (M1 & M2) HR HN. unfold stream_value, has_name, dmem. rewrite HN. unfold tensor_part.
  destruct (dget (p_tens g) name) as [v|] eqn:E; cbn [orb].
  - specialize (W4 _ _ E). specialize (HR _ eq_refl). rewrite Hi. cbn [negb].
    destruct v as [x|x|ls x| |]; cbn in W4, HR; try contradiction; try discriminate.
    + rewrite index_select1_ok; [eexists; split; reflexivity|now rewrite W4|].
      destruct M2 as [M2|M2]; auto. left. intros ->. change (zlen (@nil Z)) with 0 in W4. lia.
    + rewrite index_select1_ok; [eexists; split; reflexivity|now rewrite W4|].
      destruct M2 as [M2|M2]; auto. left. intros ->. change (zlen (@nil Z)) with 0 in W4. lia.
  - rewrite Hi. eexists. split; [reflexivity|].
    assert (E1 : repeat F (List.length am) = map (fun _ => F) am) by (clear; induction am; cbn; congruence).
    rewrite E1. now destruct (i_float i).
Qed.

Lemma empty_rows (am : list Z) :
  AR [mk_layer (repeat 0 (S (List.length am))) []] [] = ragged_attr (map (fun _ => []) am).
Proof.
  unfold ragged_attr. assert (E : concat (map (fun _ : Z => @nil Z) am) = []) by (induction am; cbn; auto). rewrite E. f_equal. f_equal.
  f_equal.
  - unfold splits_of. rewrite map_map. change (zlen (@nil Z)) with 0. unfold exsum.
    assert (G : forall s, exsum_from s (map (fun _ : Z => 0) am) = repeat s (S (List.length am))).
    { clear. induction am as [|x am IH]; intros s; cbn; auto. rewrite Z.add_0_r, IH. reflexivity. }
    now rewrite G.
  - unfold ids_of. generalize 0. clear. induction am as [|x am IH]; intros k; cbn; auto.
Qed.
Lemma ragged_attr_inj x y : ragged_attr x = ragged_attr y -> x = y.
Proof.
  unfold ragged_attr. intros H. injection H as H1 H2 H3.
  pose proof (to_vec_vec_ok x) as U. pose proof (to_vec_vec_ok y) as U'. congruence.
Qed.

Lemma stream_ragged_ok F name i g am : i_ragged i = true -> wf_src wf_attr2 g -> map_ok g am ->
  (forall a, dget (p_tens g) name = Some a -> is_ragged a = true) -> dget (p_non g) name = None ->
  exists y, stream_value F name i g am = Some (ragged_attr y) /\ ragged_part name g am y /\ zlen y = zlen am.
Proof.
  intros Hi (W1 & W2 & W3 & W4) (M1 & M2) HR HN. unfold stream_value, has_name, dmem. rewrite HN. unfold ragged_part.
  destruct (dget (p_tens g) name) as [v|] eqn:E; cbn [orb].
  - specialize (W4 _ _ E). specialize (HR _ eq_refl). rewrite Hi.
    destruct v as [x|x|ls x| |]; cbn in W4, HR; try contradiction; try discriminate.
    destruct W4 as (y & -> & -> & Hl). change (zlen [mk_layer (splits_of y) (ids_of y)] =? 1) with true. cbv iota.
    destruct (C07_index_axis0 Z 0 y am) as (el & Q & _).
    { unfold index_ok. unfold idx_ok in M1. rewrite <- Hl in M1. exact M1. }
    exists (map (pick y) am). split; [exact (f_equal (fun o => r <- o;; Some (AR (fst (fst r)) (snd (fst r)))) Q)|].
    split; [|apply zlen_map]. intros x Hx. f_equal. f_equal. apply ragged_attr_inj. exact Hx.
  - rewrite Hi. exists (map (fun _ => []) am). split; [f_equal; apply empty_rows|]. split; [reflexivity|apply zlen_map].
Qed.

Lemma cut_first {A} (pre x post : list A) : firstn (Z.to_nat (zlen x)) (skipn (Z.to_nat (zlen pre)) (pre ++ x ++ post)) = x.
Proof.
  unfold zlen. rewrite !Nat2Z.id, skipn_app, skipn_all, Nat.sub_diag, skipn_O. cbn [app].
  rewrite firstn_app, Nat.sub_diag, firstn_O, app_nil_r, firstn_all. reflexivity.
Qed.

Lemma stream_values_ok {Y} (R : pyfsa -> list Z -> Y -> Prop) (W : Y -> attr -> Prop) F name i gs : forall parts pre,
  Forall2 (fun g am => exists a y, stream_value F name i g am = Some a /\ W y a /\ R g am y) gs parts ->
  exists vs ys, stream_values F name i gs (map zlen parts) (pre ++ concat parts) (zlen pre) = Some vs /\
    Forall2 W ys vs /\ Forall2 (fun p y => R (fst p) (snd p) y) (combine gs parts) ys.
Proof.
  induction gs as [|g gs IH]; intros parts pre H; inversion H as [|? am ? parts' H1 H2]; subst; cbn [stream_values map].
  - exists [], []. cbn. auto.
  - destruct H1 as (a & y & E1 & E2 & E3). cbn [concat]. rewrite cut_first, Z.eqb_refl, E1.
    destruct (IH parts' (pre ++ am) H2) as (vs & ys & G1 & G2 & G3). rewrite zlen_app, <- app_assoc in G1.
    rewrite G1. exists (a :: vs), (y :: ys). cbn. auto.
Qed.

Lemma fold_set_g {V} (c : str -> V -> option attr) (R : str -> V -> attr -> Prop) l : forall d,
  NoDup (keys l) ->
  (forall name v, In (name, v) l -> exists w, c name v = Some w /\ R name v w /\ attr_len (p_arcs d) w = zlen (arcs (p_arcs d))) ->
  exists d', foldM (fun d kv => v <- c (fst kv) (snd kv);; set_tens d (fst kv) v) l d = Some d' /\
    p_arcs d' = p_arcs d /\ p_non d' = p_non d /\
    forall name, match dget l name with
                 | Some v => exists w, dget (p_tens d') name = Some w /\ R name v w
                 | None => dget (p_tens d') name = dget (p_tens d) name
                 end.
Proof.
  induction l as [|[k v] l IH]; intros d Hn H.
  - exists d. repeat split; auto.
  - inversion Hn as [|? ? Hk Hn']; subst. cbn [foldM fst snd].
    destruct (H k v (or_introl eq_refl)) as (w & E1 & E2 & E3). rewrite E1.
    unfold set_tens at 1. rewrite E3, Z.eqb_refl.
    destruct (IH (mkPy (p_arcs d) (dset (p_tens d) k w) (p_non d)) Hn') as (d' & F1 & F2 & F3 & F4).
    { intros name v' Hin. cbn [p_arcs]. apply H. now right. }
    exists d'. split; auto. split; auto. split; auto. intros name. specialize (F4 name). cbn [dget].
    destruct (eqd k name) as [->|Nk].
    + apply dget_None in Hk. rewrite Hk in F4. cbn [p_tens] in F4. rewrite dget_dset_same in F4. eauto.
    + destruct (dget l name); auto. cbn [p_tens] in F4. rewrite dget_dset in F4. destruct (eqd k name); congruence.
Qed.

Lemma cat_tensors_ok vs xs : vs <> [] -> Forall2 (fun x a => tens_vals a = Some x) xs vs ->
  exists a, cat_tensors vs = Some a /\ tens_vals a = Some (concat xs).
Proof.
  intros Hn H. unfold cat_tensors. assert (E : 0 <? zlen vs = true).
  { destruct vs; [congruence|]. rewrite zlen_cons. pose proof (zlen_nonneg vs). lia. }
  rewrite E. assert (M : mapM tens_vals vs = Some xs).
  { clear -H. induction H as [|x a xs vs H1 H2 IH]; cbn; auto. now rewrite H1, IH. }
  rewrite M. destruct (existsb _ vs); eexists; split; reflexivity.
Qed.
Lemma cat_ragged_ok vs ys : vs <> [] -> Forall2 (fun y a => a = ragged_attr y) ys vs ->
  cat_ragged vs = Some (ragged_attr (concat ys)).
Proof.
  intros Hn H. unfold cat_ragged.
  assert (M : mapM (fun a => match a with AR ls x => Some (ls, x) | _ => None end) vs =
    Some (map (fun y : list (list Z) => (layers_of (A:=Z) 1 y, values_of (A:=Z) 1 y)) ys)).
  { clear -H. induction H as [|y a ys vs H1 H2 IH]; cbn; auto. subst a. cbn. cbn in IH. now rewrite IH. }
  rewrite M. assert (Hy : ys <> []) by (intros ->; inversion H; congruence).
  pose proof (C07_cat_axis0 Z 0 ys Hy) as C. cbn in C. cbn. rewrite C. reflexivity.
Qed.

Lemma fold_non_all graphs : forall d,
  fold_left (fun d src => fold_left (fun d kv => set_non d (fst kv) (snd kv)) (p_non src) d) graphs d =
  mkPy (p_arcs d) (p_tens d) (fold_left (fun m src => dsets (p_non src) m) graphs (p_non d)).
Proof. induction graphs as [|g l IH]; intros d; cbn [fold_left]; [now destruct d|]. rewrite fold_non, IH. reflexivity. Qed.

Lemma zlen_tensor_part F name g am : zlen (tensor_part F name g am) = zlen am.
Proof. unfold tensor_part. destruct (dget (p_tens g) name) as [[| | | |]|]; apply zlen_map. Qed.
Lemma zlen_concat_parts F name : forall gs (parts : list (list Z)), List.length gs = List.length parts ->
  zlen (concat (zip_with (tensor_part F name) gs parts)) = zlen (concat parts).
Proof.
  unfold zip_with. induction gs as [|g gs IH]; intros [|am parts] E; try discriminate; auto. cbn. cbn in E.
  rewrite !zlen_app, zlen_tensor_part. f_equal. apply IH. lia.
Qed.

(** C52: every arc of the lattice gets the attribute of its graph arc.  One
    number [fill] stands in where there is no graph arc; it is the filler of the
    attributes if they all have the same. *)
Theorem C52_one_filler : forall graphs parts dest,
  graphs_ok graphs -> Forall2 map_ok graphs parts ->
  zlen (arcs dest) = zlen (concat parts) ->
  exists o fill, format_attrs graphs dest (map zlen parts) (concat parts) = Some o /\ p_arcs o = dest /\
    (forall name, (forall g, In g graphs -> dget (p_tens g) name = None) -> dget (p_tens o) name = None) /\
    (forall name g a, In g graphs -> dget (p_tens g) name = Some a -> is_ragged a = false ->
       exists w, dget (p_tens o) name = Some w /\ tens_vals w = Some (concat (zip_with (tensor_part fill name) graphs parts))) /\
    (forall name g a, In g graphs -> dget (p_tens g) name = Some a -> is_ragged a = true ->
       exists ys, dget (p_tens o) name = Some (ragged_attr (concat ys)) /\
         Forall2 (fun p y => ragged_part name (fst p) (snd p) y) (combine graphs parts) ys) /\
    (forall f, common_filler graphs f -> (exists g name a, In g graphs /\ dget (p_tens g) name = Some a) -> fill = f) /\
    (forall name, (forall g, In g graphs -> dget (p_non g) name = None) -> dget (p_non o) name = None) /\
    (forall name g v gs1 gs2, graphs = gs1 ++ g :: gs2 -> dget (p_non g) name = Some v ->
       (forall g', In g' gs2 -> dget (p_non g') name = None) -> dget (p_non o) name = Some v).
Proof.
  intros graphs parts dest (HW & HK & HN) HM HL.
  destruct (gather_ok graphs HW) as (infos & fill & G1 & G2 & G3 & G4).
  unfold format_attrs. rewrite G1. cbv beta iota.
  assert (HGP : List.length graphs = List.length parts) by (clear -HM; induction HM; cbn; congruence).
  set (R := fun name (i : info) w =>
    if i_ragged i then exists ys, w = ragged_attr (concat ys) /\
         Forall2 (fun p y => ragged_part name (fst p) (snd p) y) (combine graphs parts) ys
    else tens_vals w = Some (concat (zip_with (tensor_part fill name) graphs parts))).
  destruct (fold_set_g (fun name i => vs <- stream_values fill name i graphs (map zlen parts) (concat parts) 0;;
              (if i_ragged i then cat_ragged vs else cat_tensors vs)) R infos (mkPy dest [] []) G2) as (d & F1 & F2 & F3 & F4).
  { intros name i Hin. apply In_dget in Hin; auto. 
    rewrite G4 in Hin.
    destruct (first_attr graphs name) as [a|] eqn:Ea; [|discriminate]. injection Hin as <-.
    apply first_attr_some in Ea. destruct Ea as (g0 & Hg0 & Ha).
    assert (HNg : forall g, In g graphs -> dget (p_non g) name = None) by (intros g Hg; eapply (HN g0 g); eauto).
    assert (Hne : graphs <> []) by (intros ->; destruct Hg0).
    assert (HF : forall P : pyfsa -> list Z -> Prop, (forall g am, In g graphs -> map_ok g am -> P g am) -> Forall2 P graphs parts).
    { intros P HP. clear -HM HP. induction HM as [|g am gs ps H1 H2 IH]; constructor.
      - apply HP; auto. now left.
      - apply IH. intros; apply HP; auto. now right. }
    unfold R. cbn [p_arcs].
    destruct (i_ragged (info_of a)) eqn:Er; cbn [info_of i_ragged] in Er.
    - destruct (stream_values_ok (fun g am y => ragged_part name g am y /\ zlen y = zlen am) (fun y a => a = ragged_attr y) fill name (info_of a) graphs parts [])
        as (vs & ys & V1 & V2 & V3).
      { apply HF. intros g am Hg Hm. destruct (stream_ragged_ok fill name (info_of a) g am) as (y & S1 & S2 & S3); auto.
        - intros a' Ha'. rewrite <- Er. eapply (HK g g0); eauto.
        - exists (ragged_attr y), y. split; auto. }
      change (zlen (@nil Z)) with 0 in V1. cbn [app] in V1. rewrite V1. cbv beta iota.
      assert (Hvs : vs <> []).
      { intros ->. inversion V2; subst. inversion V3. destruct graphs, parts; try discriminate; congruence. }
      rewrite (cat_ragged_ok vs ys Hvs V2). eexists. split; [reflexivity|]. split.
      + exists ys. split; auto. clear -V3. induction V3; constructor; tauto.
      + unfold attr_len, ragged_attr, tot_size. rewrite HL. cbn [l_rs]. rewrite zlen_splits_of.
        clear -V3 HGP. revert graphs HGP ys V3. induction parts as [|am ps IH]; intros [|g gs] E ys V3; try discriminate; cbn [combine] in V3; inversion V3; subst.
        * reflexivity.
        * cbn [concat]. rewrite !zlen_app. cbn in E. cbn [fst snd] in *. destruct H1 as (_ & H1). rewrite H1.
          specialize (IH gs ltac:(lia) _ H3). lia.
    - destruct (stream_values_ok (fun g am y => y = tensor_part fill name g am) (fun y a => tens_vals a = Some y) fill name (info_of a) graphs parts [])
        as (vs & ys & V1 & V2 & V3).
      { apply HF. intros g am Hg Hm. destruct (stream_tensor_ok fill name (info_of a) g am) as (v & S1 & S2); auto.
        - intros a' Ha'. rewrite <- Er. eapply (HK g g0); eauto.
        - exists v. eexists. split; eauto. }
      change (zlen (@nil Z)) with 0 in V1. cbn [app] in V1. rewrite V1. cbv beta iota.
      assert (Hvs : vs <> []).
      { intros ->. inversion V2; subst. inversion V3. destruct graphs, parts; try discriminate; congruence. }
      destruct (cat_tensors_ok vs ys Hvs V2) as (w & C1 & C2). exists w. split; auto.
      assert (Hy : ys = zip_with (tensor_part fill name) graphs parts).
      { unfold zip_with. clear -V3. induction V3 as [|p y ps ys H1 H2 IH]; cbn; congruence. }
      rewrite Hy in C2. split; auto.
      assert (Hw : attr_len dest w = zlen (concat (zip_with (tensor_part fill name) graphs parts))).
      { destruct w; cbn in C2; try discriminate; injection C2 as <-; reflexivity. }
      rewrite Hw, HL. now apply zlen_concat_parts. }
  rewrite <- foldM_ext with (f := fun d kv => v <- (vs <- stream_values fill (fst kv) (snd kv) graphs (map zlen parts) (concat parts) 0;;
              (if i_ragged (snd kv) then cat_ragged vs else cat_tensors vs));; set_tens d (fst kv) v).
  2:{ intros s x _. destruct (stream_values fill (fst x) (snd x) graphs (map zlen parts) (concat parts) 0); reflexivity. }
  rewrite F1. eexists. exists fill. split; [reflexivity|]. rewrite fold_non_all. cbn [p_arcs p_tens p_non]. split; [exact F2|].
  assert (NA : forall name l m, (forall g, In g l -> In g graphs /\ dget (p_non g) name = None) ->
     dget (fold_left (fun m src => dsets (p_non src) m) l m) name = dget m name).
  { induction l as [|g l IH]; intros m H; cbn [fold_left]; auto. destruct (H g (or_introl eq_refl)) as (Hg & Eg).
    rewrite IH by (intros; apply H; now right). destruct (HW g Hg) as (_ & Wn & _). rewrite dget_dsets by auto. now rewrite Eg. }
  split; [|split; [|split; [|split; [|split]]]].
  - intros name H. specialize (F4 name). rewrite G4 in F4. apply first_attr_none in H. rewrite H in F4. exact F4.
  - intros name g a Hg Ha Hr. specialize (F4 name). rewrite G4 in F4. destruct (first_attr graphs name) as [a0|] eqn:E0.
    + apply first_attr_some in E0. destruct E0 as (g0 & Hg0 & Ha0). destruct F4 as (w & F5 & F6). exists w. split; auto.
      unfold R in F6. cbn [info_of i_ragged] in F6. rewrite (HK g0 g name a0 a), Hr in F6; auto.
    + exfalso. apply (proj1 (first_attr_none graphs name)) with (g := g) in E0; congruence.
  - intros name g a Hg Ha Hr. specialize (F4 name). rewrite G4 in F4. destruct (first_attr graphs name) as [a0|] eqn:E0.
    + apply first_attr_some in E0. destruct E0 as (g0 & Hg0 & Ha0). destruct F4 as (w & F5 & F6).
      unfold R in F6. cbn [info_of i_ragged] in F6. rewrite (HK g0 g name a0 a), Hr in F6; auto.
      destruct F6 as (ys & -> & F6). eauto.
    + exfalso. apply (proj1 (first_attr_none graphs name)) with (g := g) in E0; congruence.
  - intros f HC (g & name & a & Hg & Ha). destruct (G3 f HC) as [E | E]; auto. exfalso.
    specialize (G4 name). rewrite E in G4. cbn in G4. destruct (first_attr graphs name) as [a0|] eqn:E0; [discriminate|].
    apply (proj1 (first_attr_none graphs name)) with (g := g) in E0; congruence.
  - intros name H. cbn [p_non]. rewrite F3. cbn [p_non]. apply NA; auto.
  - intros name g v gs1 gs2 E Hv H. cbn [p_non]. rewrite F3. cbn [p_non]. rewrite E, fold_left_app. cbn [fold_left].
    assert (Hg : In g graphs) by (rewrite E; apply in_or_app; right; now left). destruct (HW g Hg) as (_ & Wn & _).
    rewrite NA.
    + rewrite dget_dsets by auto. now rewrite Hv.
    + intros g' Hg'. split; auto. rewrite E. apply in_or_app. right. now right.
Qed.
Print Assumptions C52_one_filler.

(** No arc of the lattice lacks a value of the attribute: each has a graph arc, in a
    graph with the attribute. *)
Definition no_gap (graphs : list pyfsa) (parts : list (list Z)) (name : str) : Prop :=
  forall g arc_map, In (g, arc_map) (combine graphs parts) -> Forall (fun j => 0 <= j) arc_map /\ (arc_map <> [] -> dget (p_tens g) name <> None).

(** C52: every arc of the lattice gets the attribute of its graph arc, and the filler
    of that attribute where there is none, provided all attributes have the same
    filler or no arc needs the filler of this attribute.  In the other cases it is
    false: C52_filler_refuted, and C52_one_filler says what happens. *)
Theorem C52_format_output : forall graphs parts dest,
  graphs_ok graphs -> Forall2 map_ok graphs parts ->
  zlen (arcs dest) = zlen (concat parts) ->
  exists o, format_attrs graphs dest (map zlen parts) (concat parts) = Some o /\ p_arcs o = dest /\
    (forall name, (forall g, In g graphs -> dget (p_tens g) name = None) -> dget (p_tens o) name = None) /\
    (forall name g a, In g graphs -> dget (p_tens g) name = Some a -> is_ragged a = false ->
       (exists f, common_filler graphs f) \/ no_gap graphs parts name ->
       exists w, dget (p_tens o) name = Some w /\ tens_vals w = Some (concat (zip_with (tensor_part (filler_of g name) name) graphs parts))) /\
    (forall name g a, In g graphs -> dget (p_tens g) name = Some a -> is_ragged a = true ->
       exists ys, dget (p_tens o) name = Some (ragged_attr (concat ys)) /\
         Forall2 (fun p y => ragged_part name (fst p) (snd p) y) (combine graphs parts) ys) /\
    (forall name, (forall g, In g graphs -> dget (p_non g) name = None) -> dget (p_non o) name = None) /\
    (forall name g v gs1 gs2, graphs = gs1 ++ g :: gs2 -> dget (p_non g) name = Some v ->
       (forall g', In g' gs2 -> dget (p_non g') name = None) -> dget (p_non o) name = Some v).
Proof.
  intros graphs parts dest HG HM HL. destruct (C52_one_filler graphs parts dest HG HM HL) as (o & fill & E1 & E2 & E3 & E4 & E5 & E6 & E7 & E8).
  exists o. split; [exact E1|]. split; [exact E2|]. split; [exact E3|]. split; [|split; [exact E5|split; [exact E7|exact E8]]].
  intros name g a Hg Ha Hr [(f & HC)|NG]; destruct (E4 name g a Hg Ha Hr) as (w & W1 & W2); exists w; (split; [exact W1|]); rewrite W2; [|].
  - pose proof (HC g name a Hg Ha) as X. rewrite Hr in X. rewrite (E6 f HC), X by eauto. reflexivity.
  - do 2 f_equal. unfold zip_with. apply map_ext_in. intros (g' & am) Hin. cbn [fst snd]. destruct (NG g' am Hin) as (N1 & N2). unfold tensor_part.
    destruct am as [|j am]; [now destruct (dget (p_tens g') name) as [[| | | |]|]|].
    assert (Hg' : In g' graphs) by exact (in_combine_l _ _ _ _ Hin).
    assert (HM' : map_ok g' (j :: am)). { clear - HM Hin. induction HM as [|x y xs ys H HM IH]; [destruct Hin|]. destruct Hin as [E|Hin]; [injection E as <- <-; exact H|auto]. }
    destruct HM' as (IX & _). destruct HG as (HW & HK & _). destruct (HW g' Hg') as (_ & _ & _ & HF).
    destruct (dget (p_tens g') name) as [b|] eqn:Hb; [|now contradiction N2]. specialize (HF name b Hb). pose proof (HK g g' name a b Hg Hg' Ha Hb) as R. rewrite Hr in R.
    unfold idx_ok in IX. rewrite Forall_forall in IX, N1.
    destruct b; cbn in R, HF; try discriminate; try contradiction; (apply map_ext_in; intros i Hi; unfold sel; destruct (rd_in_bound v i) as (z & ->); [specialize (IX i Hi); specialize (N1 i Hi); lia|reflexivity]).
Qed.
Print Assumptions C52_format_output.

(** ** Non-trivial cases *)
Definition fx1 : pyfsa :=
  mkPy (mkFsa [0; 2; 3; 3] [mkArc 0 1 1 5; mkArc 0 1 2 6; mkArc 1 2 (-1) 7])
       [(s2z "aux_labels", AI [11; 12; -1]); (s2z "toks", AR [mk_layer [0; 2; 2; 3] [0; 0; 2]] [21; 22; 23])] [(s2z "note", PObj 1)].
Definition fx2 : pyfsa :=
  mkPy (mkFsa [0; 1; 1] [mkArc 0 1 (-1) 5]) [(s2z "w", AF [8]); (s2z "aux_labels", AI [-1])] [(s2z "note", PObj 2)].
Definition fx_dest : fsa :=
  mkFsa [0; 1; 2; 3; 3; 4; 5; 5] [mkArc 0 1 2 0; mkArc 1 2 0 0; mkArc 2 3 (-1) 0; mkArc 0 1 0 0; mkArc 1 2 (-1) 0].
Lemma fx1_ok : wf_src wf_attr2 fx1.
Proof.
  split; [repeat constructor; cbn; intuition discriminate|]. split; [repeat constructor; cbn; intuition discriminate|]. split.
  - intros name. split; [cbn [fx1 p_tens dget]; repeat no_filler_name; reflexivity|]. split.
    + intros i. cbn [fx1 p_non dget]. repeat no_filler_name. discriminate.
    + intros ->. reflexivity.
  - intros name v. cbn [fx1 p_tens dget]. repeat (destruct (eqd _ _); [intros E; injection E as <-; try reflexivity|]); [|discriminate].
    exists [[21; 22]; []; [23]]. repeat split.
Qed.
Lemma fx2_ok : wf_src wf_attr2 fx2.
Proof.
  split; [repeat constructor; cbn; intuition discriminate|]. split; [repeat constructor; cbn; intuition discriminate|]. split.
  - intros name. split; [cbn [fx2 p_tens dget]; repeat no_filler_name; reflexivity|]. split.
    + intros i. cbn [fx2 p_non dget]. repeat no_filler_name. discriminate.
    + intros ->. reflexivity.
  - intros name v. cbn [fx2 p_tens dget]. repeat (destruct (eqd _ _); [intros E; injection E as <-; try reflexivity|]). discriminate.
Qed.
Ltac names := repeat match goal with
  | H : context [if eqd ?k ?n then _ else _] |- _ => let E := fresh in destruct (eqd k n) as [E|]; [first [subst n | vm_compute in E; discriminate E | clear E]|try congruence]
  | H : Some _ = Some _ |- _ => injection H as <- | H : None = Some _ |- _ => discriminate H end.
Example C52_ex : graphs_ok [fx1; fx2] /\ Forall2 map_ok [fx1; fx2] [[1; -1; 2]; [-1; 0]] /\ common_filler [fx1; fx2] 0 /\
  option_map (fun o => (p_tens o, p_non o)) (format_attrs [fx1; fx2] fx_dest [3; 2] [1; -1; 2; -1; 0]) =
  Some ([(s2z "aux_labels", AI [12; 0; -1; 0; -1]); (s2z "toks", AR [mk_layer [0; 0; 0; 1; 1; 1] [2]] [23]); (s2z "w", AF [0; 0; 0; 0; 8])],
        [(s2z "note", PObj 2)]).
Proof.
  split; [|split; [|split]].
  - split; [intros g [<- | [<- | []]]; [exact fx1_ok|exact fx2_ok]|]. split.
    + intros g g' name a a' [<- | [<- | []]] [<- | [<- | []]]; cbn [fx1 fx2 p_tens dget]; intros H1 H2; names; try reflexivity; congruence.
    + intros g g' name a [<- | [<- | []]] [<- | [<- | []]]; cbn [fx1 fx2 p_tens p_non dget]; intros H1; names; reflexivity.
  - repeat constructor; cbv; congruence.
  - intros g name a [<- | [<- | []]]; cbn [fx1 fx2 p_tens dget]; intros H1; names; reflexivity.
  - vm_compute. reflexivity.
Qed.

Example C52_no_gap_ex : no_gap [fx1] [[1; 0; 2]] (s2z "aux_labels").
Proof. intros g m [E|[]]. injection E as <- <-. split; [repeat constructor; lia|]. intros _. vm_compute. discriminate. Qed.
(** C52 fails as stated when attributes have different fillers: the loop that
    combines the attributes reads the loop variable [filler], left by the last
    attribute of the loop before, and not the filler recorded for the name.
    Here aux_labels (filler 0) is filled with the filler 4 of lm. *)
Definition fx3 : pyfsa :=
  mkPy (mkFsa [0; 2; 3; 3] [mkArc 0 1 1 5; mkArc 0 1 2 6; mkArc 1 2 (-1) 7])
       [(s2z "aux_labels", AI [11; 12; -1]); (s2z "lm", AF [1; 2; 3])] [(s2z "lm_filler", PNum 4)].
Theorem C52_filler_refuted : exists g arc_map dest o v,
  graphs_ok [g] /\ Forall2 map_ok [g] [arc_map] /\ zlen (arcs dest) = zlen arc_map /\
  format_attrs [g] dest [zlen arc_map] arc_map = Some o /\
  filler_of g (s2z "aux_labels") = 0 /\ dget (p_tens o) (s2z "aux_labels") = Some (AI v) /\
  rd arc_map 1 = Some (-1) /\ rd v 1 = Some 4.
Proof.
  exists fx3, [1; -1; 2], ex_dest. eexists. exists [12; 4; -1]. split; [|split; [|split; [reflexivity|split; [vm_compute; reflexivity|repeat split]]]].
  - split; [|split].
    + intros g [<- | []]. split; [repeat constructor; cbn; intuition discriminate|]. split; [repeat constructor; cbn; intuition discriminate|]. split.
      * intros name. split; [cbn [fx3 p_tens dget]; repeat no_filler_name; reflexivity|]. split.
        -- intros i. cbn [fx3 p_non dget]. destruct (eqd _ _); discriminate.
        -- intros ->. reflexivity.
      * intros name v. cbn [fx3 p_tens dget]. repeat (destruct (eqd _ _); [intros E; injection E as <-; try reflexivity|]). discriminate.
    + intros g g' name a a' [<- | []] [<- | []]; cbn [fx3 p_tens dget]; intros H1 H2; names; try reflexivity; congruence.
    + intros g g' name a [<- | []] [<- | []]; cbn [fx3 p_tens p_non dget]; intros H1; names; reflexivity.
  - repeat constructor; cbv; congruence.
Qed.
Print Assumptions C52_filler_refuted.
