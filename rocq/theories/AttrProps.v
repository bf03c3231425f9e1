(** * C51: attribute propagation follows arc maps *)
From Coq Require Import String.
From Coq Require Import ZArith List Lia Bool.
From Coq Require Import ZifyBool.
From Verif Require Import Base PyBase RaggedModel RaggedSpec RaggedProofs FsaSpec FsaLemmas SelectProofs
  RaggedOpsModel RaggedOpsSpec RaggedOpsProofs RaggedListProofs OpsModel OpsSpec OpsProofs FsaObjModel FsaObjProofs RaggedOpsProps OpsProps AttrModel.
Import ListNotations.
Open Scope Z_scope.

(** ** Specification *)

(** A well-formed attribute of an Fsa with [n] arcs: one element, or one
    (possibly nested) list, per arc. *)
Definition wf_attr (n : Z) (a : attr) : Prop :=
  match a with
  | AI v | AF v => zlen v = n
  | AR ls v => exists m (x : list (nest Z (S m))), ls = layers_of (A:=Z) (S m) x /\ v = values_of (A:=Z) (S m) x /\ zlen x = n
  | _ => False
  end.
(** One level of nesting. *)
Definition wf_attr2 (n : Z) (a : attr) : Prop :=
  match a with
  | AI v | AF v => zlen v = n
  | AR ls v => exists x : list (list Z), ls = [mk_layer (splits_of x) (ids_of x)] /\ v = concat x /\ zlen x = n
  | _ => False
  end.
(** The number attached to a name by [name_filler], 0 by default. *)
Definition filler_of (o : pyfsa) (name : str) : Z :=
  match dget (p_non o) (name ++ s2z "_filler") with Some (PNum z) => z | _ => 0 end.
(** Fillers are numbers, and that of aux_labels is 0. *)
Definition fillers_ok (o : pyfsa) : Prop :=
  forall name, dget (p_tens o) (name ++ s2z "_filler") = None /\
    (forall i, dget (p_non o) (name ++ s2z "_filler") <> Some (PObj i)) /\
    (name = s2z "aux_labels" -> filler_of o name = 0).
Definition wf_src (wf : Z -> attr -> Prop) (o : pyfsa) : Prop :=
  NoDup (keys (p_tens o)) /\ NoDup (keys (p_non o)) /\ fillers_ok o /\
  (forall name a, dget (p_tens o) name = Some a -> wf (zlen (arcs (p_arcs o))) a).

(** [w] is the attribute [v] carried along [arc_map]: at every output arc the
    value of the source arc, or the filler (no items, for ragged attributes). *)
Definition carried (filler : Z) (arc_map : list Z) (v w : attr) : Prop :=
  match v with
  | AI x => w = AI (map (sel filler x) arc_map)
  | AF x => w = AF (map (sel filler x) arc_map)
  | AR ls v => forall m (x : list (nest Z (S m))), ls = layers_of (A:=Z) (S m) x -> v = values_of (A:=Z) (S m) x ->
      w = AR (layers_of (A:=Z) (S m) (map (pick x) arc_map)) (values_of (A:=Z) (S m) (map (pick x) arc_map))
  | _ => False
  end.
(** Through a ragged arc map (one list of source arcs per output arc):
    integers become lists without the filler, floats are summed, lists are
    concatenated.  A -1 of an integer attribute on a final arc counts as
    filler. *)
Definition int_at (filler : Z) (labels x : list Z) (j : Z) : Z :=
  let v := sel filler x j in
  if (sel 0 labels j =? -1) && (v =? -1) && (0 <=? j) then filler else v.
Definition ragged_attr (z : list (list Z)) : attr := AR [mk_layer (splits_of z) (ids_of z)] (concat z).
Definition carried_ragged (filler : Z) (labels : list Z) (arc_map : list (list Z)) (v w : attr) : Prop :=
  match v with
  | AI x => w = ragged_attr (map (fun js => filter (fun y => negb (y =? filler)) (map (int_at filler labels x) js)) arc_map)
  | AF x => w = AF (map (fun js => zsum (map (sel 0 x) js)) arc_map)
  | AR ls v => forall x, ls = [mk_layer (splits_of x) (ids_of x)] -> v = concat x ->
      w = ragged_attr (map (fun js => concat (map (pick x) js)) arc_map)
  | _ => False
  end.

(** ** Proofs *)
Lemma get_filler_ok o name : fillers_ok o -> get_filler o name = Some (filler_of o name).
Proof.
  intros H. destruct (H name) as (H1 & H2 & H3). unfold get_filler, dmem. rewrite H1. cbn [negb].
  unfold filler_of in *. destruct (dget (p_non o) (name ++ s2z "_filler")) as [[z|i]|] eqn:E.
  - destruct (eqd name (s2z "aux_labels")) as [e|]; cbn [orb]; auto. rewrite (H3 e). reflexivity.
  - now destruct (H2 i).
  - destruct (eqd name (s2z "aux_labels")); reflexivity.
Qed.

Lemma tot_size_layers {A} m (x : list (nest A (S m))) vs : tot_size (layers_of (A:=A) (S m) x) (vs : list A) = zlen x.
Proof. change (zlen x) with (@zlen (list (nest A m)) x). cbn. rewrite (zlen_splits_of (A:=nest A m)). lia. Qed.

Lemma carry_ok src n name v arc_map : fillers_ok src -> wf_attr n v -> idx_ok n arc_map -> (0 < n \/ arc_map = []) ->
  exists w, carry src name v arc_map = Some w /\ carried (filler_of src name) arc_map v w /\
    forall f, attr_len f w = zlen arc_map.
Proof.
  intros Hf Hw Hi Hn. destruct v as [x|x|ls x| |]; cbn in Hw; try contradiction.
  - unfold carry. rewrite get_filler_ok by auto. rewrite index_select1_ok.
    + eexists. split; [reflexivity|]. split; [reflexivity|]. intros f. cbn. apply zlen_map.
    + now rewrite Hw.
    + destruct Hn as [Hn|Hn]; auto. left. intros ->. change (zlen (@nil Z)) with 0 in Hw. lia.
  - unfold carry. rewrite get_filler_ok by auto. rewrite index_select1_ok.
    + eexists. split; [reflexivity|]. split; [reflexivity|]. intros f. cbn. apply zlen_map.
    + now rewrite Hw.
    + destruct Hn as [Hn|Hn]; auto. left. intros ->. change (zlen (@nil Z)) with 0 in Hw. lia.
  - destruct Hw as (m & y & -> & -> & Hl). unfold carry.
    destruct (C07_index_axis0 Z m y arc_map) as (el & E & _).
    { unfold index_ok. unfold idx_ok in Hi. rewrite <- Hl in Hi. exact Hi. }
    exists (AR (layers_of (A:=Z) (S m) (map (pick y) arc_map)) (values_of (A:=Z) (S m) (map (pick y) arc_map))).
    split; [exact (f_equal (fun o => r <- o;; Some (AR (fst (fst r)) (snd (fst r)))) E)|]. split.
    + intros m' y' E1 E2.
      assert (Hsame : forall k k' (u : list (nest Z k)) (u' : list (nest Z k')), layers_of (A:=Z) k u = layers_of (A:=Z) k' u' ->
         values_of (A:=Z) k u = values_of (A:=Z) k' u' -> existT (fun k => list (nest Z k)) k u = existT _ k' u').
      { clear. induction k as [|k IH]; intros [|k'] u u' E1 E2; try discriminate E1.
        - cbn in E2. now subst.
        - cbn [layers_of values_of] in E1, E2. injection E1 as Er Ei El.
          specialize (IH k' (concat u) (concat u') El E2).
          assert (k' = k) by now injection IH. subst k'.
          apply Eqdep_dec.inj_pair2_eq_dec in IH; [|apply PeanoNat.Nat.eq_dec].
          f_equal. pose proof (to_vec_vec_ok u) as U. pose proof (to_vec_vec_ok u') as U'. congruence. }
      specialize (Hsame (S m) (S m') y y' E1 E2). assert (m' = m) by now injection Hsame. subst m'.
      apply Eqdep_dec.inj_pair2_eq_dec in Hsame; [|apply PeanoNat.Nat.eq_dec]. subst y'. reflexivity.
    + intros f. cbn [attr_len]. rewrite tot_size_layers. apply zlen_map.
Qed.

Lemma fold_set (c : str -> attr -> option attr) (R : str -> attr -> attr -> Prop) l : forall d,
  NoDup (keys l) ->
  (forall name v, In (name, v) l -> exists w, c name v = Some w /\ R name v w /\ attr_len (p_arcs d) w = zlen (arcs (p_arcs d))) ->
  exists d', foldM (fun d kv => v <- c (fst kv) (snd kv);; set_tens d (fst kv) v) l d = Some d' /\
    p_arcs d' = p_arcs d /\ p_non d' = p_non d /\
    forall name, match dget l name with
                 | Some v => exists w, dget (p_tens d') name = Some w /\ R name v w
                 | None => dget (p_tens d') name = dget (p_tens d) name
                 end.
Proof.
  induction l as [|[k v] l IH]; intros d Hn H.
  - exists d. repeat split; auto.
  - inversion Hn as [|? ? Hk Hn']; subst. cbn [foldM fst snd].
    destruct (H k v (or_introl eq_refl)) as (w & E1 & E2 & E3). rewrite E1.
    unfold set_tens at 1. rewrite E3, Z.eqb_refl.
    destruct (IH (mkPy (p_arcs d) (dset (p_tens d) k w) (p_non d)) Hn') as (d' & F1 & F2 & F3 & F4).
    { intros name v' Hin. cbn [p_arcs]. apply H. now right. }
    exists d'. split; auto. split; auto. split; auto. intros name. specialize (F4 name). cbn [dget].
    destruct (eqd k name) as [->|Nk].
    + apply dget_None in Hk. rewrite Hk in F4. cbn [p_tens] in F4. rewrite dget_dset_same in F4. eauto.
    + destruct (dget l name); auto. cbn [p_tens] in F4. rewrite dget_dset in F4. destruct (eqd k name); congruence.
Qed.
Lemma fold_set_skip (c : str -> attr -> option attr) (R : str -> attr -> attr -> Prop) l : forall d,
  NoDup (keys l) -> p_non d = [] ->
  (forall name v, In (name, v) l -> exists w, c name v = Some w /\ R name v w /\ attr_len (p_arcs d) w = zlen (arcs (p_arcs d))) ->
  exists d', foldM (fun d kv => if has_name d (fst kv) then Some d else v <- c (fst kv) (snd kv);; set_tens d (fst kv) v) l d = Some d' /\
    p_arcs d' = p_arcs d /\ p_non d' = p_non d /\
    forall name, match dget (p_tens d) name, dget l name with
                 | None, Some v => exists w, dget (p_tens d') name = Some w /\ R name v w
                 | _, _ => dget (p_tens d') name = dget (p_tens d) name
                 end.
Proof.
  induction l as [|[k v] l IH]; intros d Hn H0 H.
  - exists d. split; [reflexivity|]. split; [reflexivity|]. split; [reflexivity|]. intros name. cbn [dget]. now destruct (dget (p_tens d) name).
  - inversion Hn as [|? ? Hk Hn']; subst. cbn [foldM fst snd].
    assert (Eh : has_name d k = dmem (p_tens d) k) by (unfold has_name; rewrite H0; apply orb_false_r). rewrite Eh. unfold dmem.
    destruct (dget (p_tens d) k) as [a|] eqn:Ek.
    + destruct (IH d Hn' H0) as (d' & F1 & F2 & F3 & F4); [intros; apply H; now right|].
      exists d'. split; [exact F1|]. split; [exact F2|]. split; [exact F3|]. intros name. specialize (F4 name). cbn [dget].
      destruct (dget (p_tens d) name) eqn:En; auto. destruct (eqd k name) as [->|]; [congruence|auto].
    + destruct (H k v (or_introl eq_refl)) as (w & E1 & E2 & E3). rewrite E1.
      unfold set_tens at 1. rewrite E3, Z.eqb_refl.
      destruct (IH (mkPy (p_arcs d) (dset (p_tens d) k w) (p_non d)) Hn') as (d' & F1 & F2 & F3 & F4); [auto| |].
      { intros name v' Hin. cbn [p_arcs]. apply H. now right. }
      exists d'. split; auto. split; auto. split; auto. intros name. specialize (F4 name). cbn [p_tens] in F4. rewrite dget_dset in F4. cbn [dget].
      destruct (eqd k name) as [->|Nk].
      * rewrite Ek. eauto.
      * destruct (dget (p_tens d) name); auto.
Qed.
Lemma fold_non (l : list (str * pv)) : forall d,
  fold_left (fun d kv => set_non d (fst kv) (snd kv)) l d = mkPy (p_arcs d) (p_tens d) (dsets l (p_non d)).
Proof. induction l as [|kv l IH]; intros d; cbn [fold_left]; [now destruct d|]. rewrite IH. reflexivity. Qed.
Lemma fold_non_skip (l : list (str * pv)) : NoDup (keys l) -> forall d,
  exists n, fold_left (fun d kv => if has_name d (fst kv) then d else set_non d (fst kv) (snd kv)) l d = mkPy (p_arcs d) (p_tens d) n /\
    forall name, dget n name = match dget (p_non d) name with
                               | Some v => Some v
                               | None => if dmem (p_tens d) name then None else dget l name
                               end.
Proof.
  induction l as [|[k v] l IH]; intros Hn d; cbn [fold_left fst snd].
  - exists (p_non d). split; [now destruct d|]. intros name. destruct (dget (p_non d) name); auto. now destruct (dmem _ _).
  - inversion Hn as [|? ? Hk Hn']; subst. destruct (has_name d k) eqn:E.
    + destruct (IH Hn' d) as (n & F1 & F2). exists n. split; auto. intros name. rewrite F2. cbn [dget].
      destruct (dget (p_non d) name) eqn:Ed; auto. destruct (dmem (p_tens d) name) eqn:Et; auto.
      destruct (eqd k name) as [->|]; auto. unfold has_name in E. rewrite Et in E. unfold dmem in E. rewrite Ed in E. discriminate.
    + destruct (IH Hn' (set_non d k v)) as (n & F1 & F2). exists n. split; [exact F1|]. intros name. rewrite F2. cbn [dget set_non p_non p_tens].
      rewrite dget_dset. destruct (eqd k name) as [->|]; auto.
      unfold has_name in E. apply orb_false_iff in E as (E1 & E2). rewrite E1. unfold dmem in E2. now destruct (dget (p_non d) name).
Qed.

(** C51, tensor arc maps: every tensor attribute is carried along the arc map
    and nothing else appears; other attributes are copied; the arcs are those
    the algorithm produced. *)
Theorem C51_unary_tensor : forall (s : pyfsa) (dest : fsa) (arc_map : list Z),
  wf_src wf_attr s ->
  zlen arc_map = zlen (arcs dest) -> idx_ok (zlen (arcs (p_arcs s))) arc_map ->
  (arcs (p_arcs s) <> [] \/ arc_map = []) ->
  exists out, unary_tensor s dest arc_map = Some out /\ p_arcs out = dest /\
    (forall name, match dget (p_tens s) name with
                  | Some v => exists w, dget (p_tens out) name = Some w /\ carried (filler_of s name) arc_map v w
                  | None => dget (p_tens out) name = None
                  end) /\
    (forall name, dget (p_non out) name = dget (p_non s) name).
Proof.
  intros s dest arc_map (N1 & N2 & Hf & Hw) Hl Hi Hne.
  assert (Hn : 0 < zlen (arcs (p_arcs s)) \/ arc_map = []).
  { destruct Hne as [Hne|]; auto. left. pose proof (zlen_nonneg (arcs (p_arcs s))).
    destruct (Z.eq_dec (zlen (arcs (p_arcs s))) 0) as [E|]; [|lia]. apply zlen_0_nil in E. contradiction. }
  unfold unary_tensor.
  destruct (fold_set (fun n v => carry s n v arc_map) (fun n v w => carried (filler_of s n) arc_map v w)
              (p_tens s) (mkPy dest [] []) N1) as (d & F1 & F2 & F3 & F4).
  - intros name v Hin. apply In_dget in Hin; auto.
    destruct (carry_ok s _ name v arc_map Hf (Hw _ _ Hin) Hi Hn) as (w & C1 & C2 & C3).
    exists w. split; auto. split; auto. rewrite C3. auto.
  - rewrite F1. eexists. split; [reflexivity|]. rewrite fold_non. cbn [p_arcs p_tens p_non].
    split; auto. split; auto. intros name. rewrite F3. cbn [p_non]. now rewrite dsets_nil.
Qed.
Print Assumptions C51_unary_tensor.

Lemma remove_values_eq_ok sched (y : list (list Z)) t : (forall n, 0 <= n -> is_sched n (sched n)) ->
  let z := map (filter (fun x => negb (x =? t))) y in
  remove_values_eq sched (mk_layer (splits_of y) (ids_of y)) (concat y) t = Some (mk_layer (splits_of z) (ids_of z), concat z).
Proof.
  intros Hs z. unfold remove_values_eq. cbn [l_rs l_ids].
  rewrite new2old_kept. 2:{ rewrite zlen_map. apply Hs. pose proof (zlen_nonneg (concat y)). lia. }
  rewrite zlen_splits_of. replace (zlen y + 1 - 1) with (zlen y) by lia.
  rewrite (index_last_filter (fun x => negb (x =? t))).
  rewrite (gather_filter (fun x => negb (x =? t))), filter_concat. reflexivity.
Qed.

Lemma hide_final_sel labels x filler j : zlen labels = zlen x -> -1 <= j < zlen x ->
  sel filler (hide_final labels x filler) j = int_at filler labels x j.
Proof.
  intros Hl Hj. unfold hide_final, int_at. destruct (filler =? -1) eqn:Ef.
  - destruct ((sel 0 labels j =? -1) && (sel filler x j =? -1) && (0 <=? j)) eqn:E; auto. lia.
  - destruct (Z.eq_dec j (-1)) as [->|Hj'].
    + rewrite !sel_m1. now rewrite andb_false_r.
    + unfold sel. rewrite rd_map, rd_combine.
      destruct (rd_in_bound labels j ltac:(lia)) as (a & ->). destruct (rd_in_bound x j ltac:(lia)) as (b & ->). cbn.
      replace (0 <=? j) with true by lia. now rewrite andb_true_r.
Qed.
Lemma zlen_hide labels x filler : zlen labels = zlen x -> zlen (hide_final labels x filler) = zlen x.
Proof. intros H. unfold hide_final. destruct (_ =? _); auto. rewrite zlen_map. unfold zlen in *. rewrite combine_length. lia. Qed.

Lemma carry_ragged_ok sched src n name v (y : list (list Z)) :
  (forall n, 0 <= n -> is_sched n (sched n)) ->
  n = zlen (arcs (p_arcs src)) ->
  fillers_ok src -> wf_attr2 n v -> Forall (idx_ok n) y ->
  exists w, carry_ragged sched src name v (mk_layer (splits_of y) (ids_of y)) (concat y) true = Some w /\
    carried_ragged (filler_of src name) (map lab (arcs (p_arcs src))) y v w /\ forall f, attr_len f w = zlen y.
Proof.
  intros Hs Hn Hf Hw Hy. destruct v as [x|x|ls x| |]; cbn in Hw; try contradiction.
  - unfold carry_ragged. rewrite get_filler_ok by auto. set (fl := filler_of src name). set (L := map lab (arcs (p_arcs src))).
    assert (HL : zlen L = zlen x) by (unfold L; rewrite zlen_map; lia).
    rewrite index1_ok by (rewrite zlen_hide by auto; apply idx_ok_concat; now rewrite Hw).
    rewrite concat_map.
    rewrite <- (splits_of_map (sel fl (hide_final L x fl)) y), <- (ids_of_map (sel fl (hide_final L x fl)) y).
    rewrite remove_values_eq_ok by auto. cbn [fst snd]. eexists. split; [reflexivity|]. split.
    + cbn [carried_ragged]. unfold ragged_attr. rewrite map_map.
      assert (E : map (fun js => filter (fun z => negb (z =? fl)) (map (sel fl (hide_final L x fl)) js)) y =
                  map (fun js => filter (fun z => negb (z =? fl)) (map (int_at fl L x) js)) y).
      { apply map_ext_in. intros js Hjs. f_equal. apply map_ext_in. intros j Hj. apply hide_final_sel; auto.
        rewrite Forall_forall in Hy. specialize (Hy js Hjs). unfold idx_ok in Hy. rewrite Forall_forall in Hy. rewrite Hw. auto. }
      now rewrite E.
    + intros f. cbn. rewrite zlen_splits_of, !zlen_map. lia.
  - unfold carry_ragged. cbn [l_rs]. rewrite index_and_sum_ok by now rewrite Hw.
    eexists. split; [reflexivity|]. split; [reflexivity|]. intros f. cbn. apply zlen_map.
  - destruct Hw as (u & -> & -> & Hl). unfold carry_ragged.
    pose proof (C07_index_ragged Z u y) as E. unfold layers_of in E.
    rewrite E. 2:{ unfold index_ok. now rewrite Hl. }
    cbn [fst snd]. eexists. split; [reflexivity|]. split.
    + intros u' E1 E2. injection E1 as E1 _.
      assert (u' = u). { pose proof (to_vec_vec_ok u). pose proof (to_vec_vec_ok u'). congruence. }
      now subst u'.
    + intros f. cbn. rewrite zlen_splits_of, zlen_map. lia.
Qed.

(** C51, ragged arc maps (remove_epsilon, determinize, ...). *)
Theorem C51_unary_ragged : forall (sched : Z -> list Z) (s : pyfsa) (dest : fsa) (arc_map : list (list Z)),
  (forall n, 0 <= n -> is_sched n (sched n)) ->
  wf_src wf_attr2 s ->
  zlen arc_map = zlen (arcs dest) -> Forall (idx_ok (zlen (arcs (p_arcs s)))) arc_map ->
  exists out, unary_ragged sched s dest (mk_layer (splits_of arc_map) (ids_of arc_map)) (concat arc_map) true = Some out /\
    p_arcs out = dest /\
    (forall name, match dget (p_tens s) name with
                  | Some v => exists w, dget (p_tens out) name = Some w /\
                                carried_ragged (filler_of s name) (map lab (arcs (p_arcs s))) arc_map v w
                  | None => dget (p_tens out) name = None
                  end) /\
    (forall name, dget (p_non out) name = dget (p_non s) name).
Proof.
  intros sched s dest arc_map Hs (N1 & N2 & Hf & Hw) Hl Hi.
  unfold unary_ragged.
  destruct (fold_set (fun n v => carry_ragged sched s n v (mk_layer (splits_of arc_map) (ids_of arc_map)) (concat arc_map) true)
              (fun n v w => carried_ragged (filler_of s n) (map lab (arcs (p_arcs s))) arc_map v w)
              (p_tens s) (mkPy dest [] []) N1) as (d & F1 & F2 & F3 & F4).
  - intros name v Hin. apply In_dget in Hin; auto.
    destruct (carry_ragged_ok sched s _ name v arc_map Hs eq_refl Hf (Hw _ _ Hin) Hi) as (w & C1 & C2 & C3).
    exists w. split; auto. split; auto. rewrite C3. auto.
  - rewrite F1. eexists. split; [reflexivity|]. rewrite fold_non. cbn [p_arcs p_tens p_non].
    split; auto. split; auto. intros name. rewrite F3. cbn [p_non]. now rewrite dsets_nil.
Qed.
Print Assumptions C51_unary_ragged.

(** Binary functions.  [merged] says what happens to an attribute name. *)
Definition merged (a b : pyfsa) (a_map b_map : list Z) (name : str) (w : option attr) : Prop :=
  match dget (p_tens a) name, dget (p_tens b) name with
  | Some (AF x), Some (AF y) =>
      w = Some (AF (map (fun p => sel (filler_of a name) x (fst p) + sel (filler_of a name) y (snd p)) (combine a_map b_map)))
  | Some _, Some _ => False
  | Some v, None => exists u, w = Some u /\ carried (filler_of a name) a_map v u
  | None, Some v => exists u, w = Some u /\ carried (filler_of b name) b_map v u
  | None, None => w = None
  end.
(** The operands agree: a name they share is a float tensor in both, and no
    tensor attribute of the first is a non-tensor attribute of the second. *)
Definition compatible_attrs (a b : pyfsa) : Prop :=
  forall name v, dget (p_tens a) name = Some v ->
    dget (p_non b) name = None /\
    forall u, dget (p_tens b) name = Some u -> (exists x, v = AF x) /\ (exists y, u = AF y).

Lemma tadd_sel fa x y (am bm : list Z) : zlen am = zlen bm ->
  tadd (map (sel fa x) am) (map (sel fa y) bm) = Some (map (fun p => sel fa x (fst p) + sel fa y (snd p)) (combine am bm)).
Proof.
  intros H. unfold tadd. rewrite !zlen_map, H, Z.eqb_refl. f_equal.
  revert bm H. induction am as [|i am IH]; intros [|j bm] H; auto. cbn. f_equal. apply IH. rewrite !zlen_cons in H. lia.
Qed.

Theorem C51_binary_tensor : forall (a b : pyfsa) (dest : fsa) (a_map b_map : list Z),
  wf_src wf_attr a -> wf_src wf_attr b -> compatible_attrs a b ->
  zlen a_map = zlen (arcs dest) -> idx_ok (zlen (arcs (p_arcs a))) a_map ->
  zlen b_map = zlen (arcs dest) -> idx_ok (zlen (arcs (p_arcs b))) b_map ->
  (arcs (p_arcs a) <> [] \/ a_map = []) -> (arcs (p_arcs b) <> [] \/ b_map = []) ->
  exists out, binary_tensor a b dest a_map b_map = Some out /\
    topo (p_arcs out) = topo dest /\ map lab (arcs (p_arcs out)) = map lab (arcs dest) /\
    map sc (arcs (p_arcs out)) =
      map (fun p => sel (filler_of a (s2z "scores")) (map sc (arcs (p_arcs a))) (fst p) +
                    sel (filler_of a (s2z "scores")) (map sc (arcs (p_arcs b))) (snd p)) (combine a_map b_map) /\
    (forall name, merged a b a_map b_map name (dget (p_tens out) name)) /\
    (forall name, dget (p_non out) name =
       match dget (p_non a) name with
       | Some v => Some v
       | None => if dmem (p_tens a) name || dmem (p_tens b) name then None else dget (p_non b) name
       end).
Proof.
  intros a b dest a_map b_map (NA1 & NA2 & Hfa & Hwa) (NB1 & NB2 & Hfb & Hwb) Hc La Ia Lb Ib Na Nb.
  assert (Pos : forall o (m : list Z), (arcs (p_arcs o) <> [] \/ m = []) -> 0 < zlen (arcs (p_arcs o)) \/ m = []).
  { intros o m [Hne|]; auto. left. pose proof (zlen_nonneg (arcs (p_arcs o))).
    destruct (Z.eq_dec (zlen (arcs (p_arcs o))) 0) as [E|]; [|lia]. apply zlen_0_nil in E. contradiction. }
  pose proof (Pos a a_map Na) as Pa. pose proof (Pos b b_map Nb) as Pb.
  assert (Ne : forall (f : fsa) (m : list Z) (x : list Z), zlen x = zlen (arcs f) -> (0 < zlen (arcs f) \/ m = []) -> x <> [] \/ m = []).
  { intros f m x Hx [H|H]; auto. left. intros ->. change (zlen (@nil Z)) with 0 in Hx. lia. }
  assert (Sel : forall x y f, zlen x = zlen (arcs (p_arcs a)) -> zlen y = zlen (arcs (p_arcs b)) ->
     (xa <- index_select1 x a_map f;; yb <- index_select1 y b_map f;; tadd xa yb) =
     Some (map (fun p => sel f x (fst p) + sel f y (snd p)) (combine a_map b_map))).
  { intros x y f Hx Hy. rewrite !index_select1_ok; eauto; [|now rewrite Hy|now rewrite Hx]. apply tadd_sel. lia. }
  set (S := map (fun p => sel (filler_of a (s2z "scores")) (map sc (arcs (p_arcs a))) (fst p) +
                    sel (filler_of a (s2z "scores")) (map sc (arcs (p_arcs b))) (snd p)) (combine a_map b_map)).
  assert (LS : zlen S = zlen (arcs dest)) by (unfold S; rewrite zlen_map, zlen_combine; lia).
  assert (ES : add_scores a b a_map b_map dest = Some (with_scores dest S)).
  { unfold add_scores. rewrite get_filler_ok by auto.
    specialize (Sel (map sc (arcs (p_arcs a))) (map sc (arcs (p_arcs b))) (filler_of a (s2z "scores")) (zlen_map _ _) (zlen_map _ _)).
    destruct (index_select1 (map sc (arcs (p_arcs a))) a_map _) as [xa|]; [|discriminate].
    destruct (index_select1 (map sc (arcs (p_arcs b))) b_map _) as [yb|]; [|discriminate].
    rewrite Sel. fold S. now rewrite LS, Z.eqb_refl. }
  unfold binary_tensor. rewrite ES.
  destruct (with_scores_ok dest S LS) as (W1 & W2 & W3).
  set (D0 := mkPy (with_scores dest S) [] []).
  destruct (fold_set (fun n v => carry_a a b n v a_map b_map)
     (fun n v w => match dget (p_tens b) n with
                   | Some (AF y) => exists x, v = AF x /\ w = AF (map (fun p => sel (filler_of a n) x (fst p) + sel (filler_of a n) y (snd p)) (combine a_map b_map))
                   | Some _ => False
                   | None => carried (filler_of a n) a_map v w end)
     (p_tens a) D0 NA1) as (d1 & F1 & F2 & F3 & F4).
  { intros n v Hin. apply In_dget in Hin; auto. destruct (Hc n v Hin) as (Hc1 & Hc2).
    unfold carry_a. rewrite get_filler_ok by auto. unfold has_name, dmem. rewrite Hc1, orb_false_r.
    destruct (dget (p_tens b) n) as [u|] eqn:Eb.
    - destruct (Hc2 u eq_refl) as ((x & ->) & (y & ->)).
      pose proof (Hwa _ _ Hin) as Hx. pose proof (Hwb _ _ Eb) as Hy. cbn in Hx, Hy.
      specialize (Sel x y (filler_of a n) Hx Hy).
      destruct (index_select1 x a_map _) as [xa|]; [|discriminate].
      destruct (index_select1 y b_map _) as [yb|]; [|discriminate]. rewrite Sel.
      eexists. split; [reflexivity|]. split; [eauto|]. cbn [attr_len]. change (p_arcs D0) with (with_scores dest S). rewrite W3, zlen_map, zlen_combine by lia. lia.
    - destruct (carry_ok a _ n v a_map Hfa (Hwa _ _ Hin) Ia Pa) as (w & C1 & C2 & C3).
      exists w. split; auto. split; auto. rewrite C3. change (p_arcs D0) with (with_scores dest S). lia. }
  rewrite F1.
  destruct (fold_set_skip (fun n v => carry b n v b_map) (fun n v w => carried (filler_of b n) b_map v w)
     (p_tens b) d1 NB1) as (d2 & G1 & G2 & G3 & G4).
  { now rewrite F3. }
  { intros n v Hin. apply In_dget in Hin; auto.
    destruct (carry_ok b _ n v b_map Hfb (Hwb _ _ Hin) Ib Pb) as (w & C1 & C2 & C3).
    exists w. split; auto. split; auto. rewrite C3, F2. change (p_arcs D0) with (with_scores dest S). lia. }
  rewrite G1, fold_non.
  destruct (fold_non_skip (p_non b) NB2 (mkPy (p_arcs d2) (p_tens d2) (dsets (p_non a) (p_non d2)))) as (n & K1 & K2).
  cbn [p_arcs p_tens p_non] in K1, K2. rewrite K1.
  eexists. split; [reflexivity|]. cbn [p_arcs p_tens p_non].
  assert (EA : p_arcs d2 = with_scores dest S) by (rewrite G2, F2; reflexivity). rewrite EA.
  assert (M : forall name, merged a b a_map b_map name (dget (p_tens d2) name)).
  { intros name. specialize (F4 name). specialize (G4 name). unfold merged.
    destruct (dget (p_tens a) name) as [v|] eqn:Ea.
    - destruct F4 as (w & E1 & E2). rewrite E1 in G4. rewrite G4.
      destruct (dget (p_tens b) name) as [u|] eqn:Eb.
      + destruct (Hc name v Ea) as (_ & Hc2). destruct (Hc2 u Eb) as ((x & ->) & (y & ->)).
        destruct E2 as (x' & E3 & E4). injection E3 as <-. now subst w.
      + destruct v; eauto.
    - cbn in F4. rewrite F4 in G4. destruct (dget (p_tens b) name) as [u|]; auto. }
  split. { exact (f_equal fst W1). }
  split. { exact (f_equal snd W1). }
  split; [exact W2|]. split; [exact M|].
  intros name. rewrite K2.
  assert (EN : p_non d2 = []) by (rewrite G3, F3; reflexivity). rewrite EN, dsets_nil by auto.
  destruct (dget (p_non a) name); auto.
  assert (ED : dmem (p_tens d2) name = dmem (p_tens a) name || dmem (p_tens b) name).
  { unfold dmem. specialize (M name). unfold merged in M.
    destruct (dget (p_tens a) name) as [[]|]; destruct (dget (p_tens b) name) as [[]|]; try contradiction;
      try (destruct M as (? & -> & _)); try rewrite M; reflexivity. }
  now rewrite ED.
Qed.
Print Assumptions C51_binary_tensor.

(** Gradients of a carried float attribute: the backward pass accumulates, for
    every source arc, the gradients of the output arcs that came from it, in
    whatever order the additions run; and this is the derivative (the
    output is affine in the source attribute). *)
Definition vadd (x y : list Z) : list Z := map (fun p => fst p + snd p) (combine x y).

Lemma dot_affine f x dx idx : zlen dx = zlen x -> idx_ok (zlen x) idx -> forall g,
  dot (map (sel f (vadd x dx)) idx) g = dot (map (sel f x) idx) g + dot (map (sel 0 dx) idx) g.
Proof.
  intros Hl. induction idx as [|j idx IH]; intros Hi [|a g]; try reflexivity.
  inversion Hi as [|? ? Hj Hi']; subst. unfold dot in *. cbn [map combine zsum fst snd]. rewrite (IH Hi' g).
  assert (E : sel f (vadd x dx) j = sel f x j + sel 0 dx j); [|rewrite E; cbn [zsum fold_right]; lia].
  unfold sel, vadd. rewrite rd_map, rd_combine. destruct (Z.eq_dec j (-1)) as [->|].
  - change (rd x (-1)) with (@None Z). change (rd dx (-1)) with (@None Z). cbn. now rewrite Z.add_0_r.
  - destruct (rd_in_bound x j ltac:(lia)) as (u & ->). destruct (rd_in_bound dx j ltac:(lia)) as (v & ->). reflexivity.
Qed.

Theorem C51_gradient : forall sched (x dx index g : list Z) filler,
  idx_ok (zlen x) index -> (x <> [] \/ index = []) -> zlen dx = zlen x -> zlen g = zlen index ->
  is_sched (zlen index) sched ->
  exists gx, index_select1_backward sched (zlen x) index g = Some gx /\ zlen gx = zlen x /\
    (forall k, 0 <= k < zlen x -> rd gx k = Some (total_at index g k)) /\
    dot (map (sel filler (vadd x dx)) index) g = dot (map (sel filler x) index) g + dot dx gx.
Proof.
  intros sched x dx index g f Hi Hne Hd Hg Hs.
  destruct (C04_adjoint sched dx index g) as (y & gx & E1 & E2 & E3 & E4); auto.
  { now rewrite Hd. }
  { destruct Hne as [Hne|]; auto. left. intros ->. change (zlen (@nil Z)) with 0 in Hd. symmetry in Hd. apply zlen_0_nil in Hd. auto. }
  rewrite Hd in E2, E3. exists gx. split; auto. split; auto.
  rewrite index_select1_ok in E1. 2:{ now rewrite Hd. }
  2:{ destruct Hne as [Hne|]; auto. left. intros ->. change (zlen (@nil Z)) with 0 in Hd. symmetry in Hd. apply zlen_0_nil in Hd. auto. }
  injection E1 as <-. split.
  - intros k Hk. unfold index_select1_backward in E2. pose proof (zlen_nonneg x).
    assert (L : zlen (repeat 0 (Z.to_nat (zlen x))) = zlen x) by (rewrite zlen_repeat; lia).
    destruct (C04_index_add sched index g (repeat 0 (Z.to_nat (zlen x)))) as (o & F1 & F2 & F3); auto; [now rewrite L|].
    rewrite F1 in E2. injection E2 as <-. rewrite (F3 k 0); [f_equal; lia|].
    destruct (rd_in_bound (repeat 0 (Z.to_nat (zlen x))) k ltac:(lia)) as (v & E). rewrite E.
    apply rd_In, repeat_spec in E. congruence.
  - rewrite dot_affine by auto. now rewrite E4.
Qed.
Print Assumptions C51_gradient.

(** ** Where the claim fails *)

(** Integer attributes that both operands carry are not discarded, as the
    documentation says: the call raises. *)
Definition toy_fsa : fsa := mkFsa [0; 1; 1] [mkArc 0 1 (-1) 5].
Theorem C51_shared_int_refuted : exists a b dest a_map b_map,
  wf_src wf_attr a /\ wf_src wf_attr b /\ idx_ok (zlen (arcs (p_arcs a))) a_map /\ idx_ok (zlen (arcs (p_arcs b))) b_map /\
  zlen a_map = zlen (arcs dest) /\ zlen b_map = zlen (arcs dest) /\ arcs (p_arcs a) <> [] /\ arcs (p_arcs b) <> [] /\
  binary_tensor a b dest a_map b_map = None.
Proof.
  pose (a := mkPy toy_fsa [(s2z "phones", AI [7])] []).
  assert (W : wf_src wf_attr a).
  { split; [repeat constructor; auto|]. split; [constructor|]. split.
    - intros name. split; [|split; [intros i; discriminate|reflexivity]]. cbn [a p_tens dget].
      destruct (eqd (s2z "phones") (name ++ s2z "_filler")) as [E|]; auto. exfalso.
      apply (f_equal (@rev Z)) in E. rewrite rev_app_distr in E. cbv in E. discriminate.
    - intros name v. cbn [a p_tens dget]. destruct (eqd _ _); [|discriminate]. intros E. injection E as <-. reflexivity. }
  exists a, a, toy_fsa, [0], [0]. split; [exact W|]. split; [exact W|].
  split; [repeat constructor; cbv; discriminate|]. split; [repeat constructor; cbv; discriminate|].
  split; [reflexivity|]. split; [reflexivity|]. split; [discriminate|]. split; [discriminate|]. vm_compute. reflexivity.
Qed.
Print Assumptions C51_shared_int_refuted.

(** An operand's filler is not respected where the arc map is -1: the second
    operand's float attribute is completed with the filler of the first. *)
Theorem C51_second_filler_refuted : exists a b dest a_map b_map out name x y,
  dget (p_tens a) name = Some (AF x) /\ dget (p_tens b) name = Some (AF y) /\
  filler_of b name <> 0 /\ binary_tensor a b dest a_map b_map = Some out /\
  dget (p_tens out) name <>
    Some (AF (map (fun p => sel (filler_of a name) x (fst p) + sel (filler_of b name) y (snd p)) (combine a_map b_map))).
Proof.
  exists (mkPy toy_fsa [(s2z "lm", AF [2])] []), (mkPy toy_fsa [(s2z "lm", AF [3])] [(s2z "lm_filler", PNum (-9))]),
    toy_fsa, [0], [-1].
  eexists. exists (s2z "lm"), [2], [3]. split; [reflexivity|]. split; [reflexivity|]. split; [discriminate|].
  split; [vm_compute; reflexivity|]. vm_compute. discriminate.
Qed.
Print Assumptions C51_second_filler_refuted.

(** With no source arcs, an arc map of -1s (legal) makes the call raise. *)
Theorem C51_no_source_arcs_refuted : exists s dest arc_map,
  wf_src wf_attr s /\ zlen arc_map = zlen (arcs dest) /\ idx_ok (zlen (arcs (p_arcs s))) arc_map /\
  unary_tensor s dest arc_map = None.
Proof.
  exists (mkPy (mkFsa [0; 0; 0] []) [(s2z "phones", AI [])] []), toy_fsa, [-1]. split.
  { split; [repeat constructor; auto|]. split; [constructor|]. split.
    - intros name. split; [|split; [intros i; discriminate|reflexivity]]. cbn [p_tens dget].
      destruct (eqd (s2z "phones") (name ++ s2z "_filler")) as [E|]; auto. exfalso.
      apply (f_equal (@rev Z)) in E. rewrite rev_app_distr in E. cbv in E. discriminate.
    - intros name v. cbn [p_tens dget]. destruct (eqd _ _); [|discriminate]. intros E. injection E as <-. reflexivity. }
  split; [reflexivity|]. split; [repeat constructor; cbv; discriminate|]. vm_compute. reflexivity.
Qed.
Print Assumptions C51_no_source_arcs_refuted.

(** ** Non-trivial cases *)
Definition ex_a : pyfsa :=
  mkPy (mkFsa [0; 2; 3; 3] [mkArc 0 1 1 5; mkArc 0 1 2 6; mkArc 1 2 (-1) 7])
       [(s2z "aux_labels", AI [11; 0; -1]); (s2z "lm", AF [1; 2; 3]);
        (s2z "toks", AR [mk_layer [0; 2; 2; 3] [0; 0; 2]] [21; 22; 23])]
       [(s2z "lm_filler", PNum 4); (s2z "note", PObj 1)].
Definition ex_b : pyfsa :=
  mkPy toy_fsa [(s2z "lm", AF [100]); (s2z "w", AI [8])] [(s2z "w_filler", PNum 9); (s2z "note", PObj 2); (s2z "other", PObj 3)].
Definition ex_dest : fsa := mkFsa [0; 1; 2; 3; 3] [mkArc 0 1 2 0; mkArc 1 2 3 0; mkArc 2 3 (-1) 0].
Ltac no_filler_name :=
  match goal with |- context [eqd ?k (?n ++ s2z "_filler")] =>
    let E := fresh in destruct (eqd k (n ++ s2z "_filler")) as [E|];
    [exfalso; apply (f_equal (@rev Z)) in E; rewrite rev_app_distr in E; vm_compute in E; discriminate|] end.
Lemma ex_a_ok : wf_src wf_attr ex_a.
Proof.
  split; [repeat constructor; cbn; intuition discriminate|]. split; [repeat constructor; cbn; intuition discriminate|]. split.
  - intros name. split; [cbn [ex_a p_tens dget]; repeat no_filler_name; reflexivity|]. split.
    + intros i. cbn [ex_a p_non dget]. destruct (eqd _ _); [discriminate|]. no_filler_name. discriminate.
    + intros ->. reflexivity.
  - intros name v. cbn [ex_a p_tens dget]. repeat (destruct (eqd _ _); [intros E; injection E as <-; try reflexivity|]); [|discriminate].
    exists 0%nat, [[21; 22]; []; [23]]. repeat split.
Qed.
Lemma ex_a_ok2 : wf_src wf_attr2 ex_a.
Proof.
  destruct ex_a_ok as (H1 & H2 & H3 & _). split; auto. split; auto. split; auto.
  intros name v. cbn [ex_a p_tens dget]. repeat (destruct (eqd _ _); [intros E; injection E as <-; try reflexivity|]); [|discriminate].
  exists [[21; 22]; []; [23]]. repeat split.
Qed.
Lemma ex_b_ok : wf_src wf_attr ex_b.
Proof.
  split; [repeat constructor; cbn; intuition discriminate|]. split; [repeat constructor; cbn; intuition discriminate|]. split.
  - intros name. split; [cbn [ex_b p_tens dget]; repeat no_filler_name; reflexivity|]. split.
    + intros i. cbn [ex_b p_non dget]. destruct (eqd _ _); [discriminate|]. repeat no_filler_name. discriminate.
    + intros ->. reflexivity.
  - intros name v. cbn [ex_b p_tens dget]. repeat (destruct (eqd _ _); [intros E; injection E as <-; try reflexivity|]). discriminate.
Qed.
Example C51_unary_ex : wf_src wf_attr ex_a /\ idx_ok 3 [1; -1; 2] /\
  option_map p_tens (unary_tensor ex_a ex_dest [1; -1; 2]) =
  Some [(s2z "aux_labels", AI [0; 0; -1]); (s2z "lm", AF [2; 4; 3]); (s2z "toks", AR [mk_layer [0; 0; 0; 1] [2]] [23])].
Proof. split; [exact ex_a_ok|]. split; [repeat constructor; cbv; discriminate|]. vm_compute. reflexivity. Qed.
Example C51_ragged_ex : wf_src wf_attr2 ex_a /\ Forall (idx_ok 3) [[0; 1]; []; [1; 2]] /\
  option_map p_tens (unary_ragged (fun n => rev (zrange n)) ex_a ex_dest (mk_layer [0; 2; 2; 4] [0; 0; 2; 2]) [0; 1; 1; 2] true) =
  Some [(s2z "aux_labels", AR [mk_layer [0; 1; 1; 1] [0]] [11]); (s2z "lm", AF [3; 0; 5]);
        (s2z "toks", AR [mk_layer [0; 2; 2; 3] [0; 0; 2]] [21; 22; 23])].
Proof. split; [exact ex_a_ok2|]. split; [unfold idx_ok; repeat constructor; cbv; discriminate|]. vm_compute. reflexivity. Qed.
Example C51_binary_ex : wf_src wf_attr ex_a /\ wf_src wf_attr ex_b /\ compatible_attrs ex_a ex_b /\
  option_map (fun o => (map sc (arcs (p_arcs o)), p_tens o, p_non o)) (binary_tensor ex_a ex_b ex_dest [1; -1; 2] [-1; 0; 0]) =
  Some ([6; 5; 12],
        [(s2z "aux_labels", AI [0; 0; -1]); (s2z "lm", AF [6; 104; 103]); (s2z "toks", AR [mk_layer [0; 0; 0; 1] [2]] [23]);
         (s2z "w", AI [9; 8; 8])],
        [(s2z "lm_filler", PNum 4); (s2z "note", PObj 1); (s2z "w_filler", PNum 9); (s2z "other", PObj 3)]).
Proof.
  split; [exact ex_a_ok|]. split; [exact ex_b_ok|]. split; [|vm_compute; reflexivity].
  intros name v. cbn [ex_a p_tens dget].
  destruct (eqd (s2z "aux_labels") name) as [<-|]; [intros _; split; [reflexivity|intros u E; vm_compute in E; discriminate]|].
  destruct (eqd (s2z "lm") name) as [<-|]; [intros E; injection E as <-; split; [reflexivity|intros u E; vm_compute in E; injection E as <-; eauto]|].
  destruct (eqd (s2z "toks") name) as [<-|]; [intros _; split; [reflexivity|intros u E; vm_compute in E; discriminate]|discriminate].
Qed.
