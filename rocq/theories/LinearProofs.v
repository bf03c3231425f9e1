From Coq Require Import ZArith List Lia Bool Permutation.
From Coq Require Import ZifyBool ZifyNat.
From Verif Require Import Base RaggedModel RaggedSpec RaggedProofs FsaSpec FsaLemmas FsaOpsModel FsaOpsProofs EpsLoopProofs
  RaggedOpsModel RaggedOpsProofs RaggedListProofs OpsModel OpsSpec OpsProofs FstSpec GraphModel GraphProofs LevProofs LinearModel.
Import ListNotations.
Open Scope Z_scope.

(** ** LinearFsas *)
Lemma linear_src_ok syms : src_ok (linear_nested syms).
Proof.
  intros i st a Hi Ha. unfold linear_nested in Hi. rewrite rd_app in Hi.
  destruct (i <? _) eqn:E.
  - rewrite rd_map in Hi. rewrite zlen_map, zlen_linear_arcs in E.
    destruct (rd (linear_arcs 0 syms) i) eqn:E2; [|discriminate].
    pose proof (rd_Some_bound _ _ _ E2). rewrite rd_linear_arcs in E2 by lia.
    injection E2 as <-. injection Hi as <-. destruct Ha as [<-|[]]. reflexivity.
  - rewrite rd_cons in Hi. destruct (_ =? 0); [|now rewrite rd_nil in Hi].
    injection Hi as <-. destruct Ha.
Qed.
Lemma zlen_linear_nested syms : zlen (linear_nested syms) = zlen syms + 2.
Proof. pose proof (final_linear syms). unfold final in *. lia. Qed.
Lemma linear_valid syms : Forall (fun l => 0 <= l) syms -> valid (linear_nested syms).
Proof.
  intros Hpos. split; [apply linear_src_ok|]. pose proof (zlen_nonneg syms). unfold nstates.
  rewrite zlen_linear_nested, final_linear. split; [lia|].
  intros a Ha. rewrite all_arcs_linear in Ha. apply In_rd in Ha as (i & Hi & E).
  rewrite zlen_linear_arcs in Hi. rewrite rd_linear_arcs in E by lia. injection E as <-. simpl.
  destruct (rd syms i) as [x|] eqn:E.
  - pose proof (rd_Some_bound _ _ _ E). apply rd_In in E. rewrite Forall_forall in Hpos.
    apply Hpos in E. lia.
  - apply rd_None in E. lia.
Qed.

(** states and offsets of [linear_nested] *)
Lemma rd_linear_nested syms r : 0 <= r <= zlen syms + 1 ->
  rd (linear_nested syms) r =
  Some (if r <=? zlen syms then [mkArc r (r + 1) (match rd syms r with Some s => s | None => -1 end) 0] else []).
Proof.
  intros Hr. unfold linear_nested. rewrite rd_app, zlen_map, zlen_linear_arcs.
  destruct (r <=? zlen syms) eqn:E.
  - replace (r <? zlen syms + 1) with true by lia. rewrite rd_map, rd_linear_arcs by lia. reflexivity.
  - replace (r <? zlen syms + 1) with false by lia. replace (r - (zlen syms + 1)) with 0 by lia. reflexivity.
Qed.
Lemma off1_linear syms r : 0 <= r <= zlen syms + 1 -> off1 (linear_nested syms) r = r.
Proof.
  intros Hr. unfold off1, linear_nested. rewrite firstn_app, map_length.
  pose proof (zlen_linear_arcs syms 0). unfold zlen in *.
  replace (Z.to_nat r - length (linear_arcs 0 syms))%nat with 0%nat by lia.
  simpl firstn. rewrite app_nil_r, firstn_map, concat_singletons, firstn_length. lia.
Qed.

Lemma map_fst_combine {A B} (x : list A) : forall (y : list B), zlen y = zlen x -> map fst (combine x y) = x.
Proof.
  induction x as [|a x IH]; intros [|b y] H; auto; rewrite ?zlen_cons in H; try (change (zlen (@nil A)) with 0 in H);
    try (change (zlen (@nil B)) with 0 in H); try (pose proof (zlen_nonneg x); pose proof (zlen_nonneg y); lia).
  - pose proof (zlen_nonneg x). lia.
  - cbn. f_equal. apply IH. lia.
Qed.
Lemma map_snd_combine {A B} (x : list A) : forall (y : list B), zlen y = zlen x -> map snd (combine x y) = y.
Proof.
  induction x as [|a x IH]; intros [|b y] H; auto; rewrite ?zlen_cons in H; try (change (zlen (@nil A)) with 0 in H);
    try (change (zlen (@nil B)) with 0 in H).
  - pose proof (zlen_nonneg y). lia.
  - cbn. f_equal. apply IH. lia.
Qed.

Lemma off1_linear_vec (y : list (list Z)) k l r : rd y k = Some l -> 0 <= r <= zlen l + 1 ->
  let ts := map linear_nested y in
  off1 ts k = off1 y k + 2 * k /\ off1 (concat ts) (off1 ts k + r) = off1 y k + k + r.
Proof.
  intros Hk Hr ts. pose proof (rd_Some_bound _ _ _ Hk).
  assert (E : off1 ts k = off1 y k + 2 * k).
  { unfold ts. rewrite (off1_tab_sizes y linear_nested 1 2) by (try (intros; rewrite zlen_linear_nested); lia). lia. }
  split; auto. assert (Hk' : rd ts k = Some (linear_nested l)) by (unfold ts; now rewrite rd_map, Hk).
  rewrite (off1_concat ts k _ r Hk') by (rewrite zlen_linear_nested; lia). rewrite off1_linear by lia.
  rewrite <- off1_map_concat. unfold ts. rewrite map_map.
  rewrite (off1_tab_sizes y (fun l => concat (linear_nested l)) 1 1) by
    (try (intros l0 _; pose proof (all_arcs_linear l0) as EE; unfold all_arcs in EE; rewrite EE, zlen_linear_arcs); lia).
  lia.
Qed.

Lemma linear_fsas_ok (y : list (list Z)) sched : is_sched (zlen (concat y) + 2 * zlen y) sched ->
  linear_fsas sched (splits_of y) (concat y) =
  Some (mkVOut (flat_vec (map linear_nested y)) (ids_of (concat (map linear_nested y))) []).
Proof.
  intros Hs. unfold linear_fsas. set (ts := map linear_nested y).
  rewrite (change_sublist_size_ok y linear_nested) by (intros; apply zlen_linear_nested). fold ts.
  rewrite zlen_splits_of. replace (zlen y + 1 - 1) with (zlen y) by lia.
  assert (LT : zlen ts = zlen y) by apply zlen_map.
  assert (NS : zlen (concat ts) = zlen (concat y) + 2 * zlen y).
  { rewrite <- !off1_all, LT. unfold ts. pose proof (zlen_nonneg y).
    rewrite (off1_tab_sizes y linear_nested 1 2) by (try (intros; rewrite zlen_linear_nested); lia). lia. }
  assert (NA : zlen (concat (concat ts)) = zlen (concat y) + zlen y).
  { rewrite (arcs_of_sizes ts 1 1 y linear_nested); [lia|reflexivity|]. intros l _.
    pose proof (all_arcs_linear l) as E. unfold all_arcs in E. rewrite E, zlen_linear_arcs. lia. }
  rewrite <- LT at 1. pose proof (zlen_nonneg y). pose proof (zlen_nonneg (concat y)).
  assert (RL : rd (splits_of ts) (zlen ts) = Some (zlen (concat ts))).
  { rewrite rd_splits_off by lia. now rewrite off1_all. }
  rewrite RL, row_ids_of_splits.
  destruct (zlen (concat ts) =? 0) eqn:E0.
  { assert (y = []) by (apply zlen_0_nil; lia). subst ts. subst y. reflexivity. }
  set (out := combine (concat (concat ts)) (ids_of (concat ts))).
  assert (LO : zlen out = zlen (concat y) + zlen y).
  { unfold out. rewrite zlen_combine; auto. unfold ids_of. now rewrite zlen_ids_from. }
  assert (LI : zlen (ids_of (concat ts)) = zlen (concat (concat ts))) by (unfold ids_of; now rewrite zlen_ids_from).
  assert (Get : forall s, 0 <= s < zlen (concat ts) -> exists k l r, rd y k = Some l /\ 0 <= r <= zlen l + 1 /\ s = off1 ts k + r /\
     rd (ids_of ts) s = Some k /\ rd (splits_of ts) k = Some (off1 ts k) /\ rd (splits_of ts) (k + 1) = Some (off1 ts k + zlen l + 2) /\
     off1 ts k = off1 y k + 2 * k /\ off1 (concat ts) s = off1 y k + k + r /\
     off1 (concat ts) (s + 1) = off1 y k + k + Z.min (r + 1) (zlen l + 1)).
  { intros s Hs'. destruct (rd_in_bound _ _ Hs') as (st & Hst). destruct (rd_concat_inv _ _ _ Hst) as (k & t & r & K1 & K2 & -> & K4).
    pose proof K1 as K1'. unfold ts in K1'. rewrite rd_map in K1'. destruct (rd y k) as [l|] eqn:El; [|discriminate]. injection K1' as <-.
    pose proof (rd_Some_bound _ _ _ K2) as B. rewrite zlen_linear_nested in B.
    destruct (pos_facts ts k _ r st K1 K2) as (P1 & P2 & P3 & P4 & P5). rewrite zlen_linear_nested in P3.
    destruct (off1_linear_vec y k l r El ltac:(lia)) as (O1 & O2). fold ts in O1, O2.
    exists k, l, r. split; auto. split; [lia|]. split; auto. split; auto. split; auto. split; [rewrite P3; f_equal; lia|].
    split; auto. split; auto.
    rewrite (off1_next _ _ _ P5), O2. rewrite (rd_linear_nested l r) in K2 by lia. injection K2 as <-.
    destruct (r <=? zlen l) eqn:E; [change (zlen [_]) with 1|change (zlen (@nil arc)) with 0]; lia. }
  rewrite <- LO. rewrite <- NS in Hs.
  rewrite (k2_fill_list out (zlen (concat ts))); auto.
  - assert (LR : zlen (splits_of (concat ts)) = zlen (concat ts) + 1) by apply zlen_splits_of.
    rewrite <- LR. rewrite (k2_fill_list (splits_of (concat ts)) (zlen (concat ts))); auto.
    + do 2 f_equal; [unfold flat_vec; f_equal; now apply map_fst_combine|now apply map_snd_combine].
    + intros s Hs'. destruct (Get s Hs') as (k & l & r & G1 & G2 & G3 & G4 & G5 & G6 & G7 & G8 & G9).
      unfold linear_fsas_rs_body. rewrite G4, G5, G6. eexists. split; [reflexivity|].
      assert (RS : rd (splits_of (concat ts)) s = Some (off1 y k + k + r)) by (rewrite rd_splits_off by lia; congruence).
      destruct (_ <? _) eqn:E; cbn [app]; repeat constructor; cbn [fst snd].
      * rewrite RS. f_equal. lia.
      * rewrite rd_splits_off by lia. rewrite G9. f_equal. lia.
      * rewrite RS. f_equal. lia.
    + intros j Hj. destruct (Z.eq_dec j (zlen (concat ts))) as [->|].
      * destruct (Get (zlen (concat ts) - 1) ltac:(lia)) as (k & l & r & G1 & G2 & G3 & G4 & G5 & G6 & G7 & G8 & G9).
        assert (L : r = zlen l + 1).
        { destruct (Z.eq_dec r (zlen l + 1)); auto. exfalso. pose proof (off1_bound ts (k + 1)).
          assert (Hk' : rd ts k = Some (linear_nested l)) by (unfold ts; now rewrite rd_map, G1).
          rewrite (off1_next _ _ _ Hk'), zlen_linear_nested in H1. lia. }
        exists (zlen (concat ts) - 1). unfold linear_fsas_rs_body. rewrite G4, G5, G6. eexists. split; [lia|]. split; [reflexivity|].
        replace (_ <? _) with false by lia. cbn [app map fst In]. left. lia.
      * destruct (Get j ltac:(lia)) as (k & l & r & G1 & G2 & G3 & G4 & G5 & G6 & G7 & G8 & G9).
        exists j. unfold linear_fsas_rs_body. rewrite G4, G5, G6. eexists. split; [lia|]. split; [reflexivity|].
        destruct (_ <? _); cbn [app map fst In]; auto.
  - intros s Hs'. destruct (Get s Hs') as (k & l & r & G1 & G2 & G3 & G4 & G5 & G6 & G7 & G8 & G9).
    unfold linear_fsas_arc_body. rewrite G4, G5, G6.
    destruct (_ <? off1 ts k + zlen l + 2 - (k + 1)) eqn:E; [|exists []; auto].
    set (lb := match rd l r with Some s => s | None => -1 end).
    assert (EL : (if off1 ts k - k + (s - off1 ts k) + 1 <? off1 ts k + zlen l + 2 - (k + 1)
        then rd (concat y) (off1 ts k - k + (s - off1 ts k) - k) else Some (-1)) = Some lb).
    { destruct (_ + 1 <? _) eqn:E1.
      - replace (off1 ts k - k + (s - off1 ts k) - k) with (off1 y k + r) by lia.
        destruct (rd_in_bound l r ltac:(lia)) as (x & Hx). unfold lb. rewrite Hx. eapply rd_concat_off; eauto.
      - unfold lb. replace (rd l r) with (@None Z); auto. symmetry. apply rd_None. lia. }
    rewrite EL. eexists. split; [reflexivity|]. constructor; [|constructor]. cbn [fst snd].
    unfold out. rewrite rd_combine.
    assert (Hk' : rd ts k = Some (linear_nested l)) by (unfold ts; now rewrite rd_map, G1).
    assert (Hr : rd (linear_nested l) r = Some [mkArc r (r + 1) lb 0]) by (rewrite rd_linear_nested by lia; now replace (r <=? zlen l) with true by lia).
    destruct (rd_concat_off ts k _ r _ Hk' Hr) as (C1 & C2).
    destruct (rd_concat_off (concat ts) (off1 ts k + r) _ 0 _ C1 (rd_cons_0 _ _)) as (D1 & D2).
    replace (off1 ts k - k + (s - off1 ts k)) with (off1 (concat ts) (off1 ts k + r) + 0) by (rewrite <- G3; lia).
    rewrite D1, D2. replace (s - off1 ts k) with r by lia. do 2 f_equal. lia.
  - intros j Hj. rewrite LO, <- NA in Hj. destruct (rd_in_bound _ _ Hj) as (a & Ha).
    destruct (rd_concat_inv _ _ _ Ha) as (s & st & i & S1 & S2 & S3 & S4). pose proof (rd_Some_bound _ _ _ S1).
    destruct (Get s ltac:(lia)) as (k & l & r & G1 & G2 & G3 & G4 & G5 & G6 & G7 & G8 & G9).
    pose proof (off1_next _ _ _ S1) as N. pose proof (rd_Some_bound _ _ _ S2).
    exists s. unfold linear_fsas_arc_body. rewrite G4, G5, G6.
    replace (off1 ts k - k + (s - off1 ts k) <? off1 ts k + zlen l + 2 - (k + 1)) with true by lia.
    destruct (_ + 1 <? _) eqn:E1.
    + replace (off1 ts k - k + (s - off1 ts k) - k) with (off1 y k + r) by lia.
      destruct (rd_in_bound l r ltac:(lia)) as (x & Hx). rewrite (proj1 (rd_concat_off y k l r x G1 Hx)).
      eexists. split; [lia|]. split; [reflexivity|]. left. cbn [fst]. lia.
    + eexists. split; [lia|]. split; [reflexivity|]. left. cbn [fst]. lia.
Qed.

(** ** linear_fst_with_self_loops *)
Notation item := (Z * Z * Z)%type.
Definition il (it : item) : Z := fst (fst it).
Definition ia (it : item) : Z := snd (fst it).
Definition is_ (it : item) : Z := snd it.

(** groups of items that become one arc *)
Fixpoint crows (cur its : list item) : list (list item) :=
  match its with
  | [] => match cur with [] => [] | _ => [cur] end
  | it :: t => if il it =? 0 then crows (cur ++ [it]) t else (cur ++ [it]) :: crows [] t
  end.
Lemma concat_crows its : forall cur, concat (crows cur its) = cur ++ its.
Proof.
  induction its as [|it t IH]; intros cur; cbn [crows].
  - destruct cur; cbn; now rewrite ?app_nil_r.
  - destruct (il it =? 0); [now rewrite IH, <- app_assoc|]. cbn [concat]. rewrite IH, <- app_assoc. reflexivity.
Qed.
Fixpoint idsr (r : Z) (its : list item) : list Z :=
  match its with [] => [] | it :: t => r :: idsr (if il it =? 0 then r else r + 1) t end.
Lemma ids_crows its : forall r cur, ids_from r (crows cur its) = repeat r (length cur) ++ idsr r its.
Proof.
  induction its as [|it t IH]; intros r cur; cbn [crows idsr].
  - destruct cur; cbn [ids_from]; now rewrite ?app_nil_r.
  - destruct (il it =? 0).
    + rewrite IH, app_length, repeat_app, <- app_assoc. reflexivity.
    + cbn [ids_from]. rewrite IH, app_length, repeat_app, <- app_assoc. reflexivity.
Qed.
Lemma cumsum_idsr t : forall it acc,
  map (fun x => x - 1) (cumsum_from acc (map (fun l => if l =? 0 then 0 else 1) (removelast (map il (it :: t))))) =
  match t with [] => [] | _ => idsr (acc - 1 + if il it =? 0 then 0 else 1) t end.
Proof.
  induction t as [|it' t IH]; intros it acc; [reflexivity|].
  change (removelast (map il (it :: it' :: t))) with (il it :: removelast (map il (it' :: t))).
  cbn [map cumsum_from]. fold (map il (it' :: t)). rewrite (IH it').
  cbn [idsr]. f_equal; [destruct (il it =? 0); lia|].
  destruct t as [|it'' t]; [reflexivity|]. f_equal. destruct (il it =? 0), (il it' =? 0); lia.
Qed.
Lemma dest_row_ids_ok its : dest_row_ids (map il its) = ids_of (crows [] its).
Proof.
  unfold ids_of. rewrite ids_crows. cbn [length repeat app]. unfold dest_row_ids, new_arc_flag.
  destruct its as [|it t]; [reflexivity|]. cbn [map cumsum_from idsr].
  change (il it :: map il t) with (map il (it :: t)). rewrite cumsum_idsr. f_equal. destruct t; [reflexivity|]. f_equal.
Qed.

Lemma crows_nonempty its : forall cur g, In g (crows cur its) -> g <> [].
Proof.
  induction its as [|it t IH]; intros cur g H; cbn [crows] in H.
  - destruct cur; [destruct H|destruct H as [<-|[]]; discriminate].
  - destruct (il it =? 0); [eauto|]. destruct H as [<-|H]; [now destruct cur|eauto].
Qed.
Lemma rows_from_ids_ok {A} (ll : list (list A)) : (forall g, In g ll -> g <> []) -> rows_from_ids (ids_of ll) = zlen ll.
Proof.
  intros H. unfold rows_from_ids. destruct (rev ll) as [|g rl] eqn:E.
  { apply (f_equal (@rev _)) in E. rewrite rev_involutive in E. cbn in E. subst ll. reflexivity. }
  apply (f_equal (@rev _)) in E. rewrite rev_involutive in E. cbn in E. set (l := rev rl) in E. subst ll.
  assert (Hg : g <> []) by (apply H; apply in_or_app; right; now left).
  assert (Hr : rd (l ++ [g]) (zlen l) = Some g).
  { rewrite rd_app_r by (pose proof (zlen_nonneg l); lia). replace (zlen l - zlen l) with 0 by lia. apply rd_cons_0. }
  assert (Hl : 0 < zlen g). { pose proof (zlen_nonneg g). destruct (Z.eq_dec (zlen g) 0); [|lia]. exfalso. apply Hg. now apply zlen_0_nil. }
  destruct (rd_in_bound g (zlen g - 1) ltac:(lia)) as (x & Hx).
  destruct (rd_concat_off _ _ _ _ _ Hr Hx) as (_ & E2).
  assert (E3 : zlen (ids_of (l ++ [g])) - 1 = off1 (l ++ [g]) (zlen l) + (zlen g - 1)).
  { unfold ids_of. rewrite zlen_ids_from. pose proof (off1_next _ _ _ Hr). pose proof (off1_all (l ++ [g])).
    rewrite zlen_app in H1. change (zlen [g]) with 1 in H1. lia. }
  rewrite E3, E2, zlen_app. reflexivity.
Qed.

Definition glab (g : list item) : Z := last (map il g) 0.
Definition gaux (g : list item) : list Z := filter (fun x => 0 <? x) (map ia g).
Definition gsc (g : list item) : Z := zsum (map is_ g).

Lemma crows_app pre a s rest : forall cur, 
  crows cur (pre ++ (-1, a, s) :: rest) = crows cur (pre ++ [(-1, a, s)]) ++ crows [] rest.
Proof.
  induction pre as [|it t IH]; intros cur; cbn [crows app].
  - reflexivity.
  - destruct (il it =? 0); rewrite IH; reflexivity.
Qed.
Lemma crows_concat itss : Forall lin_ok itss -> crows [] (concat itss) = concat (map (crows []) itss).
Proof.
  induction 1 as [|its itss (pre & a & s & -> & _) _ IH]; [reflexivity|]. cbn [map concat].
  rewrite <- app_assoc. cbn [app]. now rewrite crows_app, IH.
Qed.
Definition plab (its : list item) : list Z := filter (fun x => 0 <? x) (map il its).
Lemma crows_labels its : lin_ok its -> map glab (crows [] its) = plab its ++ [-1].
Proof.
  intros (pre & a & s & -> & F).
  enough (G : forall cur, map glab (crows cur (pre ++ [(-1, a, s)])) = plab (pre ++ [(-1, a, s)]) ++ [-1]) by apply G.
  unfold plab. rewrite map_app, filter_app. cbn [map filter].
  change (0 <? il (-1, a, s)) with false. cbn iota. rewrite app_nil_r.
  clear -F. induction pre as [|it t IH]; intros cur; cbn [crows app map filter].
  - change (il (-1, a, s) =? 0) with false. cbn iota. cbn [crows map]. unfold glab. rewrite map_app. cbn [map]. now rewrite last_last.
  - inversion F as [|? ? F1 F2]; subst. fold (il it) in F1. destruct (il it =? 0) eqn:E.
    + replace (0 <? il it) with false by lia. now apply IH.
    + replace (0 <? il it) with true by lia. cbn [map app]. rewrite IH by auto. f_equal. unfold glab. rewrite map_app. cbn [map]. apply last_last.
Qed.

(** arcs of the result, with and without the self-loops *)
Definition group_arc (k : Z) (g : list item) : arc * list Z := (mkArc k (k + 1) (glab g) (gsc g), gaux g).
Definition base (its : list item) : list (list (arc * list Z)) :=
  imap (fun k g => [group_arc k g]) 0 (crows [] its) ++ [[]].
Definition add_loops_attr {B} (d : B) (f : list (list (arc * B))) : list (list (arc * B)) :=
  imap (fun i st => if i + 1 <? zlen f then (mkArc i i 0 0, d) :: st else st) 0 f.
Definition with_self_loops (its : list item) : list (list (arc * list Z)) := add_loops_attr [] (base its).


Lemma add_loops_attr_arcs {B} (d : B) f : map (map fst) (add_loops_attr d f) = add_loops (map (map fst) f).
Proof.
  unfold add_loops_attr, add_loops, nstates. rewrite zlen_map. apply list_ext_rd.
  { now rewrite zlen_map, !zlen_imap, zlen_map. }
  intros i Hi. rewrite rd_map, !rd_imap, rd_map. destruct (rd f i); cbn [option_map]; auto.
  destruct (_ <? _); reflexivity.
Qed.

Lemma loops_attr {B} (ts : list (list (list (arc * B)))) (d : B) (carry : Z -> B) :
  (forall i x, rd (concat (concat ts)) i = Some x -> carry i = snd x) -> carry (-1) = d ->
  map (fun t => carry (snd t)) (concat (concat (LT (map (map (map fst)) ts)))) =
  map snd (concat (concat (map (add_loops_attr d) ts))).
Proof.
  intros Hc Hd. set (fs := map (map (map fst)) ts).
  rewrite (concat_map (fun t : arc * Z * Z => carry (snd t))), (concat_map (map (fun t : arc * Z * Z => carry (snd t)))).
  rewrite (concat_map snd), (concat_map (map snd)). do 2 f_equal.
  apply list_ext_rd.
  { rewrite !zlen_map. unfold LT. rewrite zlen_imap. unfold fs. now rewrite !zlen_map. }
  intros k Hk. unfold LT. rewrite !rd_map, rd_imap.
  assert (Efs : rd fs k = option_map (map (map fst)) (rd ts k)) by (unfold fs; apply rd_map). rewrite Efs.
  destruct (rd ts k) as [f|] eqn:Ef; cbn [option_map]; auto. f_equal.
  apply list_ext_rd.
  { rewrite !zlen_map, zlen_imap, zlen_map. unfold add_loops_attr. now rewrite zlen_imap. }
  intros r Hr. unfold add_loops_attr. rewrite !rd_map, !rd_imap, rd_map.
  destruct (rd f r) as [st|] eqn:Er; cbn [option_map]; auto. f_equal.
  unfold tri. rewrite zlen_map, map_app, map_imap. cbn [snd].
  replace (0 + r) with r by lia. replace (0 + k) with k by lia.
  assert (E : imap (fun j (_ : arc) => carry (off1 (concat fs) (off1 fs k + r) + j)) 0 (map fst st) = map snd st).
  { assert (Hk' : rd fs k = Some (map (map fst) f)) by (unfold fs; now rewrite rd_map, Ef).
    assert (Hr' : rd (map (map fst) f) r = Some (map fst st)) by (now rewrite rd_map, Er).
    apply list_ext_rd; [now rewrite zlen_imap, !zlen_map|]. intros j Hj. rewrite rd_imap, !rd_map.
    destruct (rd st j) as [x|] eqn:Ex; cbn [option_map]; auto. f_equal. rewrite Z.add_0_l. apply Hc.
    assert (O1 : off1 fs k = off1 ts k) by (unfold fs; apply off1_map2).
    assert (O2 : forall m, off1 (concat fs) m = off1 (concat ts) m).
    { intros m. unfold fs. rewrite <- concat_map. apply off1_map2. }
    rewrite O1, O2. eapply rd_concat_off; [|exact Ex]. eapply rd_concat_off; eauto. }
  rewrite E. destruct (r + 1 <? zlen f); cbn [map app snd]; [now rewrite Hd|reflexivity].
Qed.


Lemma combine_app_eq {A B} (x1 : list A) : forall (y1 : list B) x2 y2, length x1 = length y1 ->
  combine (x1 ++ x2) (y1 ++ y2) = combine x1 y1 ++ combine x2 y2.
Proof. induction x1; intros [|b y1] x2 y2 H; try discriminate; auto. cbn. f_equal. apply IHx1. now injection H. Qed.

Lemma splits_compose {A} (fs : list (list (list A))) :
  mapM (rd (splits_of (concat fs))) (splits_of fs) = Some (splits_of (map (@concat A) fs)).
Proof.
  pose proof (compose_layers_ok fs) as E. unfold compose_layers in E. cbn [l_ids l_rs] in E.
  destruct (mapM (rd (ids_of fs)) _); [|discriminate]. destruct (mapM (rd (splits_of (concat fs))) (splits_of fs)); [|discriminate].
  injection E as -> _. reflexivity.
Qed.

Section SL.
  Variable itss : list (list item).
  Hypothesis OK : Forall lin_ok itss.
  Let ts := map lin itss.

  Lemma lin_arcs_map its : forall k, map (fun b => (lab (fst b), snd b, sc (fst b))) (lin_arcs k its) = its.
  Proof. induction its as [|[[l a] s] t IH]; intros k; cbn [lin_arcs map fst snd lab sc]; auto. now rewrite IH. Qed.
  Lemma concat_lin its : concat (lin its) = lin_arcs 0 its.
  Proof. unfold lin. rewrite concat_app, concat_singletons. cbn. apply app_nil_r. Qed.
  Lemma items_all : map (fun b => (lab (fst b), snd b, sc (fst b))) (concat (concat ts)) = concat itss.
  Proof.
    unfold ts. rewrite <- concat_map_concat, map_map, concat_map, map_map. f_equal. rewrite <- (map_id itss) at 2.
    apply map_ext. intros its. rewrite concat_lin. apply lin_arcs_map.
  Qed.

  Let rows := crows [] (concat itss).
  Lemma concat_rows : concat rows = concat itss.
  Proof. unfold rows. apply concat_crows. Qed.
  Lemma rows_eq : rows = concat (map (crows []) itss).
  Proof. apply crows_concat, OK. Qed.

  Definition fbase (its : list item) : list (list arc) := map (map fst) (base its).
  Definition aux_of_rows : list (list Z) := map gaux rows.

  Lemma linear_scored its : lin_ok its ->
    map fst (imap group_arc 0 (crows [] its)) =
    map (fun p => mkArc (src (fst p)) (dst (fst p)) (lab (fst p)) (snd p)) (combine (linear_arcs 0 (plab its)) (map gsc (crows [] its))).
  Proof.
    intros H. pose proof (crows_labels its H) as E.
    assert (L : zlen (crows [] its) = zlen (plab its) + 1).
    { rewrite <- (zlen_map glab), E, zlen_app. reflexivity. }
    apply list_ext_rd.
    { rewrite !zlen_map, zlen_imap, zlen_combine; rewrite zlen_linear_arcs, ?zlen_map; lia. }
    intros i Hi. rewrite zlen_map, zlen_imap in Hi. rewrite !rd_map, rd_imap, rd_combine, rd_map.
    destruct (rd_in_bound _ _ Hi) as (g & Hg). rewrite Hg. cbn [option_map]. rewrite rd_linear_arcs by lia. cbn.
    rewrite Z.add_0_l. do 2 f_equal. assert (Eg : rd (map glab (crows [] its)) i = Some (glab g)) by now rewrite rd_map, Hg.
    rewrite E in Eg. destruct (rd (plab its) i) as [x|] eqn:Ex.
    - rewrite rd_app_l in Eg by (eapply rd_Some_bound; eauto). congruence.
    - apply rd_None in Ex. rewrite rd_app_r in Eg by lia. replace (i - zlen (plab its)) with 0 in Eg by lia. injection Eg as <-. reflexivity.
  Qed.
  Lemma base_arcs its : concat (base its) = imap group_arc 0 (crows [] its).
  Proof.
    unfold base. rewrite concat_app. cbn [concat]. rewrite !app_nil_r.
    generalize 0. induction (crows [] its); intros k; cbn; auto. now rewrite IHl.
  Qed.
  Lemma splits_base its : lin_ok its -> map zlen (base its) = map zlen (linear_nested (plab its)).
  Proof.
    intros H. pose proof (crows_labels its H) as E.
    assert (L : zlen (crows [] its) = zlen (linear_arcs 0 (plab its))).
    { rewrite <- (zlen_map glab), E, zlen_app, zlen_linear_arcs. reflexivity. }
    unfold base, linear_nested. rewrite !map_app. f_equal.
    revert L. generalize (linear_arcs 0 (plab its)). generalize 0. generalize (crows [] its) as l. clear.
    induction l as [|g l IH]; intros k [|a m] L; auto; rewrite ?zlen_cons in L.
    - change (zlen (@nil (list item))) with 0 in L. pose proof (zlen_nonneg m). lia.
    - change (zlen (@nil arc)) with 0 in L. pose proof (zlen_nonneg l). lia.
    - cbn [imap map]. f_equal. apply IH. lia.
  Qed.

  Lemma scored_ok : set_scores (flat_vec (map linear_nested (map plab itss))) (map gsc rows) =
    Some (vec_of (map base itss)).
  Proof.
    assert (C : forall its, concat (linear_nested (plab its)) = linear_arcs 0 (plab its)).
    { intros its. pose proof (all_arcs_linear (plab its)) as E. exact E. }
    unfold set_scores, flat_vec. cbn [v_rs1 v_rs2 v_arcs].
    assert (EA : concat (concat (map linear_nested (map plab itss))) = concat (map (fun its => linear_arcs 0 (plab its)) itss)).
    { rewrite map_map, <- concat_map_concat, map_map. f_equal. apply map_ext. intros its. apply C. }
    assert (L : zlen (map gsc rows) = zlen (concat (concat (map linear_nested (map plab itss))))).
    { rewrite zlen_map, EA, rows_eq. pose proof OK as OK'. clear -OK'. induction OK' as [|its l H _ IH]; [reflexivity|]. cbn [map concat].
      rewrite !zlen_app, IH, zlen_linear_arcs. pose proof (crows_labels its H) as E. apply (f_equal zlen) in E.
      rewrite zlen_map, zlen_app in E. change (zlen [-1]) with 1 in E. lia. }
    replace (zlen (map gsc rows) =? _) with true by lia. f_equal. rewrite vec_of_eq. f_equal.
    - unfold splits_of. f_equal. rewrite !map_map. apply map_ext_in. intros its Hin.
      pose proof (proj1 (Forall_forall _ _) OK its Hin) as Hok. pose proof (splits_base its Hok) as E. apply (f_equal (@length Z)) in E.
      rewrite !map_length in E. unfold zlen. lia.
    - unfold splits_of. f_equal. rewrite !concat_map, !map_map. f_equal. apply map_ext_in. intros its Hin.
      symmetry. apply splits_base. now apply (proj1 (Forall_forall _ _) OK).
    - rewrite EA, rows_eq. clear L EA.
      rewrite <- (concat_map_concat (map base itss)), map_map.
      rewrite (map_ext (fun its => concat (base its)) (fun its => imap group_arc 0 (crows [] its)))
        by (intros; now rewrite base_arcs).
      pose proof OK as OK'. clear -OK'. induction OK' as [|its l H _ IH]; [reflexivity|]. cbn [map concat].
      rewrite (map_app gsc), combine_app_eq, !map_app, IH by
        (rewrite map_length; pose proof (crows_labels its H) as E; apply (f_equal zlen) in E;
         rewrite zlen_map, zlen_app in E; change (zlen [-1]) with 1 in E; rewrite <- (zlen_linear_arcs (plab its) 0) in E; unfold zlen in E; lia).
      f_equal. symmetry. rewrite linear_scored by auto. reflexivity.
  Qed.

  Lemma carry_rows_ok (m : list Z) (carry : Z -> list Z) :
    (forall i, In i m -> i = -1 \/ exists x, rd aux_of_rows i = Some x) ->
    carry_rows aux_of_rows m = Some (map (fun i => if i =? -1 then [] else match rd aux_of_rows i with Some x => x | None => [] end) m).
  Proof.
    intros H. unfold carry_rows. apply mapM_Some_map. intros i Hi. destruct (i =? -1) eqn:E; auto.
    destruct (H i Hi) as [->|(x & ->)]; [discriminate|reflexivity].
  Qed.

  Lemma base_ok : vec_ok (map (map (map fst)) (map base itss)).
  Proof.
    apply Forall_forall. intros f Hf. apply in_map_iff in Hf as (b & <- & Hb). apply in_map_iff in Hb as (its & <- & _).
    assert (S : src_ok (map (map fst) (base its))).
    { intros i st a Hi Ha. rewrite rd_map in Hi. unfold base in Hi. rewrite rd_app, zlen_imap in Hi.
      destruct (i <? _) eqn:E.
      - rewrite rd_imap in Hi. destruct (rd (crows [] its) i) as [g|]; [|discriminate]. cbn in Hi. injection Hi as <-.
        destruct Ha as [<-|[]]. reflexivity.
      - rewrite rd_cons in Hi. destruct (_ =? 0); [|now rewrite rd_nil in Hi]. injection Hi as <-. destruct Ha. }
    split; auto. intros a Ha. unfold all_arcs in Ha. rewrite <- concat_map, base_arcs in Ha.
    apply in_map_iff in Ha as (x & <- & Hx). apply In_rd in Hx as (i & Hi & Hx). rewrite zlen_imap in Hi. rewrite rd_imap in Hx.
    destruct (rd (crows [] its) i) as [g|]; [|discriminate]. injection Hx as <-. cbn [group_arc fst src].
    unfold final. rewrite zlen_map. unfold base. rewrite zlen_app, zlen_imap. change (zlen [[]]) with 1. lia.
  Qed.

  Lemma fst_with_loops_ok sched1 sched2 sched3 : itss <> [] ->
    is_sched (zlen (concat (map plab itss)) + 2 * zlen itss) sched1 ->
    is_sched (zlen (concat (concat (map base itss))) + zlen (concat (map base itss))) sched2 ->
    is_sched (zlen (concat (map base itss))) sched3 ->
    exists o, linear_fst_with_self_loops sched1 sched2 sched3 (vec_of ts) (map snd (concat (concat ts))) =
      Some (o, map snd (concat (concat (map with_self_loops itss)))) /\
      vo_vec o = vec_of (map with_self_loops itss) /\ vo_row_ids2 o = ids_of (concat (map with_self_loops itss)).
  Proof.
    intros Hne Hs1 Hs2 Hs3. unfold linear_fst_with_self_loops.
    assert (V : vec_of ts = mkVec (splits_of ts) (splits_of (concat ts)) (map fst (concat (concat ts)))) by apply vec_of_eq.
    assert (IL : map lab (v_arcs (vec_of ts)) = map il (concat itss)).
    { rewrite V. cbn [v_arcs]. rewrite <- items_all, !map_map. apply map_ext. reflexivity. }
    assert (IA : map snd (concat (concat ts)) = map ia (concat itss)).
    { rewrite <- items_all, map_map. apply map_ext. reflexivity. }
    assert (IS : map sc (v_arcs (vec_of ts)) = map is_ (concat itss)).
    { rewrite V. cbn [v_arcs]. rewrite <- items_all, !map_map. apply map_ext. reflexivity. }
    rewrite IL, IA, IS. rewrite dest_row_ids_ok. fold rows.
    rewrite rows_from_ids_ok by apply crows_nonempty.
    rewrite splits_of_row_ids.
    rewrite <- concat_rows, <- (splits_of_map_map ia), concat_map, to_vec_vec_ok.
    assert (PA : positive (map (map ia) rows) = aux_of_rows) by (unfold positive; rewrite map_map; reflexivity).
    rewrite PA.
    (* scores *)
    assert (SCO : index_and_sum (map is_ (concat rows)) (splits_of rows) (zrange (zlen (v_arcs (vec_of ts)))) = Some (map gsc rows)).
    { assert (LA : zlen (v_arcs (vec_of ts)) = zlen (map is_ (concat rows))).
      { rewrite concat_rows, <- IS. now rewrite zlen_map. }
      rewrite LA. unfold index_and_sum.
      assert (X : index1 0 (map is_ (concat rows)) (zrange (zlen (map is_ (concat rows)))) = Some (map is_ (concat rows))).
      { rewrite index1_ok.
        - f_equal. symmetry. apply tab_rd. intros i Hi. unfold sel. destruct (rd_in_bound _ _ Hi) as (x & ->).
          replace (i =? -1) with false by lia. reflexivity.
        - apply Forall_forall. intros i Hi. apply in_zrange in Hi. unfold idx_ok. lia. }
      rewrite X. unfold sum_per_sublist. rewrite <- (splits_of_map_map is_), concat_map, to_vec_vec_ok, map_map. reflexivity. }
    rewrite (splits_of_map_map ia), SCO.
    (* labels *)
    unfold labels_by_fsa.
    assert (LB : (rs <- mapM (rd (v_rs2 (vec_of ts))) (v_rs1 (vec_of ts));; to_vec_vec rs (map lab (v_arcs (vec_of ts)))) = Some (map (map il) itss)).
    { rewrite V at 1 2. cbn [v_rs1 v_rs2]. rewrite splits_compose.
      replace (splits_of (map (@concat tarc) ts)) with (splits_of (map (map il) itss)).
      - rewrite IL, concat_map. apply to_vec_vec_ok.
      - rewrite splits_of_map_map. unfold splits_of, ts. f_equal. rewrite !map_map. apply map_ext. intros its.
        rewrite concat_lin. rewrite <- (lin_arcs_map its 0) at 1. now rewrite zlen_map. }
    rewrite LB.
    assert (PL : positive (map (map il) itss) = map plab itss).
    { unfold positive. rewrite map_map. reflexivity. }
    rewrite PL. fold (splits_of (map plab itss)). rewrite linear_fsas_ok by now rewrite zlen_map.
    cbn [vo_vec].
    pose proof scored_ok as SC.
    assert (EL : (zlen (map gsc rows) =? zlen (v_arcs (flat_vec (map linear_nested (map plab itss))))) = true).
    { pose proof SC as SC'. unfold set_scores in SC'. now destruct (_ =? _). }
    replace (zlen aux_of_rows =? _) with true.
    2:{ symmetry. unfold aux_of_rows. rewrite (zlen_map gaux). rewrite (zlen_map gsc) in EL. exact EL. }
    rewrite SC.
    assert (NE : concat (map (map (map fst)) (map base itss)) <> []).
    { assert (G : forall l, l <> [] -> concat (map (map (map fst)) (map base l)) <> []).
      { intros [|its r] N; [congruence|]. cbn [map concat]. intros E. apply app_eq_nil in E as (E & _). unfold base in E.
        rewrite map_app in E. apply app_eq_nil in E as (_ & E). discriminate. }
      now apply G. }
    assert (LL : zlen (concat (map (map (map fst)) (map base itss))) = zlen (concat (map base itss))).
    { rewrite <- concat_map, zlen_map. reflexivity. }
    assert (LL2 : zlen (concat (concat (map (map (map fst)) (map base itss)))) = zlen (concat (concat (map base itss)))).
    { rewrite <- concat_map, <- concat_map, zlen_map. reflexivity. }
    destruct (add_eps_vec_eq _ base_ok sched2 sched3) as (rids & m & E1 & E2); [now rewrite LL2, LL|now rewrite LL|].
    destruct (E2 NE) as (-> & ->). unfold vec_of at 1. rewrite E1. cbn [vo_map].
    set (carry := fun i => if i =? -1 then [] else match rd aux_of_rows i with Some x => x | None => [] end).
    assert (AR : map snd (concat (concat (map base itss))) = aux_of_rows).
    { unfold aux_of_rows. rewrite rows_eq, <- concat_map_concat, map_map, !concat_map, !map_map. f_equal. apply map_ext. intros its.
      rewrite base_arcs. clear. generalize 0. induction (crows [] its); intros k; cbn; auto. now rewrite IHl. }
    rewrite carry_rows_ok; [|exact carry|].
    2:{ intros i Hi. apply in_map_iff in Hi as (t & <- & Ht). apply In_rd in Ht as (j & _ & Hj).
        destruct (add_eps_vec_map _ _ _ Hj) as [(H & _)|H]; [now left|]. right.
        rewrite <- AR. rewrite <- concat_map, <- concat_map, rd_map in H.
        destruct (rd (concat (concat (map base itss))) (snd t)) as [x|] eqn:Ex; [|discriminate]. exists (snd x). now rewrite rd_map, Ex. }
    fold carry.
    eexists. split; [|split].
    - do 2 f_equal. transitivity (map snd (concat (concat (map (add_loops_attr []) (map base itss))))).
      2:{ unfold with_self_loops. now rewrite map_map. }
      rewrite (map_map snd carry). apply (loops_attr (map base itss) [] carry).
      + intros i x Hx. unfold carry. pose proof (rd_Some_bound _ _ _ Hx). replace (i =? -1) with false by lia.
        rewrite <- AR, rd_map, Hx. reflexivity.
      + reflexivity.
    - cbn [vo_vec]. unfold vec_of. f_equal. unfold fs', with_self_loops. rewrite !map_map. apply map_ext.
      intros its. symmetry. apply add_loops_attr_arcs.
    - cbn [vo_row_ids2]. unfold fs', with_self_loops.
      assert (Q : map add_loops (map (map (map fst)) (map base itss)) = map (map (map fst)) (map (fun its => add_loops_attr [] (base its)) itss)).
      { rewrite !map_map. apply map_ext. intros its. symmetry. apply add_loops_attr_arcs. }
      rewrite Q, <- concat_map. unfold ids_of. apply ids_from_map2.
  Qed.
End SL.

(** ** What the result relates *)
Section SLang.
  Variable its : list item.
  Hypothesis OK : lin_ok its.
  Let cs := crows [] its.
  Let T := concat (with_self_loops its).
  Let n := zlen cs.

  Lemma zlen_wsl : zlen (with_self_loops its) = n + 1.
  Proof. unfold with_self_loops, add_loops_attr, base. rewrite zlen_imap, zlen_app, zlen_imap. reflexivity. Qed.
  Lemma wsl_in b : In b T <-> (exists k, 0 <= k < n /\ b = (mkArc k k 0 0, [])) \/ (exists k g, rd cs k = Some g /\ b = group_arc k g).
  Proof.
    unfold T, with_self_loops, add_loops_attr. rewrite in_concat.
    assert (LB : zlen (base its) = n + 1) by (unfold base; rewrite zlen_app, zlen_imap; reflexivity).
    rewrite LB. split.
    - intros (st & Hst & Hb). apply In_rd in Hst as (i & Hi & E). rewrite rd_imap in E.
      destruct (rd (base its) i) as [st0|] eqn:E0; [|discriminate]. cbn in E. injection E as <-.
      assert (B0 : In b st0 -> exists k g, rd cs k = Some g /\ b = group_arc k g).
      { intros H. unfold base in E0. rewrite rd_app, zlen_imap in E0. destruct (i <? _).
        - rewrite rd_imap in E0. destruct (rd (crows [] its) i) as [g|] eqn:Eg; [|discriminate]. injection E0 as <-.
          destruct H as [<-|[]]. exists i, g. split; auto.
        - rewrite rd_cons in E0. destruct (_ =? 0); [|now rewrite rd_nil in E0]. injection E0 as <-. destruct H. }
      replace (0 + i) with i in Hb by lia. pose proof (rd_Some_bound _ _ _ E0).
      destruct (i + 1 <? n + 1) eqn:E1; [|now right; apply B0]. destruct Hb as [<-|Hb]; [left|right; now apply B0].
      exists i. split; auto. lia.
    - intros H.
      assert (K : forall k g, rd cs k = Some g -> rd (imap (fun i st => if i + 1 <? n + 1 then (mkArc i i 0 0, []) :: st else st) 0 (base its)) k =
         Some [(mkArc k k 0 0, []); group_arc k g]).
      { intros k g Hg. pose proof (rd_Some_bound _ _ _ Hg). rewrite rd_imap. unfold base.
        rewrite rd_app_l by (rewrite zlen_imap; fold cs; lia). rewrite rd_imap. fold cs. rewrite Hg. cbn [option_map].
        replace (0 + k) with k by lia. fold n in H0. replace (k + 1 <? n + 1) with true by lia. reflexivity. }
      destruct H as [(k & Hk & ->)|(k & g & Hg & ->)].
      + destruct (rd_in_bound cs k Hk) as (g & Hg). eexists. split; [eapply rd_In; apply (K k g Hg)|]. now left.
      + eexists. split; [eapply rd_In; apply (K k g Hg)|]. right. now left.
  Qed.
  Lemma glab_nz g : In g cs -> glab g <> 0.
  Proof.
    intros H. assert (E : In (glab g) (map glab cs)) by now apply in_map. unfold cs in E. rewrite crows_labels in E by auto.
    apply in_app_or in E as [E|[E|[]]]; [|lia]. unfold plab in E. apply filter_In in E as (_ & E). lia.
  Qed.

  Lemma wsl_fwd p : forall k, 0 <= k <= n -> tpath T k p n ->
    strip (ilabels p) = map glab (skipn (Z.to_nat k) cs) /\ concat (map snd p) = concat (map gaux (skipn (Z.to_nat k) cs)) /\
    tscore p = zsum (map gsc (skipn (Z.to_nat k) cs)).
  Proof.
    induction p as [|b p IH]; intros k Hk Hp; apply tpath_inv in Hp as [(E & E')|(b' & p' & E & Hb & Es & Hp)]; try discriminate.
    - subst k. unfold n. rewrite skipn_end. auto.
    - injection E as <- <-. apply wsl_in in Hb as [(k' & Hk' & ->)|(k' & g & Hg & ->)]; cbn [fst src dst group_arc] in Es, Hp; subst k'.
      + destruct (IH k Hk Hp) as (I1 & I2 & I3). cbn [ilabels map fst lab snd concat]. rewrite strip_0. unfold tscore in *. cbn [map fst sc zsum].
        split; [exact I1|]. split; [exact I2|]. rewrite Z.add_0_l. exact I3.
      + pose proof (rd_Some_bound _ _ _ Hg). fold n in H. destruct (IH (k + 1) ltac:(lia) Hp) as (I1 & I2 & I3).
        rewrite (skipn_rd cs k g) by (auto; lia). cbn [ilabels map fst lab snd concat group_arc]. unfold tscore in *.
        rewrite strip_pos by (apply glab_nz; eapply rd_In; eauto). fold (ilabels p). rewrite I1, I2. cbn [map fst sc zsum group_arc]. rewrite I3. auto.
  Qed.
  Lemma wsl_path m : forall k, 0 <= k -> k + Z.of_nat m = n -> exists p, tpath T k p n.
  Proof.
    induction m as [|m IH]; intros k Hk E.
    - exists []. replace k with n by lia. constructor.
    - destruct (IH (k + 1)) as (p & Hp); [lia|lia|]. destruct (rd_in_bound cs k) as (g & Hg); [fold n; lia|].
      exists (group_arc k g :: p). apply tpath_step; [apply wsl_in; right; eauto|reflexivity|exact Hp].
  Qed.
  Lemma gaux_all : concat (map gaux cs) = filter (fun x => 0 <? x) (map ia its).
  Proof.
    assert (E : forall l, concat (map gaux l) = filter (fun x => 0 <? x) (map ia (concat l))).
    { induction l as [|g l IH]; cbn [map concat]; auto. rewrite IH, map_app, filter_app. reflexivity. }
    rewrite E. unfold cs. now rewrite concat_crows.
  Qed.
  Lemma gsc_all : zsum (map gsc cs) = zsum (map is_ its).
  Proof.
    assert (E : forall l, zsum (map gsc l) = zsum (map is_ (concat l))).
    { induction l as [|g l IH]; cbn [map concat zsum]; auto. rewrite IH, map_app, zsum_app. reflexivity. }
    rewrite E. unfold cs. now rewrite concat_crows.
  Qed.
  Lemma wsl_relates x y s : relates_l (with_self_loops its) x y s <->
    x = filter (fun l => 0 <? l) (map il its) /\ y = filter (fun l => 0 <? l) (map ia its) /\ s = zsum (map is_ its).
  Proof.
    unfold relates_l. rewrite zlen_wsl. replace (n + 1 - 1) with n by lia. fold T.
    assert (F : forall p, tpath T 0 p n -> strip (ilabels p) = plab its ++ [-1] /\ concat (map snd p) = filter (fun l => 0 <? l) (map ia its) /\ tscore p = zsum (map is_ its)).
    { intros p Hp. pose proof (zlen_nonneg cs). destruct (wsl_fwd p 0 ltac:(unfold n; lia) Hp) as (I1 & I2 & I3).
      change (Z.to_nat 0) with 0%nat in *. cbn [skipn] in *. rewrite gaux_all in I2. rewrite gsc_all in I3. unfold cs in I1. rewrite crows_labels in I1 by auto. auto. }
    split.
    - intros (p & H1 & H2 & H3 & H4). destruct (F p H1) as (I1 & I2 & I3). rewrite I1 in H2. apply app_tail_inv in H2. subst. auto.
    - intros (-> & -> & ->). destruct (wsl_path (Z.to_nat n) 0) as (p & Hp); [lia|unfold n; pose proof (zlen_nonneg cs); lia|].
      destruct (F p Hp) as (I1 & I2 & I3). exists p. auto.
  Qed.
End SLang.
