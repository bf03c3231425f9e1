(** * IntersectDevice: one iteration, and the loop *)
From Coq Require Import ZArith List Lia Bool Permutation.
From Coq Require Import ZifyBool.
From Verif Require Import Base RaggedModel RaggedSpec RaggedProofs FsaSpec FsaLemmas ConnectProofs PropsModel PropsSpec IDevModel IDevCore.
From Verif Require EpsLoopProofs IDenseInit IDenseOut ExtractProofs GraphProofs.
Import ListNotations.
Open Scope Z_scope.

(** ** The hash *)
Definition Kf (keys : list (option (Z * Z * Z))) (i : Z) : option Z :=
  match rd keys i with Some (Some (_, _, k)) => Some k | _ => None end.
Lemma hfind_hset h key v key' : hfind (hset h key v) key' = if key =? key' then Some v else hfind h key'.
Proof. reflexivity. Qed.
Lemma insert_all_ok keys : forall sched h won, (forall i, In i sched -> 0 <= i < zlen keys) -> exists new h',
  insert_all keys sched h won = Some (h', new ++ won) /\
  (forall i, In i new -> In i sched /\ exists key, Kf keys i = Some key /\ hfind h key = None) /\
  (forall i j, In i new -> In j new -> Kf keys i = Kf keys j -> i = j) /\
  (forall key v, hfind h key = Some v -> hfind h' key = Some v) /\
  (forall key, hfind h' key <> None -> hfind h key <> None \/ exists i, In i new /\ Kf keys i = Some key) /\
  (forall i key, In i sched -> Kf keys i = Some key -> hfind h' key <> None).
Proof.
  induction sched as [|i t IH]; intros h won HB.
  - exists [], h. split; [reflexivity|]. split; [intros i []|]. split; [intros i j []|]. split; auto.
  - destruct (rd_in_bound keys i (HB i (or_introl eq_refl))) as (k & Hk). cbn [insert_all]. rewrite Hk.
    assert (HB' : forall j, In j t -> 0 <= j < zlen keys) by (intros; apply HB; now right).
    assert (SKIP : forall h', (forall j key, In j t -> Kf keys j = Some key -> hfind h' key <> None) -> (forall key, Kf keys i = Some key -> hfind h' key <> None) -> forall j key, In j (i :: t) -> Kf keys j = Some key -> hfind h' key <> None).
    { intros h' H1 H2 j key [<-|Hj]; auto. eapply H1; eauto. }
    destruct k as [((a1 & b1) & key)|].
    + assert (KI : Kf keys i = Some key) by (unfold Kf; now rewrite Hk). destruct (hfind h key) as [v|] eqn:EH.
      * destruct (IH h won HB') as (new & h' & E & N1 & N2 & N3 & N4 & N5). exists new, h'. split; auto. split; [intros j Hj; destruct (N1 j Hj); split; auto; now right|]. split; auto. split; auto. split; auto. apply SKIP; auto. intros key' Ek. assert (key' = key) by congruence. subst. rewrite (N3 _ _ EH). discriminate.
      * destruct (IH (hset h key i) (i :: won) HB') as (new & h' & E & N1 & N2 & N3 & N4 & N5). exists (new ++ [i]), h'. split; [rewrite <- app_assoc; exact E|].
        assert (NK : forall j, In j new -> Kf keys j <> Some key). { intros j Hj Ej. destruct (N1 j Hj) as (_ & key' & E1 & E2). assert (key' = key) by congruence. subst. rewrite hfind_hset, Z.eqb_refl in E2. discriminate. }
        split; [|split; [|split; [|split]]].
        -- intros j Hj. apply in_app_iff in Hj as [Hj|[<-|[]]]; [|split; [now left|eauto]]. destruct (N1 j Hj) as (A & key' & B & C). split; [now right|]. exists key'. split; auto. rewrite hfind_hset in C. destruct (key =? key'); [discriminate|auto].
        -- intros j j' Hj Hj' Ej. apply in_app_iff in Hj as [Hj|[<-|[]]]; apply in_app_iff in Hj' as [Hj'|[<-|[]]]; auto; exfalso; [apply (NK j Hj); congruence|apply (NK j' Hj'); congruence].
        -- intros key' v Hv. apply N3. rewrite hfind_hset. destruct (key =? key') eqn:Ek; auto. assert (key = key') by lia. subst. congruence.
        -- intros key' Hn. destruct (N4 key' Hn) as [A|(j & A & B)]; [|right; exists j; split; auto; apply in_app_iff; now left]. rewrite hfind_hset in A. destruct (key =? key') eqn:Ek; auto. right. exists i. split; [apply in_app_iff; right; now left|]. rewrite KI. f_equal. lia.
        -- apply SKIP; auto. intros key' Ek. assert (key' = key) by congruence. subst. rewrite (N3 key i); [discriminate|]. now rewrite hfind_hset, Z.eqb_refl.
    + destruct (IH h won HB') as (new & h' & E & N1 & N2 & N3 & N4 & N5). exists new, h'. split; auto. split; [intros j Hj; destruct (N1 j Hj); split; auto; now right|]. split; auto. split; auto. split; auto. apply SKIP; auto. intros key' Ek. unfold Kf in Ek. rewrite Hk in Ek. discriminate.
Qed.
Lemma fold_hset {Y} (L : list (Z * (Z * Y))) : forall h key, NoDup (map (fun x => fst (snd x)) L) -> forall v,
  hfind (fold_left (fun h x => hset h (fst (snd x)) (fst x)) L h) key = Some v <->
  (exists y, In (v, (key, y)) L) \/ (~ In key (map (fun x => fst (snd x)) L) /\ hfind h key = Some v).
Proof.
  induction L as [|(w & (k & z)) L IH]; intros h key ND v.
  - cbn. split; [intros H; right; auto|]. intros [(y & [])|(_ & H)]; auto.
  - cbn [map fst snd] in ND. apply NoDup_cons_iff in ND as (ND1 & ND2). cbn [fold_left fst snd map]. rewrite (IH _ key ND2 v). rewrite hfind_hset. split.
    + intros [(y & Hy)|(H1 & H2)]; [left; exists y; now right|]. destruct (k =? key) eqn:E; [left; exists z; left; assert (k = key) by lia; congruence|]. right. split; auto. intros [X|X]; [lia|auto].
    + intros [(y & [X|Hy])|(H1 & H2)].
      * injection X as -> -> ->. right. split; auto. now rewrite Z.eqb_refl.
      * left. eauto.
      * right. split; [intros X; apply H1; now right|]. destruct (k =? key) eqn:E; auto. exfalso. apply H1. left. lia.
Qed.

Lemma ids_from_app {A} (x y : list (list A)) : forall r, ids_from r (x ++ y) = ids_from r x ++ ids_from (r + zlen x) y.
Proof. induction x as [|l x IH]; intros r; cbn [app ids_from]; [change (zlen (@nil (list A))) with 0; now rewrite Z.add_0_r|]. rewrite IH, <- app_assoc, zlen_cons. do 2 f_equal. f_equal. lia. Qed.
Lemma ids_from_tags {A} (h : A -> Z) (ll : list (list A)) : forall r, (forall i l y, rd ll i = Some l -> In y l -> h y = r + i) -> map h (concat ll) = ids_from r ll.
Proof.
  induction ll as [|l ll IH]; intros r H; [reflexivity|]. cbn [concat ids_from]. rewrite map_app. f_equal.
  - assert (F : forall y, In y l -> h y = r) by (intros y Hy; rewrite (H 0 l y); [lia|apply rd_cons_0|auto]). clear -F. induction l as [|y l IH]; [reflexivity|]. cbn. rewrite F by now left. f_equal. apply IH. intros; apply F; now right.
  - apply IH. intros i l' y Hi Hy. pose proof (rd_Some_bound _ _ _ Hi). rewrite (H (i + 1) l' y); [lia|rewrite rd_cons_S by lia; auto|auto].
Qed.

Lemma zsum_firstn_mono (K : list bool) : forall p q, (p <= q)%nat -> zsum (map b2z (firstn p K)) <= zsum (map b2z (firstn q K)).
Proof.
  induction K as [|b K IH]; intros p q H; [rewrite !firstn_nil; lia|]. destruct p, q; try lia.
  - change (zsum (map b2z (firstn 0 (b :: K)))) with 0. clear. generalize (firstn (S q) (b :: K)). intros l. induction l as [|c l IH]; [cbn; lia|]. cbn [map]. change (zsum (b2z c :: map b2z l)) with (b2z c + zsum (map b2z l)). destruct c; cbn [b2z]; lia.
  - cbn [firstn map]. change (zsum (b2z b :: map b2z (firstn p K))) with (b2z b + zsum (map b2z (firstn p K))). change (zsum (b2z b :: map b2z (firstn q K))) with (b2z b + zsum (map b2z (firstn q K))). specialize (IH p q ltac:(lia)). lia.
Qed.

Section G.
Variables (al bl : list nfsa) (m : list Z).
Hypothesis HA : forall a, In a al -> a = [] \/ valid a.
Hypothesis HB : forall b, In b bl -> b = [] \/ valid b.
Hypothesis Hm1 : zlen m = zlen bl.
Hypothesis Hm2 : forall i, In i m -> 0 <= i < zlen al.
Variable ord : Z -> list Z.
Hypothesis Ho : forall n, is_sched n (ord n).
Let va := flat_vec al.
Let vb := flat_vec bl.
Notation anyT := (any al bl m).
Notation okT := (okT al bl m).
Notation enT := (enT al bl m).
Notation ea := (ea al m).
Notation eb := (eb bl).
Notation keyT := (keyT bl).
Notation Mt := (Mt al bl m).
Notation good_c := (good_c al bl m).
Notation row_ok := (row_ok al bl m).
Notation cs_ok := (cs_ok al bl m).

Definition PK (T : tr) (p : list (Z * Z)) : Prop := NoDup p /\ forall ai bi, In (ai, bi) p <-> exists x y, Mt T ai bi x y.
Definition sortedT (b : list tr) : Prop := forall i j x y, i <= j -> rd b i = Some x -> rd b j = Some y -> tk x <= tk y.

Lemma row_PK T id l : row_ok T id l -> PK T (map (fun c => (c_a c, c_b c)) (filter c_keep l)).
Proof.
  clear. intros ((N & _) & G & C). split.
  - apply NoDup_filter_map; auto. intros c c' Hc Hc' K K' E. destruct (G c Hc) as (S & _). destruct (G c' Hc') as (S' & _). destruct c, c'; cbn in *. injection E as -> ->. congruence.
  - intros ai bi. split.
    + intros H. apply in_map_iff in H as (c & E & Hc). apply filter_In in Hc as (Hc & K). destruct (G c Hc) as (_ & ja & jb & x & y & H1 & H2 & H3 & H4 & H5). injection E as <- <-. exists x, y, ja, jb. repeat split; auto. rewrite K in H5. lia.
    + intros (x & y & H). apply in_map_iff. exists (mkCand id ai bi true). split; auto. apply filter_In. split; auto. eapply C; eauto.
Qed.

(** the new states are in the order of the arcs that make them: number of the state,
    arc of [a], arc of [b] *)
Definition earlier (w w' : Z * (Z * Z)) : Prop := fst w < fst w' \/ (fst w = fst w' /\ (fst (snd w) < fst (snd w') \/ snd (snd w) < snd (snd w'))).
Definition in_order (ws : list (Z * (Z * Z))) : Prop := forall i j w w', i < j -> rd ws i = Some w -> rd ws j = Some w' -> earlier w w'.
Definition made_by (states : list tr) (w : Z * (Z * Z)) (T' : tr) : Prop :=
  exists T x y, rd states (fst w) = Some T /\ Mt T (fst (snd w)) (snd (snd w)) x y /\ lab x <> -1 /\ T' = dT T x y.
Lemma one_iter_ok sorted pre cur d cs : (forall T, In T cur -> anyT T) -> sortedT cur -> d_states d = map enT (pre ++ cur) -> cs_ok (zlen pre) cur cs ->
  exists d' new pln, one_iter ord sorted va vb (ids_of bl) m (zlen pre + zlen cur) d cs = Some d' /\
    d_states d' = d_states d ++ map enT new /\ d_iters d' = d_iters d ++ [zlen pre + zlen cur + zlen new] /\
    d_arcs d' = d_arcs d ++ concat pln /\ d_rows d' = d_rows d ++ ids_from (zlen pre) pln /\ zlen pln = zlen cur /\
    (forall i T p, rd cur i = Some T -> rd pln i = Some p -> PK T p) /\ sortedT new /\
    (forall T', In T' new -> okT T' /\ hfind (d_hash d) (keyT T') = None /\ exists T ai bi x y, In T cur /\ Mt T ai bi x y /\ lab x <> -1 /\ T' = dT T x y) /\
    (forall key v, hfind (d_hash d') key = Some v <-> (exists i T, rd new i = Some T /\ v = zlen pre + zlen cur + i /\ key = keyT T) \/ hfind (d_hash d) key = Some v) /\
    (forall T ai bi x y, In T cur -> Mt T ai bi x y -> lab x <> -1 -> exists v, hfind (d_hash d') (keyT (dT T x y)) = Some v) /\
    exists ws, in_order ws /\ zlen ws = zlen new /\ forall i w T', rd ws i = Some w -> rd new i = Some T' -> made_by cur w T'.
Proof.
  intros AC SC DS (PP & EC & ZP & RP). set (sb := zlen pre) in *. set (se := sb + zlen cur).
  set (dm := T3 0 0 0). set (dar := mkArc 0 0 0 0).
  set (cT := fun c => match rd cur (c_st c - sb) with Some T => T | None => dm end).
  set (xA := fun c => match rd (v_arcs va) (c_a c) with Some x => x | None => dar end).
  set (yB := fun c => match rd (v_arcs vb) (c_b c) with Some x => x | None => dar end).
  set (dC := fun c => dT (cT c) (xA c) (yB c)).
  assert (CI : forall c, In c cs -> rd cur (c_st c - sb) = Some (cT c) /\ anyT (cT c) /\ exists ja jb, rd (la al m (cT c)) ja = Some (xA c) /\ rd (lb bl (cT c)) jb = Some (yB c) /\
     c_a c = a0 al m (cT c) + ja /\ c_b c = b0 bl (cT c) + jb /\ c_keep c = (lab (xA c) =? lab (yB c)) /\ rd (v_arcs va) (c_a c) = Some (xA c) /\ rd (v_arcs vb) (c_b c) = Some (yB c)).
  { intros c Hc. rewrite EC in Hc. apply in_concat in Hc as (l & Hl & Hc). apply In_rd in Hl as (i & Bi & Hl). destruct (rd_in_bound cur i ltac:(lia)) as (T & HT). destruct (RP i T l HT Hl) as (_ & G & _). destruct (G c Hc) as (S & ja & jb & x & y & H1 & H2 & H3 & H4 & H5).
    assert (ET : cT c = T) by (unfold cT; rewrite S; replace (sb + i - sb) with i by lia; now rewrite HT). pose proof (AC T (rd_In _ _ _ HT)) as AT.
    destruct (geoA al bl m Hm1 Hm2 T AT) as (_ & _ & _ & _ & _ & _ & GA). destruct (geoB al bl m Hm1 Hm2 T AT) as (_ & _ & _ & _ & _ & _ & _ & GB). destruct (GA _ _ H1) as (GA1 & _). destruct (GB _ _ H2) as (GB1 & _). rewrite <- H3 in GA1. rewrite <- H4 in GB1.
    assert (EX : xA c = x) by (unfold xA, va; now rewrite GA1). assert (EY : yB c = y) by (unfold yB, vb; now rewrite GB1). rewrite ET, EX, EY. split; [rewrite S; replace (sb + i - sb) with i by lia; auto|]. split; auto. exists ja, jb. repeat split; auto. }
  assert (EB : forall c, In c cs -> dst (yB c) + eb (cT c) - src (yB c) = eb (dC c)).
  { intros c Hc. destruct (CI c Hc) as (_ & AT & ja & jb & H1 & H2 & _). rewrite (srcB al bl m HB Hm1 Hm2 _ _ _ AT H2). unfold dC, dT, IDevCore.eb. cbn [tk tb]. lia. }
  assert (ST : forall c, In c cs -> rd (d_states d) (c_st c) = Some (ea (cT c), eb (cT c))).
  { intros c Hc. destruct (CI c Hc) as (H & _). pose proof (rd_Some_bound _ _ _ H). rewrite DS, rd_map, rd_app_r by lia. fold sb. now rewrite H. }
  set (isn := fun c => c_keep c && negb (lab (xA c) =? -1)).
  set (kf := fun c => if isn c then Some (dst (xA c), eb (dC c), keyT (dC c)) else None).
  assert (EK : mapM (dest_key va vb (d_states d)) cs = Some (map kf cs)).
  { apply mapM_Some_map. intros c Hc. destruct (CI c Hc) as (_ & _ & ja & jb & _ & _ & _ & _ & _ & H1 & H2). unfold dest_key. rewrite H1, H2. unfold kf, isn. destruct (c_keep c && negb (lab (xA c) =? -1)); auto. rewrite (ST c Hc). cbn [snd]. rewrite (EB c Hc). reflexivity. }
  unfold one_iter. rewrite EK. cbv zeta.
  destruct (insert_all_ok (map kf cs) (ord (zlen cs)) (d_hash d) []) as (won & h & EI & W1 & W2 & W3 & W4 & W5).
  { intros i Hi. rewrite zlen_map. now apply (in_sched (zlen cs)) in Hi. }
  rewrite EI, app_nil_r. rewrite new2old_kept by (rewrite zlen_map; apply Ho). pose proof (zlen_nonneg cs) as Z0.
  rewrite new2old_kept by (rewrite zlen_map, zlen_zrange by auto; apply Ho). rewrite ExtractProofs.kept_from_zrange by auto.
  set (W := filter (fun i => existsb (Z.eqb i) won) (zrange (zlen cs))).
  assert (IW : forall i, In i W <-> In i won).
  { intros i. unfold W. rewrite filter_In, existsb_exists, in_zrange. split; [intros (_ & j & Hj & E); now replace i with j by lia|]. intros Hi. split; [apply (in_sched (zlen cs) (ord (zlen cs))); [apply Ho|apply (W1 i Hi)]|]. exists i. split; auto. apply Z.eqb_refl. }
  assert (KI : forall i c, rd cs i = Some c -> Kf (map kf cs) i = if isn c then Some (keyT (dC c)) else None).
  { intros i c Hi. unfold Kf. rewrite rd_map, Hi. cbn [option_map]. unfold kf. destruct (isn c); auto. }
  set (cd := mkCand 0 0 0 false). set (cw := fun i => match rd cs i with Some c => c | None => cd end).
  assert (CW : forall i, In i W -> rd cs i = Some (cw i) /\ isn (cw i) = true /\ In (cw i) cs /\ hfind (d_hash d) (keyT (dC (cw i))) = None /\ Kf (map kf cs) i = Some (keyT (dC (cw i)))).
  { intros i Hi. apply IW in Hi. destruct (W1 i Hi) as (Hs & key & E1 & E2). apply (in_sched (zlen cs)) in Hs; [|apply Ho]. destruct (rd_in_bound cs i Hs) as (c & Hc). unfold cw. rewrite Hc. pose proof (KI i c Hc) as Ki. rewrite E1 in Ki. destruct (isn c) eqn:En; [|discriminate]. injection Ki as ->. rewrite E1. repeat split; auto. eapply rd_In; eauto. }
  set (new := map (fun i => dC (cw i)) W).
  assert (ND : okT dm \/ True) by auto.
  assert (OKN : forall c, In c cs -> isn c = true -> okT (dC c) /\ exists ai bi, In (cT c) cur /\ Mt (cT c) ai bi (xA c) (yB c) /\ lab (xA c) <> -1).
  { intros c Hc Hn. destruct (CI c Hc) as (Hr & AT & ja & jb & H1 & H2 & H3 & H4 & H5 & _). unfold isn in Hn. apply andb_prop in Hn as (K & L). assert (M : Mt (cT c) (c_a c) (c_b c) (xA c) (yB c)) by (exists ja, jb; repeat split; auto; rewrite K in H5; lia).
    assert (lab (xA c) <> -1) by (intros X; rewrite X in L; discriminate). split; [eapply dT_ok; eauto|]. exists (c_a c), (c_b c). split; [eapply rd_In; eauto|auto]. }
  match goal with |- context [mapM ?f W] => replace (mapM f W) with (Some (map (fun i => (keyT (dC (cw i)), enT (dC (cw i)))) W)) end.
  2:{ symmetry. apply mapM_Some_map. intros i Hi. destruct (CW i Hi) as (Hc & Hn & Hin & E1 & E2). rewrite Hc, rd_map, Hc. cbn [option_map]. unfold kf. rewrite Hn. set (c := cw i) in *.
      assert (HF : hfind h (keyT (dC c)) <> None) by (apply (W5 i); auto; apply W1; now apply IW). destruct (hfind h (keyT (dC c))) as [v|]; [|contradiction].
      destruct (OKN c Hin Hn) as (OK & _). destruct (CI c Hin) as (_ & AT & ja & jb & H1 & H2 & _ & _ & _ & H3 & _). destruct (geoB al bl m Hm1 Hm2 _ (ok_any _ _ _ _ OK)) as (_ & _ & G1 & G2 & _). destruct (geoA al bl m Hm1 Hm2 _ (ok_any _ _ _ _ OK)) as (_ & _ & G3 & _).
      destruct sorted.
      - rewrite (ST c Hin), H3. cbn [fst]. rewrite (srcA al bl m HA Hm1 Hm2 _ _ _ AT H1). f_equal. f_equal. unfold IDevCore.enT. f_equal.
        + unfold dC, dT, IDevCore.ea. cbn [tk ta]. lia.
        + unfold IDevCore.keyT. rewrite Z.add_comm, Z.mod_add; [apply Z.mod_small; split; [lia|now apply multiple_gt]|]. pose proof (multiple_gt bl _ G2). fold vb in H. lia.
      - rewrite G1. destruct (pair_k al bl m Hm1 Hm2 _ (proj1 OK)) as (E & _). rewrite E. unfold va. rewrite G3. f_equal. f_equal. unfold IDevCore.enT. f_equal. unfold dC at 2, dT. cbn [ta]. lia. }
  rewrite (IDenseOut.kept_mapM c_keep (fun c => c)).
  2:{ intros i y Hy _. rewrite Z.add_0_l. exact Hy. }
  rewrite map_id. eexists. exists new, (map (fun l => map (fun c => (c_a c, c_b c)) (filter c_keep l)) PP). split; [reflexivity|]. cbn [d_states d_iters d_arcs d_rows d_hash].
  assert (EF : filter c_keep cs = concat (map (filter c_keep) PP)) by (rewrite EC; apply IDenseOut.filter_concat).
  split; [unfold new; rewrite !map_map; reflexivity|]. split; [unfold new; rewrite !zlen_map; reflexivity|].
  split; [rewrite EF, concat_map, map_map; reflexivity|]. split.
  { f_equal. rewrite EF. transitivity (ids_from sb (map (filter c_keep) PP)).
    - apply ids_from_tags. intros i l y Hl Hy. rewrite rd_map in Hl. destruct (rd PP i) as [l'|] eqn:El; [|discriminate]. injection Hl as <-. apply filter_In in Hy as (Hy & _). destruct (rd_in_bound cur i) as (T & HT); [apply rd_Some_bound in El; lia|]. destruct (RP i T l' HT El) as (_ & G & _). apply (G y Hy).
    - rewrite <- (map_map (filter c_keep) (map (fun c => (c_a c, c_b c)))). symmetry. apply EpsLoopProofs.ids_from_map2. }
  split; [rewrite zlen_map; auto|]. split.
  { intros i T p HT Hp. rewrite rd_map in Hp. destruct (rd PP i) as [l|] eqn:El; [|discriminate]. injection Hp as <-. eapply row_PK; eauto. }
  split.
  { intros i j x y Hij Hx Hy. unfold new in Hx, Hy. rewrite rd_map in Hx, Hy. destruct (rd W i) as [u|] eqn:Eu; [|discriminate]. destruct (rd W j) as [v|] eqn:Ev; [|discriminate]. cbn in Hx, Hy. injection Hx as <-. injection Hy as <-.
    assert (UV : u <= v).
    { destruct (Z.eq_dec i j) as [->|]; [assert (u = v) by congruence; lia|]. assert (u < v); [|lia]. unfold W in Eu, Ev. rewrite <- ExtractProofs.kept_from_zrange in Eu, Ev by auto.
      destruct (rd_kept_from_inv _ _ _ _ Eu) as (u' & -> & U1 & U2). destruct (rd_kept_from_inv _ _ _ _ Ev) as (v' & -> & V1 & V2).
      destruct (Z_lt_le_dec u' v') as [|L]; [lia|]. exfalso. assert (j <= i); [|lia]. rewrite <- U2, <- V2. clear -L U1 V1. set (K := map _ _) in *. pose proof (rd_Some_bound _ _ _ V1).
      apply zsum_firstn_mono. lia. }
    destruct (CW u (rd_In _ _ _ Eu)) as (Cu & _ & Iu & _). destruct (CW v (rd_In _ _ _ Ev)) as (Cv & _ & Iv & _). unfold dC, dT. cbn [tk].
    destruct (CI _ Iu) as (Ru & _). destruct (CI _ Iv) as (Rv & _). apply (SC (c_st (cw u) - sb) (c_st (cw v) - sb)); auto.
    rewrite EC in Cu, Cv. apply rd_concat_inv in Cu as (r & l & q & A1 & A2 & A3 & _). apply rd_concat_inv in Cv as (r' & l' & q' & B1 & B2 & B3 & _).
    destruct (rd_in_bound cur r) as (T & HT); [apply rd_Some_bound in A1; lia|]. destruct (rd_in_bound cur r') as (T' & HT'); [apply rd_Some_bound in B1; lia|].
    destruct (RP r T l HT A1) as (_ & G & _). destruct (RP r' T' l' HT' B1) as (_ & G' & _). rewrite (proj1 (G _ (rd_In _ _ _ A2))), (proj1 (G' _ (rd_In _ _ _ B2))).
    destruct (Z_le_gt_dec r r') as [|L]; [lia|]. exfalso. pose proof (off1_next PP r' l' B1). pose proof (off1_mono PP (r' + 1) r ltac:(lia)). pose proof (rd_Some_bound _ _ _ B2). pose proof (rd_Some_bound _ _ _ A2). lia. }
  split.
  { intros T' HT'. unfold new in HT'. apply in_map_iff in HT' as (i & <- & Hi). destruct (CW i Hi) as (_ & Hn & Hin & E1 & _). destruct (OKN _ Hin Hn) as (OK & ai & bi & X1 & X2 & X3). split; auto. split; auto. exists (cT (cw i)), ai, bi, (xA (cw i)), (yB (cw i)). auto. }
  set (L := imap (fun i x => (se + i, x)) 0 (map (fun i => (keyT (dC (cw i)), enT (dC (cw i)))) W)).
  assert (KL : map (fun x : Z * (Z * (Z * Z)) => fst (snd x)) L = map (fun i => keyT (dC (cw i))) W).
  { unfold L. rewrite map_imap. cbn [fst snd]. rewrite imap_const, map_map. reflexivity. }
  assert (NDL : NoDup (map (fun x : Z * (Z * (Z * Z)) => fst (snd x)) L)).
  { rewrite KL. assert (NW : NoDup W) by (apply NoDup_filter, NoDup_zrange). assert (G : forall i j, In i W -> In j W -> keyT (dC (cw i)) = keyT (dC (cw j)) -> i = j).
    { intros i j Hi Hj E. destruct (CW i Hi) as (_ & _ & _ & _ & Ki). destruct (CW j Hj) as (_ & _ & _ & _ & Kj). apply W2; [now apply IW|now apply IW|congruence]. }
    clear -NW G. induction NW as [|i l Hi N IH]; cbn [map]; constructor; [|apply IH; intros; apply G; auto; now right]. intros X. apply in_map_iff in X as (j & E & Hj). apply Hi. replace i with j; auto. apply G; auto; [now right|now left]. }
  assert (IL : forall v key y, In (v, (key, y)) L <-> exists i j, rd W i = Some j /\ v = se + i /\ key = keyT (dC (cw j)) /\ y = enT (dC (cw j))).
  { intros v key y. unfold L. split.
    - intros H. apply In_rd in H as (i & _ & H). rewrite rd_imap, rd_map in H. destruct (rd W i) as [j|] eqn:E; [|discriminate]. cbn in H. injection H as <- <- <-. exists i, j. auto.
    - intros (i & j & H & -> & -> & ->). apply (rd_In _ i). rewrite rd_imap, rd_map, H. reflexivity. }
  assert (FH : forall key v, hfind (fold_left (fun h x => hset h (fst (snd x)) (fst x)) L h) key = Some v <-> (exists i T, rd new i = Some T /\ v = se + i /\ key = keyT T) \/ hfind (d_hash d) key = Some v).
  { intros key v. rewrite (fold_hset L h key NDL v). split.
    - intros [(y & Hy)|(H1 & H2)].
      + apply IL in Hy as (i & j & E1 & E2 & E3 & _). left. exists i, (dC (cw j)). repeat split; auto. unfold new. now rewrite rd_map, E1.
      + right. destruct (W4 key) as [X|(i & I1 & I2)]; [congruence|destruct (hfind (d_hash d) key) as [v'|] eqn:Ev; [|contradiction]; rewrite (W3 _ _ Ev) in H2; congruence|].
        exfalso. apply H1. rewrite KL. apply in_map_iff. exists i. assert (In i W) by now apply IW. split; auto. destruct (CW i H) as (_ & _ & _ & _ & Ki). congruence.
    - intros [(i & T & E1 & E2 & E3)|H].
      + unfold new in E1. rewrite rd_map in E1. destruct (rd W i) as [j|] eqn:Ej; [|discriminate]. cbn in E1. injection E1 as <-. left. exists (enT (dC (cw j))). apply IL. exists i, j. auto.
      + right. split; [|now apply W3]. intros X. rewrite KL in X. apply in_map_iff in X as (i & E & Hi). destruct (CW i Hi) as (_ & _ & _ & Hf & _). congruence. }
  split; [exact FH|]. split.
  2:{ exists (map (fun i => (c_st (cw i) - sb, (c_a (cw i), c_b (cw i)))) W). split; [|split; [unfold new; now rewrite !zlen_map|]].
      - intros i j w w' Hij Hw Hw'. rewrite rd_map in Hw, Hw'. destruct (rd W i) as [u|] eqn:Eu; [|discriminate]. destruct (rd W j) as [v|] eqn:Ev; [|discriminate]. cbn in Hw, Hw'. injection Hw as <-. injection Hw' as <-.
        assert (UV : u < v).
        { pose proof Eu as Eu'. pose proof Ev as Ev'. unfold W in Eu', Ev'. rewrite <- ExtractProofs.kept_from_zrange in Eu', Ev' by auto.
          destruct (rd_kept_from_inv _ _ _ _ Eu') as (u' & -> & U1 & U2). destruct (rd_kept_from_inv _ _ _ _ Ev') as (v' & -> & V1 & V2).
          destruct (Z_lt_le_dec u' v') as [|Lt]; [lia|]. exfalso. assert (j <= i); [|lia]. rewrite <- U2, <- V2. clear -Lt U1 V1. set (K := map _ _) in *. pose proof (rd_Some_bound _ _ _ V1).
          apply zsum_firstn_mono. lia. }
        destruct (CW u (rd_In _ _ _ Eu)) as (Cu & _ & Iu & _). destruct (CW v (rd_In _ _ _ Ev)) as (Cv & _ & Iv & _).
        rewrite EC in Cu, Cv. apply rd_concat_inv in Cu as (r & l & q & A1 & A2 & A3 & _). apply rd_concat_inv in Cv as (r' & l' & q' & B1 & B2 & B3 & _).
        destruct (rd_in_bound cur r) as (T & HT); [apply rd_Some_bound in A1; lia|]. destruct (rd_in_bound cur r') as (T' & HT'); [apply rd_Some_bound in B1; lia|].
        destruct (RP r T l HT A1) as ((_ & O) & G & _). destruct (RP r' T' l' HT' B1) as (_ & G' & _). unfold earlier. cbn [fst snd]. rewrite (proj1 (G _ (rd_In _ _ _ A2))), (proj1 (G' _ (rd_In _ _ _ B2))).
        pose proof (rd_Some_bound _ _ _ B2). pose proof (rd_Some_bound _ _ _ A2).
        assert (r <= r'). { destruct (Z_le_gt_dec r r') as [|Lt]; [lia|]. exfalso. pose proof (off1_next PP r' l' B1). pose proof (off1_mono PP (r' + 1) r ltac:(lia)). lia. }
        destruct (Z.eq_dec r r') as [->|]; [right|left; lia]. split; [lia|]. assert (l' = l) as -> by congruence. apply (O q q'); auto. lia.
      - intros i w T' Hw HT'. unfold new in HT'. rewrite rd_map in Hw. rewrite rd_map in HT'. destruct (rd W i) as [u|] eqn:Eu; [|discriminate]. cbn in Hw, HT'. injection Hw as <-. injection HT' as <-.
        destruct (CW u (rd_In _ _ _ Eu)) as (_ & Hn & Hin & _). destruct (CI _ Hin) as (Hr & AT & ja & jb & H1 & H2 & H3 & H4 & H5 & _). unfold isn in Hn. apply andb_prop in Hn as (K & Lb).
        exists (cT (cw u)), (xA (cw u)), (yB (cw u)). cbn [fst snd]. split; [exact Hr|]. split; [exists ja, jb; repeat split; auto; rewrite K in H5; lia|]. split; [intros X; rewrite X in Lb; discriminate|reflexivity]. }
  intros T ai bi x y HT HM HL. apply In_rd in HT as (i & Bi & HT). destruct (rd_in_bound PP i ltac:(lia)) as (l & Hl). destruct (RP i T l HT Hl) as (_ & G & C). pose proof (C _ _ _ _ HM) as Hc. set (c := mkCand (sb + i) ai bi true) in *.
  assert (Hcs : In c cs) by (rewrite EC; apply in_concat; exists l; split; auto; eapply rd_In; eauto). destruct (CI c Hcs) as (Hr & _ & _). cbn [c c_st] in Hr. replace (sb + i - sb) with i in Hr by lia.
  assert (ET : cT c = T) by congruence. pose proof (AC T (rd_In _ _ _ HT)) as AT. destruct HM as (ja & jb & H1 & H2 & -> & -> & E).
  destruct (geoA al bl m Hm1 Hm2 T AT) as (_ & _ & _ & _ & _ & _ & GA). destruct (geoB al bl m Hm1 Hm2 T AT) as (_ & _ & _ & _ & _ & _ & _ & GB).
  assert (EX : xA c = x) by (unfold xA, c; cbn [c_a]; unfold va; now rewrite (proj1 (GA _ _ H1))). assert (EY : yB c = y) by (unfold yB, c; cbn [c_b]; unfold vb; now rewrite (proj1 (GB _ _ H2))).
  assert (ED : dC c = dT T x y) by (unfold dC; now rewrite ET, EX, EY). assert (IS : isn c = true) by (unfold isn, c; cbn [c_keep]; fold c; rewrite EX; cbn; lia).
  apply In_rd in Hcs as (p & Bp & Hp). assert (HF : hfind h (keyT (dC c)) <> None). { apply (W5 p); [|rewrite (KI p c Hp), IS; reflexivity]. apply (Permutation_in _ (Permutation_sym (Ho (zlen cs)))). now apply in_zrange. }
  rewrite <- ED. destruct (W4 _ HF) as [X|(q & Q1 & Q2)].
  - destruct (hfind (d_hash d) (keyT (dC c))) as [v|] eqn:Ev; [|contradiction]. exists v. apply FH. auto.
  - apply IW in Q1. destruct (CW q Q1) as (_ & _ & _ & _ & Kq). apply In_rd in Q1 as (r & Br & Q1). exists (se + r). apply FH. left. exists r, (dC (cw q)). split; [unfold new; now rewrite rd_map, Q1|]. split; auto. congruence.
Qed.
End G.
