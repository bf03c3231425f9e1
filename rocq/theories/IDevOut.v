(** * IntersectDevice: FormatOutput *)
From Coq Require Import ZArith List Lia Bool Permutation.
From Coq Require Import ZifyBool.
From Verif Require Import Base RaggedModel RaggedSpec RaggedProofs FsaSpec FsaLemmas ConnectProofs RaggedOpsModel RaggedOpsSpec RaggedOpsProofs OpsModel PropsModel PropsSpec IDenseModel IDevModel IDevCore IDevStep.
From Verif Require EpsLoopProofs IntersectProofs ExtractProofs IDenseInit IDenseOut TransposeProofs PathSums GraphProofs.
Import ListNotations.
Open Scope Z_scope.

Fixpoint enumb {X} (r : Z) (ll : list (list X)) : list (list (Z * X)) :=
  match ll with [] => [] | l :: t => imap (fun i x => (i, x)) r l :: enumb (r + zlen l) t end.
Lemma enumb_concat {X} (ll : list (list X)) : forall r, concat (enumb r ll) = imap (fun i x => (i, x)) r (concat ll).
Proof. induction ll as [|l ll IH]; intros r; [reflexivity|]. cbn [enumb concat]. rewrite IH, imap_app. reflexivity. Qed.
Lemma enumb_rd {X} (ll : list (list X)) : forall r i b, rd (enumb r ll) i = Some b -> exists l, rd ll i = Some l /\ map snd b = l /\ forall e, In e b -> rd (ids_of ll) (fst e - r) = Some i.
Proof.
  intros r i b H.
  assert (G : forall ll r i b, rd (enumb r ll) i = Some b -> exists l, rd ll i = Some l /\ b = imap (fun i (x : X) => (i, x)) (r + off1 ll i) l).
  { clear. induction ll as [|l ll IH]; intros r i b H; [cbn [enumb] in H; rewrite rd_nil in H; discriminate|]. pose proof (rd_Some_bound _ _ _ H) as Bd. cbn [enumb] in H. rewrite rd_cons in H. destruct (i =? 0) eqn:E.
    - assert (i = 0) by lia. subst. injection H as <-. exists l. split; [apply rd_cons_0|]. unfold off1. cbn. now rewrite Z.add_0_r.
    - destruct (IH _ _ _ H) as (l' & H1 & H2). exists l'. split; [rewrite rd_cons, E; auto|]. rewrite H2. f_equal. unfold off1. replace (Z.to_nat i) with (S (Z.to_nat (i - 1))) by lia. cbn [firstn concat]. rewrite zlen_app. lia. }
  destruct (G _ _ _ _ H) as (l & H1 & ->). exists l. split; auto. split; [rewrite map_imap; cbn; rewrite (imap_const (fun x => x)); apply map_id|].
  intros e He. apply In_rd in He as (j & Bj & He). rewrite rd_imap in He. destruct (rd l j) as [x|] eqn:Ex; [|discriminate]. injection He as <-. cbn [fst]. replace (r + off1 ll i + j - r) with (off1 ll i + j) by lia. apply (rd_concat_off ll i l j x); auto.
Qed.
Lemma zlen_enumb {X} (ll : list (list X)) : forall r, zlen (enumb r ll) = zlen ll.
Proof. induction ll as [|l ll IH]; intros r; [reflexivity|]. cbn [enumb]. rewrite !zlen_cons, IH. reflexivity. Qed.

(** Splitting a sorted list by its keys *)
Definition split_by {X} (key : X -> Z) (n : Z) (b : list X) : list (list X) := map (fun k => filter (fun e => key e =? k) b) (zrange n).
Lemma split_concat {X} (key : X -> Z) n b : (forall e, In e b -> 0 <= key e < n) -> (forall i j x y, i <= j -> rd b i = Some x -> rd b j = Some y -> key x <= key y) ->
  concat (split_by key n b) = b.
Proof.
  induction b as [|x b IH]; intros HB HS.
  - unfold split_by. cbn [filter]. induction (zrange n); cbn; auto.
  - assert (Bx : 0 <= key x < n) by (apply HB; now left).
    assert (Hx : forall y, In y b -> key x <= key y). { intros y Hy. apply In_rd in Hy as (j & Bj & Hy). apply (HS 0 (j + 1)); [lia|apply rd_cons_0|rewrite rd_cons_S by lia; auto]. }
    rewrite <- (IH (fun e He => HB e (or_intror He))) at 2.
    2:{ intros i j u v Hij Hu Hv. pose proof (rd_Some_bound _ _ _ Hu). pose proof (rd_Some_bound _ _ _ Hv). apply (HS (i + 1) (j + 1)); [lia| |]; rewrite rd_cons_S by lia; auto. }
    unfold split_by. clear IH HS.
    assert (SP : zrange n = zrange (key x) ++ key x :: map (fun i => key x + 1 + i) (zrange (n - key x - 1))).
    { apply list_ext_rd; [rewrite zlen_app, zlen_cons, zlen_map, !zlen_zrange by lia; lia|]. intros i Hi. rewrite zlen_zrange in Hi by lia. rewrite rd_zrange by lia. destruct (Z_lt_le_dec i (key x)); [rewrite rd_app_l by (rewrite zlen_zrange; lia); now rewrite rd_zrange by lia|].
      rewrite rd_app_r by (rewrite zlen_zrange; lia). rewrite zlen_zrange by lia. rewrite rd_cons. destruct (i - key x =? 0) eqn:E; [f_equal; lia|]. rewrite rd_map, rd_zrange by lia. cbn. f_equal. lia. }
    rewrite SP, !map_app, !concat_app.
    assert (Z1 : forall b', (forall y, In y b' -> key x <= key y) -> concat (map (fun k => filter (fun e => key e =? k) b') (zrange (key x))) = []).
    { intros b' Hb'. assert (G : forall l, (forall k, In k l -> k < key x) -> concat (map (fun k => filter (fun e => key e =? k) b') l) = []). { induction l as [|k l IHl]; intros Hl; [reflexivity|]. cbn [map concat]. rewrite IHl by (intros; apply Hl; now right). rewrite app_nil_r. apply IDenseInit.filter_none. intros y Hy. pose proof (Hb' y Hy). pose proof (Hl k (or_introl eq_refl)). lia. } apply G. intros k Hk. apply in_zrange in Hk. lia. }
    rewrite (Z1 b Hx). rewrite (Z1 (x :: b)) by (intros y [<-|Hy]; [lia|auto]). cbn [app map concat filter]. rewrite Z.eqb_refl. cbn [app]. f_equal. f_equal. f_equal. rewrite !map_map. apply map_ext_in. intros k Hk. apply in_zrange in Hk. cbn [filter]. replace (key x =? key x + 1 + k) with false by lia. reflexivity.
Qed.

Lemma mapM_idx {X} (L : list (Z * X)) el R : (forall j e, rd L j = Some e -> fst e = j) -> mapM (rd L) el = Some R -> el = map fst R.
Proof.
  intros HL. revert R. induction el as [|j el IH]; intros R H; cbn [mapM] in H; [injection H as <-; reflexivity|]. destruct (rd L j) as [e|] eqn:E; [|discriminate]. destruct (mapM (rd L) el) as [R'|] eqn:E'; [|discriminate]. injection H as <-. cbn [map]. rewrite (HL _ _ E). f_equal. now apply IH.
Qed.

(** [transposed] as an index *)
Lemma transposed_idx {A} (x : list (list (list A))) d n : 0 <= d -> n = zlen x -> 0 < n -> (forall row, In row x -> zlen row = d) ->
  let renum := map (fun i => (i mod n) * d + i / n) (zrange (n * d)) in
  map (pick (concat x)) renum = concat (TransposeProofs.transposed d x) /\ index_ok (concat x) renum.
Proof.
  intros Hd -> Hn HU. set (n := zlen x) in *. cbv zeta. set (y := TransposeProofs.transposed d x). assert (LY : zlen y = d) by (unfold y, TransposeProofs.transposed; rewrite zlen_tab; lia).
  assert (UY : forall row, In row y -> zlen row = n). { intros row Hr. unfold y, TransposeProofs.transposed, tab in Hr. apply in_map_iff in Hr as (k & <- & _). now rewrite zlen_map. }
  set (renum := map _ (zrange (n * d))). split.
  - apply list_ext_rd.
    + unfold renum. rewrite !zlen_map, zlen_zrange by nia. rewrite (TransposeProofs.zlen_uniform y n UY), LY. lia.
    + intros i Hi. unfold renum in *. rewrite !zlen_map, zlen_zrange in Hi by nia. rewrite !rd_map, rd_zrange by lia. cbn [option_map].
      assert (Bm : 0 <= i mod n < n) by (apply Z.mod_pos_bound; lia). pose proof (Z.div_mod i n ltac:(lia)) as DM.
      assert (Bk : 0 <= i / n < d). { split; [apply Z.div_pos; lia|]. apply Z.div_lt_upper_bound; lia. }
      destruct (rd_in_bound x (i mod n)) as (row & Hrow); [lia|]. unfold pick. rewrite (TransposeProofs.uniform_rd x d _ _ row HU Hrow) by lia.
      assert (OI : rd (concat y) i = rd (concat y) (i / n * n + i mod n)) by (f_equal; lia). rewrite OI.
      assert (HY : rd y (i / n) = Some (map (fun row => pick row (i / n)) x)) by (unfold y, TransposeProofs.transposed; now rewrite rd_tab by lia).
      rewrite (TransposeProofs.uniform_rd y n _ _ _ UY HY) by lia. rewrite rd_map, Hrow. cbn [option_map]. unfold pick. pose proof (HU row (rd_In _ _ _ Hrow)). destruct (rd_in_bound row (i / n) ltac:(lia)) as (c & ->). reflexivity.
  - apply Forall_forall. intros j Hj. unfold renum in Hj. apply in_map_iff in Hj as (i & <- & Hi). apply in_zrange in Hi.
    rewrite (TransposeProofs.zlen_uniform x d HU). fold n. assert (Bm : 0 <= i mod n < n) by (apply Z.mod_pos_bound; lia).
    assert (Bk : 0 <= i / n < d). { split; [apply Z.div_pos; lia|]. apply Z.div_lt_upper_bound; lia. } nia.
Qed.

Lemma arc_eq (x y : arc) : src x = src y -> dst x = dst y -> lab x = lab y -> sc x = sc y -> x = y.
Proof. destruct x, y. cbn. intros. subst. reflexivity. Qed.

Section G.
Variables (al bl : list nfsa) (m : list Z).
Hypothesis HA : forall a, In a al -> a = [] \/ valid a.
Hypothesis HB : forall b, In b bl -> b = [] \/ valid b.
Hypothesis Hm1 : zlen m = zlen bl.
Hypothesis Hm2 : forall i, In i m -> 0 <= i < zlen al.
Variable ord : Z -> list Z.
Hypothesis Ho : forall n, is_sched n (ord n).
Let va := flat_vec al.
Let vb := flat_vec bl.
Notation anyT := (any al bl m).
Notation enT := (enT al bl m).
Notation keyT := (keyT bl).
Notation Mt := (Mt al bl m).
Let n := zlen bl.
Hypothesis Hn : 0 < n.
Variables (BB : list (list tr)) (pl : list (list (Z * Z))) (h : hmap).
Hypothesis NB : 0 < zlen BB.
Hypothesis SO : forall b, In b BB -> sortedT b.
Hypothesis AN : forall T, In T (concat BB) -> anyT T.
Hypothesis ZP : zlen pl = zlen (concat BB).
Hypothesis CL : forall id T info, rd (concat BB) id = Some T -> In info (pick pl id) -> exists x y, Mt T (fst info) (snd info) x y /\
  (lab x <> -1 -> exists v, hfind h (keyT (dT T x y)) = Some v /\ rd (concat BB) v = Some (dT T x y)).

(** The states of pair [k] with their numbers, in the order of the output *)
Definition Ee : list (Z * tr) := imap (fun i x => (i, x)) 0 (concat BB).
Definition FF : list (list (Z * tr)) := map (fun k => filter (fun e => tk (snd e) =? k) Ee) (zrange n).
Definition PL (e : Z * tr) : list (Z * Z) := pick pl (fst e).

Lemma Ee_rd i e : rd Ee i = Some e <-> fst e = i /\ rd (concat BB) i = Some (snd e).
Proof.
  clear. unfold Ee. rewrite rd_imap. destruct (rd (concat BB) i) as [T|]; cbn [option_map].
  - split; [intros H; injection H as <-; auto|]. intros (H1 & H2). destruct e; cbn in *. f_equal. f_equal; [lia|congruence].
  - split; [discriminate|]. intros (_ & H). discriminate.
Qed.
Lemma Ee_in e : In e Ee <-> rd (concat BB) (fst e) = Some (snd e).
Proof.
  clear. split; [intros H; apply In_rd in H as (i & _ & H); apply Ee_rd in H as (<- & H); auto|]. intros H. apply (rd_In _ (fst e)). now apply Ee_rd.
Qed.
Lemma FF_rd k F : rd FF k = Some F -> 0 <= k < n /\ F = filter (fun e => tk (snd e) =? k) Ee.
Proof. clear -Hn. intros H. pose proof (rd_Some_bound _ _ _ H) as B. unfold FF in H, B. rewrite zlen_map, zlen_zrange in B by lia. rewrite rd_map, rd_zrange in H by lia. injection H as <-. auto. Qed.
Lemma zlen_FF : zlen FF = n.
Proof. clear -Hn. unfold FF. rewrite zlen_map, zlen_zrange; lia. Qed.
Lemma FF_in e : In e (concat FF) <-> In e Ee.
Proof.
  clear -Hn AN. split.
  - intros H. apply in_concat in H as (F & HF & H). apply In_rd in HF as (k & _ & HF). apply FF_rd in HF as (_ & ->). now apply filter_In in H.
  - intros H. pose proof H as H'. apply Ee_in in H'. destruct (AN _ (rd_In _ _ _ H')) as (Bk & _). apply in_concat. exists (filter (fun e' => tk (snd e') =? tk (snd e)) Ee). split; [unfold FF; apply in_map_iff; exists (tk (snd e)); split; auto; now apply in_zrange|]. apply filter_In. split; auto. apply Z.eqb_refl.
Qed.
Lemma NoDup_fst : NoDup (map fst (concat FF)).
Proof.
  clear -Hn AN. assert (ND : NoDup (map fst Ee)) by (unfold Ee; rewrite map_imap; cbn [fst]; rewrite imap_index; rewrite (map_ext _ (fun i => i)) by reflexivity; rewrite map_id; apply NoDup_zrange).
  assert (INJ : forall e e', In e Ee -> In e' Ee -> fst e = fst e' -> e = e'). { intros e e' H H' E. apply Ee_in in H. apply Ee_in in H'. rewrite E in H. destruct e, e'; cbn in *. congruence. }
  assert (N : NoDup (concat FF)). { unfold FF. rewrite <- flat_map_concat_map. apply PathSums.NoDup_flat_map; [apply NoDup_zrange| |]. - intros k _. apply NoDup_filter. eapply NoDup_map_inv; eauto. - intros k k' e _ _ H H'. apply filter_In in H. apply filter_In in H'. lia. }
  assert (Hi : forall e, In e (concat FF) -> In e Ee) by (intros; now apply FF_in). revert N Hi. generalize (concat FF). induction l as [|e l IH]; intros N Hi; cbn [map]; constructor; apply NoDup_cons_iff in N as (N1 & N2).
  - intros X. apply in_map_iff in X as (e' & E & He'). apply N1. replace e with e'; auto. apply INJ; auto; apply Hi; [now right|now left].
  - apply IH; auto. intros; apply Hi; now right.
Qed.
Lemma zlen_FFc : zlen (concat FF) = zlen (concat BB) /\ (forall x, In x (map fst (concat FF)) <-> 0 <= x < zlen (concat BB)).
Proof.
  clear -Hn AN. assert (IN : forall x, In x (map fst (concat FF)) <-> 0 <= x < zlen (concat BB)).
  { intros x. split.
    - intros H. apply in_map_iff in H as (e & <- & H). apply FF_in, Ee_in in H. apply rd_Some_bound in H. lia.
    - intros H. destruct (rd_in_bound (concat BB) x H) as (T & HT). apply in_map_iff. exists (x, T). split; auto. apply FF_in, Ee_in. auto. }
  split; auto. assert (P : Permutation (map fst (concat FF)) (zrange (zlen (concat BB)))). { apply NoDup_Permutation; [apply NoDup_fst|apply NoDup_zrange|]. intros x. rewrite IN. now rewrite in_zrange. }
  apply Permutation_length in P. rewrite <- (zlen_map fst). unfold zlen at 1. rewrite P. change (Z.of_nat (length (zrange (zlen (concat BB))))) with (zlen (zrange (zlen (concat BB)))). apply zlen_zrange, zlen_nonneg.
Qed.

(** The output of FormatOutput *)
Definition XA (i : Z) : arc := match rd (v_arcs va) i with Some x => x | None => mkArc 0 0 0 0 end.
Definition YB (i : Z) : arc := match rd (v_arcs vb) i with Some x => x | None => mkArc 0 0 0 0 end.
Definition dd (k : Z) (e : Z * tr) (info : Z * Z) : Z :=
  if lab (XA (fst info)) =? -1 then zlen (pick FF k) - 1
  else match hfind h (keyT (dT (snd e) (XA (fst info)) (YB (snd info)))) with Some v => IDenseInit.posof v (map fst (concat FF)) - off1 FF k | None => 0 end.
Definition CC : list (list (list (arc * (Z * Z)))) :=
  imap (fun k F => imap (fun p e => map (fun info => (mkArc p (dd k e info) (lab (XA (fst info))) (sc (XA (fst info)) + sc (YB (snd info))), info)) (PL e)) 0 F) 0 FF.

Lemma infoXY id T info : rd (concat BB) id = Some T -> In info (pick pl id) -> Mt T (fst info) (snd info) (XA (fst info)) (YB (snd info)) /\
  rd (v_arcs va) (fst info) = Some (XA (fst info)) /\ rd (v_arcs vb) (snd info) = Some (YB (snd info)) /\ rd (ids_of (concat bl)) (snd info) = Some (eb bl T) /\ src (YB (snd info)) = tb T /\
  (lab (XA (fst info)) <> -1 -> exists v, hfind h (keyT (dT T (XA (fst info)) (YB (snd info)))) = Some v /\ rd (concat BB) v = Some (dT T (XA (fst info)) (YB (snd info)))).
Proof.
  clear SO ZP Ho HA. intros HT HI. destruct (CL _ _ _ HT HI) as (x & y & HM & HV). pose proof (AN _ (rd_In _ _ _ HT)) as AT. pose proof HM as (ja & jb & H1 & H2 & H3 & H4 & H5).
  destruct (geoA al bl m Hm1 Hm2 T AT) as (_ & _ & _ & _ & _ & _ & GA). destruct (geoB al bl m Hm1 Hm2 T AT) as (_ & _ & _ & _ & _ & _ & _ & GB). destruct (GA _ _ H1) as (GA1 & _). destruct (GB _ _ H2) as (GB1 & GB2 & _). rewrite <- H3 in GA1. rewrite <- H4 in GB1, GB2.
  assert (EX : XA (fst info) = x) by (unfold XA, va; now rewrite GA1). assert (EY : YB (snd info) = y) by (unfold YB, vb; now rewrite GB1). rewrite EX, EY. split; auto. split; auto. split; auto. split; auto. split; auto. eapply srcB; eauto.
Qed.

(** The destination's number inside pair [k] *)
Lemma dest_pos k e v T' : 0 <= k < n -> In e (pick FF k) -> tk T' = k -> rd (concat BB) v = Some T' ->
  let q := IDenseInit.posof v (map fst (concat FF)) in
  0 <= q < zlen (concat BB) /\ rd (pick FF k) (q - off1 FF k) = Some (v, T').
Proof.
  clear -Hn AN. intros Hk _ Et Hv. cbv zeta. assert (He : In (v, T') (concat FF)) by (apply FF_in, Ee_in; auto). apply In_rd in He as (g & Bg & Hg).
  assert (PO : IDenseInit.posof v (map fst (concat FF)) = g) by (apply IDenseInit.posof_rd; [apply NoDup_fst|rewrite rd_map, Hg; reflexivity]). rewrite PO. split; [rewrite <- (proj1 zlen_FFc); lia|].
  apply rd_concat_inv in Hg as (k' & F & p & F1 & F2 & F3 & _). pose proof (FF_rd _ _ F1) as (_ & EF). assert (k' = k). { pose proof (rd_In _ _ _ F2) as X. rewrite EF in X. apply filter_In in X. cbn [snd] in X. lia. } subst k'. unfold pick. rewrite F1. replace (g - off1 FF k) with p by lia. auto.
Qed.

Definition dI (its : list Z) : dint := mkDint (map enT (concat BB)) its (concat pl) (ids_of pl) h.
Theorem format_output_ok : format_output ord va vb (ids_of bl) (dI (splits_of BB)) =
  Some (flat_vec (map (map (map fst)) CC), map (fun y => fst (snd y)) (concat (concat CC)), map (fun y => snd (snd y)) (concat (concat CC))).
Proof.
  set (NS := zlen (concat BB)). unfold format_output, dI. cbn [d_states d_iters d_arcs d_rows d_hash]. cbv zeta. rewrite zlen_splits_of. replace (zlen BB + 1 - 1) with (zlen BB) by lia. set (I := zlen BB) in *.
  replace (zlen (v_rs1 vb) - 1) with n by (unfold vb; cbn [flat_vec v_rs1]; rewrite zlen_splits_of; lia).
  rewrite (rd_splits_off BB I) by lia. replace (off1 BB I) with NS by (unfold I, NS; symmetry; apply EpsLoopProofs.off1_all). rewrite zlen_map. fold NS. rewrite Z.eqb_refl.
  replace (row_splits_to_row_ids (splits_of BB) NS) with (Some (ids_of BB)) by (symmetry; apply row_ids_of_splits).
  set (BBe := enumb 0 BB). set (x := map (split_by (fun e : Z * tr => tk (snd e)) n) BBe).
  assert (Ux : forall row, In row x -> zlen row = n) by (intros row Hr; apply in_map_iff in Hr as (b & <- & _); unfold split_by; rewrite zlen_map, zlen_zrange; lia).
  assert (Zx : zlen x = I) by (unfold x, BBe; rewrite zlen_map, zlen_enumb; auto).
  assert (EeB : concat BBe = Ee) by (unfold BBe; rewrite enumb_concat; reflexivity).
  assert (CX : concat (concat x) = Ee).
  { rewrite <- EeB. unfold x. rewrite <- concat_map_concat, map_map. f_equal. rewrite <- (map_id BBe) at 2. apply map_ext_in. intros b Hb. apply In_rd in Hb as (i & _ & Hb). destruct (enumb_rd _ _ _ _ Hb) as (l & L1 & L2 & L3). apply split_concat.
    - intros e He. destruct (AN (snd e)) as (Bk & _); [|exact Bk]. apply in_concat. exists l. split; [eapply rd_In; eauto|]. rewrite <- L2. now apply in_map.
    - intros u v e e' Huv Hu Hv. apply (SO l (rd_In _ _ _ L1) u v); auto; rewrite <- L2, rd_map; [rewrite Hu|rewrite Hv]; reflexivity. }
  assert (ZEe : zlen Ee = NS) by (unfold Ee; now rewrite zlen_imap).
  (* ids2 *)
  set (tag := fun e : Z * tr => (match rd (ids_of BB) (fst e) with Some i => i | None => 0 end) * n + tk (snd e)).
  assert (EI2 : map tag (concat (concat x)) = ids_of (concat x)).
  { apply ids_from_tags. intros i l e Hl He. apply rd_concat_inv in Hl as (it & row & k & R1 & R2 & R3 & _). pose proof (rd_Some_bound _ _ _ R1). rewrite (TransposeProofs.off1_uniform x n it Ux) in R3 by lia.
    unfold x in R1. rewrite rd_map in R1. destruct (rd BBe it) as [b|] eqn:Eb; [|discriminate]. injection R1 as <-. unfold split_by in R2. pose proof (rd_Some_bound _ _ _ R2) as Bk. rewrite zlen_map, zlen_zrange in Bk by lia. rewrite rd_map, rd_zrange in R2 by lia. injection R2 as <-. apply filter_In in He as (He & Hk).
    destruct (enumb_rd _ _ _ _ Eb) as (l & _ & _ & L3). specialize (L3 e He). rewrite Z.sub_0_r in L3. unfold tag. rewrite L3. lia. }
  match goal with |- context [mapM ?f (zrange NS)] => replace (mapM f (zrange NS)) with (Some (ids_of (concat x))) end.
  2:{ symmetry. rewrite <- EI2, CX. rewrite <- ZEe. rewrite <- (zlen_map tag Ee). apply GraphProofs.mapM_zrange. intros i t Ht. rewrite rd_map in Ht. destruct (rd Ee i) as [e|] eqn:Ei; [|discriminate]. injection Ht as <-. apply Ee_rd in Ei as (Ef & Ei). pose proof (rd_Some_bound _ _ _ Ei). destruct (rd_in_bound (ids_of BB) i) as (it & Hit); [unfold ids_of; rewrite zlen_ids_from; lia|]. rewrite Hit, rd_map, Ei. cbn [option_map]. unfold IDevCore.enT. cbn [snd]. destruct (geoB al bl m Hm1 Hm2 _ (AN _ (rd_In _ _ _ Ei))) as (_ & _ & -> & _). unfold tag. rewrite Ef, Hit. reflexivity. }
  replace (row_ids_to_row_splits (ids_of (concat x)) (I * n)) with (Some (splits_of (concat x))) by (rewrite <- Zx, <- (TransposeProofs.zlen_uniform x n Ux); symmetry; apply splits_of_row_ids).
  replace (row_ids_to_row_splits (ids_of pl) NS) with (Some (splits_of pl)) by (unfold NS; rewrite <- ZP; symmetry; apply splits_of_row_ids).
  destruct (transposed_idx x n I ltac:(lia) (eq_sym Zx) NB Ux) as (TI1 & TI2). set (renum := map _ (zrange (I * n))) in *. set (y := TransposeProofs.transposed n x) in *.
  destruct (index_axis0_ok (A := Z * tr) 0 (concat x) renum TI2) as (el & E1 & E2).
  change (layers_of (A := Z * tr) 1 (concat x)) with [mk_layer (splits_of (concat x)) (ids_of (concat x))] in E1. change (nest (Z * tr) 0) with (Z * tr)%type in *. rewrite TI1 in E1, E2. change (layers_of (A := Z * tr) 1 (concat y)) with [mk_layer (splits_of (concat y)) (ids_of (concat y))] in E1. change (values_of (A := Z * tr) 1 (concat x)) with (concat (concat x)) in E2. change (values_of (A := Z * tr) 1 (concat y)) with (concat (concat y)) in E2. rewrite E1. cbn [fst snd].
  assert (EY : map (@concat _) y = FF).
  { unfold y, TransposeProofs.transposed, FF, tab. rewrite map_map. apply map_ext_in. intros k Hk. apply in_zrange in Hk. rewrite <- EeB, IDenseOut.filter_concat. f_equal. unfold x. rewrite map_map. apply map_ext. intros b. unfold pick, split_by. rewrite rd_map, rd_zrange by lia. reflexivity. }
  assert (CY : concat (concat y) = concat FF) by (rewrite <- EY; symmetry; apply concat_map_concat).
  assert (EL : el = map fst (concat FF)). { rewrite <- CY. apply (mapM_idx (concat (concat x))); auto. intros j e Hj. rewrite CX in Hj. now apply Ee_rd in Hj. }
  destruct zlen_FFc as (ZF & INF). fold NS in ZF, INF.
  destruct (index_axis0_ok (A := Z * Z) 0 pl el) as (el3 & E3 & E4). { apply Forall_forall. intros j Hj. rewrite EL in Hj. apply INF in Hj. change (list (nest (Z * Z) 1)) with (list (list (Z * Z))). change (-1 <= j < zlen pl). rewrite ZP. fold NS. lia. }
  change (layers_of (A := Z * Z) 1 pl) with [mk_layer (splits_of pl) (ids_of pl)] in E3. change (nest (Z * Z) 0) with (Z * Z)%type in *. change (values_of (A := Z * Z) 1 pl) with (concat pl) in E4.
  assert (EP : map (pick pl) el = map PL (concat FF)) by (rewrite EL, map_map; reflexivity). rewrite EP in E3, E4. change (layers_of (A := Z * Z) 1 (map PL (concat FF))) with [mk_layer (splits_of (map PL (concat FF))) (ids_of (map PL (concat FF)))] in E3. change (values_of (A := Z * Z) 1 (map PL (concat FF))) with (concat (map PL (concat FF))) in E4.
  rewrite E3. cbn [fst snd app].
  (* remove_axis *)
  set (N := map (map (map PL)) y). assert (Zy : zlen y = n) by (unfold y, TransposeProofs.transposed; rewrite zlen_tab; lia).
  assert (Uy : forall row, In row y -> zlen row = I). { intros row Hr. unfold y, TransposeProofs.transposed, tab in Hr. apply in_map_iff in Hr as (k & <- & _). now rewrite zlen_map. }
  assert (UN : forall row, In row N -> zlen row = I) by (intros row Hr; apply in_map_iff in Hr as (r & <- & Hr); rewrite zlen_map; auto).
  assert (ZN : zlen N = n) by (unfold N; now rewrite zlen_map).
  destruct (remove_axis_ok (A := Z * Z) 1 1 N ltac:(lia)) as (R1 & _).
  assert (FN : flatten_axis (A := Z * Z) 1 2 N = map (map PL) FF). { cbn [flatten_axis]. unfold N. rewrite map_map, <- EY, map_map. apply map_ext. intros r. symmetry. apply concat_map. }
  rewrite FN in R1.
  assert (LN : layers_of (A := Z * Z) 3 N = [regular_layer n I; mk_layer (splits_of (concat y)) (ids_of (concat y)); mk_layer (splits_of (map PL (concat FF))) (ids_of (map PL (concat FF)))]).
  { cbn [layers_of]. change (nest (Z * Z) 2) with (list (list (Z * Z))) in *. change (nest (Z * Z) 1) with (list (Z * Z)) in *. change (nest (Z * Z) 0) with (Z * Z)%type in *. rewrite (TransposeProofs.uniform_splits N I UN), (TransposeProofs.uniform_ids N I UN), ZN. unfold regular_layer. f_equal.
    assert (CN : concat N = map (map PL) (concat y)) by (unfold N; symmetry; apply concat_map). rewrite CN. destruct (same_sizes (map (map PL) (concat y)) (concat y)) as (S1 & S2). { rewrite map_map. apply map_ext. intros; apply zlen_map. } rewrite S1, S2. f_equal. f_equal.
    rewrite <- concat_map, CY. reflexivity. }
  rewrite LN in R1. rewrite R1.
  assert (LF : layers_of (A := Z * Z) 2 (map (map PL) FF) = [mk_layer (splits_of FF) (ids_of FF); mk_layer (splits_of (map PL (concat FF))) (ids_of (map PL (concat FF)))]).
  { cbn [layers_of]. change (nest (Z * Z) 1) with (list (Z * Z)) in *. change (nest (Z * Z) 0) with (Z * Z)%type in *. destruct (same_sizes (map (map PL) FF) FF) as (S1 & S2). { rewrite map_map. apply map_ext. intros; apply zlen_map. } rewrite S1, S2. rewrite <- concat_map. reflexivity. }
  rewrite LF. cbn [l_ids l_rs].
  (* sizes of CC *)
  assert (MC : map (map zlen) CC = map (map (fun e => zlen (PL e))) FF).
  { unfold CC. rewrite map_imap. rewrite (imap_ext _ (fun _ F => map (fun e => zlen (PL e)) F)); [apply imap_const|]. intros k F _. rewrite map_imap. rewrite (imap_ext _ (fun _ e => zlen (PL e))); [apply imap_const|]. intros p e _. apply zlen_map. }
  assert (MC1 : map zlen CC = map zlen FF). { unfold CC. rewrite map_imap. rewrite (imap_ext _ (fun _ F => zlen F)); [apply (imap_const zlen)|]. intros k F _. apply zlen_imap. }
  destruct (same_sizes CC FF MC1) as (C1 & C2).
  assert (MC2 : map zlen (concat CC) = map zlen (map PL (concat FF))). { rewrite concat_map, MC, map_map, concat_map. reflexivity. }
  destruct (same_sizes (concat CC) (map PL (concat FF)) MC2) as (C3 & C4).
  assert (CI : map snd (concat (concat CC)) = concat (map PL (concat FF))).
  { rewrite !concat_map. f_equal. f_equal. unfold CC. rewrite map_imap. rewrite (imap_ext _ (fun _ F => map PL F)); [apply imap_const|]. intros k F _. rewrite map_imap. rewrite (imap_ext _ (fun _ e => PL e)); [apply imap_const|]. intros p e _. rewrite map_map. apply map_id. }
  assert (PF : forall F, zlen (concat (map PL F)) = zsum (map (fun e => zlen (PL e)) F)) by (intros F; rewrite <- zsum_zlen_concat, map_map; reflexivity).
  assert (ZA : zlen (ids_of (map PL (concat FF))) = zlen (concat pl)).
  { unfold ids_of. rewrite zlen_ids_from. assert (P : Permutation (map PL (concat FF)) pl).
    { assert (PM : Permutation (map fst (concat FF)) (zrange NS)) by (apply NoDup_Permutation; [apply NoDup_fst|apply NoDup_zrange|intros z; rewrite INF, in_zrange; reflexivity]). apply (Permutation_map (pick pl)) in PM. rewrite map_map in PM. fold (map PL (concat FF)) in PM. eapply Permutation_trans; [exact PM|]. replace (map (pick pl) (zrange NS)) with pl; auto. apply list_ext_rd; [rewrite zlen_map, zlen_zrange by apply zlen_nonneg; exact ZP|]. intros i Hi. rewrite rd_map, rd_zrange by (unfold NS; lia). cbn. destruct (rd_in_bound pl i Hi) as (l & Hl). unfold pick. now rewrite Hl. }
    rewrite <- !zsum_zlen_concat. apply zsum_map_perm. exact P. }
  rewrite ZA, Z.eqb_refl. assert (ZEL : zlen el = NS) by (rewrite EL, zlen_map; exact ZF).
  rewrite (IDenseInit.invert_ok ord el Ho); [|rewrite EL; apply NoDup_fst|intros z; rewrite ZEL, EL; apply INF].
  unfold vb at 1 2. cbn [flat_vec v_rs2 v_arcs]. rewrite row_ids_of_splits.
  assert (ZCC : zlen (concat (concat CC)) = zlen (concat pl)) by (rewrite <- ZA, <- (zlen_map snd), CI; unfold ids_of; now rewrite zlen_ids_from). rewrite <- ZCC.
  match goal with |- context [mapM ?f (zrange (zlen (concat (concat CC))))] => replace (mapM f (zrange (zlen (concat (concat CC))))) with (Some (concat (concat CC))) end.
  - f_equal. f_equal. f_equal. unfold flat_vec.
    destruct (same_sizes (map (map (map fst)) CC) CC) as (S1 & S2). { rewrite map_map. apply map_ext. intros; apply zlen_map. }
    assert (EC : concat (map (map (map fst)) CC) = map (map fst) (concat CC)) by (symmetry; apply concat_map). rewrite EC.
    destruct (same_sizes (map (map fst) (concat CC)) (concat CC)) as (S3 & S4). { rewrite map_map. apply map_ext. intros; apply zlen_map. }
    rewrite S1, S3, C1, C3. f_equal. apply concat_map.
  - symmetry. apply GraphProofs.mapM_zrange. intros i z Hz.
    assert (HI : rd (concat (map PL (concat FF))) i = Some (snd z)) by (rewrite <- CI, rd_map, Hz; reflexivity).
    destruct (rd_concat3 _ _ _ Hz) as (k & C & p & row & q & K1 & K2 & K3 & K4 & K5 & K6). rewrite C4 in K4. rewrite C2 in K5. rewrite (IDenseInit.off1_same CC FF k MC1) in K4, K5. rewrite K4.
    destruct (mapM_rd _ _ _ _ _ E4 HI) as (o & O1 & O2). rewrite O1, O2, K5.
    unfold CC in K1. rewrite rd_imap in K1. destruct (rd FF k) as [F|] eqn:EF; [|discriminate]. injection K1 as <-. rewrite rd_imap in K2. destruct (rd F p) as [e|] eqn:Ep; [|discriminate]. injection K2 as <-. rewrite rd_map in K3. destruct (rd (PL e) q) as [info|] eqn:Eq; [|discriminate]. injection K3 as <-. cbn [snd].
    rewrite !Z.add_0_l. destruct (FF_rd _ _ EF) as (Bk & EFk). pose proof (rd_In _ _ _ Ep) as Ie. rewrite EFk in Ie. apply filter_In in Ie as (Ie & Te). assert (Tk : tk (snd e) = k) by lia. apply Ee_in in Ie.
    destruct (infoXY _ _ _ Ie (rd_In _ _ _ Eq)) as (HM & X1 & X2 & X3 & X4 & X5). rewrite X1, X2. pose proof HM as (ja & jb & _ & _ & _ & _ & HL).
    pose proof zlen_FF as ZFF. assert (R0 : rd (splits_of FF) k = Some (off1 FF k)) by (apply rd_splits_off; lia). assert (R2 : rd (splits_of FF) (k + 1) = Some (off1 FF k + zlen F)) by (rewrite rd_splits_off by lia; now rewrite (off1_next _ _ _ EF)).
    assert (PF' : pick FF k = F) by (unfold pick; now rewrite EF).
    replace (lab (XA (fst info)) =? lab (YB (snd info))) with true by lia. unfold dd. destruct (lab (XA (fst info)) =? -1) eqn:E.
    + rewrite R2, R0, PF'. f_equal. f_equal. apply arc_eq; cbn; lia.
    + rewrite X3. destruct (X5 ltac:(lia)) as (v & V1 & V2). replace (dst (XA (fst info)) * multiple vb + (eb bl (snd e) + dst (YB (snd info)) - src (YB (snd info)))) with (keyT (dT (snd e) (XA (fst info)) (YB (snd info)))) by (unfold IDevCore.keyT, dT, IDevCore.eb; cbn [tk ta tb]; rewrite X4; unfold vb; lia).
      rewrite V1. rewrite rd_tab by (rewrite ZEL; apply rd_Some_bound in V2; exact V2). rewrite R0, EL. f_equal. f_equal. apply arc_eq; cbn [src dst lab sc]; lia.
Qed.

(** The rows of the output *)
Lemma CC_row k F p e : rd FF k = Some F -> rd F p = Some e -> exists C row, rd CC k = Some C /\ zlen C = zlen F /\ rd C p = Some row /\ map snd row = PL e /\ forall z, In z row -> In (snd z) (PL e) /\ src (fst z) = p /\ lab (fst z) = lab (XA (fst (snd z))) /\ sc (fst z) = sc (XA (fst (snd z))) + sc (YB (snd (snd z))) /\ (lab (fst z) = -1 -> dst (fst z) = zlen F - 1) /\ (lab (fst z) <> -1 -> exists v, hfind h (keyT (dT (snd e) (XA (fst (snd z))) (YB (snd (snd z))))) = Some v /\ rd F (dst (fst z)) = Some (v, dT (snd e) (XA (fst (snd z))) (YB (snd (snd z))))).
Proof.
  intros HF He. unfold CC. eexists. eexists. split; [rewrite rd_imap, HF; reflexivity|]. split; [apply zlen_imap|]. split; [rewrite rd_imap, He; reflexivity|]. split; [rewrite map_map; apply map_id|].
  intros z Hz. apply in_map_iff in Hz as (info & <- & Hi). cbn [fst snd src lab sc dst]. rewrite !Z.add_0_l. split; auto. split; auto. split; auto. split; auto.
  assert (PF' : pick FF k = F) by (unfold pick; now rewrite HF). destruct (FF_rd _ _ HF) as (Bk & EFk). pose proof (rd_In _ _ _ He) as Ie. assert (IeF : In e F) by auto. rewrite EFk in Ie. apply filter_In in Ie as (Ie & Te). apply Ee_in in Ie.
  unfold dd. rewrite PF'. split; intros HL; [replace (lab (XA (fst info)) =? -1) with true by lia; reflexivity|]. replace (lab (XA (fst info)) =? -1) with false by lia.
  destruct (infoXY _ _ _ Ie Hi) as (_ & _ & _ & _ & _ & X5). destruct (X5 HL) as (v & V1 & V2). rewrite V1. exists v. split; auto. rewrite <- PF'. rewrite <- PF' in IeF. apply (dest_pos k e); auto. unfold dT. cbn. lia.
Qed.
End G.
