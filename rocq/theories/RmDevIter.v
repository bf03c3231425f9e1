(** One iteration of the epsilon closure *)
From Coq Require Import ZArith List Lia Bool Permutation Sorted.
From Coq Require Import ZifyBool ZifyNat.
From Verif Require Import Base RaggedModel RaggedSpec RaggedProofs FsaSpec FsaLemmas SelectProofs RaggedOpsModel RaggedOpsProofs RaggedOpsProps EpsLoopProofs
  PropsProps ReverseProps ConnectProofs ExtractProofs ConnectRun RmEpsLang RmDevModel RmDevRagged RmDevEnc.
Import ListNotations.
Open Scope Z_scope.

(** The arc of two epsilon arcs one after the other *)
Definition comb (x y : item) : item := (mkArc (isrc x) (idst y) 0 (isc x + isc y), snd x ++ snd y).
(** Rows of a list of rows as a function of the states *)
Definition rowf {Y} (S : Z) (K : Z -> bool) (rows : list (list Y)) (o : Z) : list Y :=
  if K o && (0 <=? o) && (o <? S) then match rd rows (nw K o) with Some r => r | None => [] end else [].
Lemma rowf_nil {Y} S K (rows : list (list Y)) o : K o = false -> rowf S K rows o = [].
Proof. intros H. unfold rowf. now rewrite H. Qed.
Lemma rowf_at {Y} S K (rows : list (list Y)) o r : 0 <= o < S -> K o = true -> rd rows (nw K o) = Some r -> rowf S K rows o = r.
Proof. intros B H E. unfold rowf. rewrite H, E. replace (0 <=? o) with true by lia. replace (o <? S) with true by lia. reflexivity. Qed.
Lemma rowf_map {Y} S K (rows : list (list Y)) : zlen rows = nw K S -> map (rowf S K rows) (L S K) = rows.
Proof.
  intros H. apply list_ext_rd; [rewrite zlen_map, zlen_L; auto|]. intros r Hr. rewrite zlen_map, zlen_L in Hr. rewrite rd_map. destruct (rd_in_bound (L S K) r Hr) as (o & Ho). rewrite Ho. destruct (L_rd _ _ _ _ Ho) as (B & KO & ->). destruct (rd_in_bound rows (nw K o) ltac:(lia)) as (row & E). rewrite E. cbn. f_equal. eapply rowf_at; eauto.
Qed.

(** ** Keeping the first of each group *)
Section Marks.
Context {Y : Type}.
Variable d : Y -> Z.
Fixpoint marks (p : option Z) (l : list Y) : list (bool * Y) :=
  match l with
  | [] => []
  | y :: l' => (match p with None => true | Some q => negb (d y =? q) end, y) :: marks (Some (d y)) l'
  end.
Lemma marks_snd p l : map snd (marks p l) = l.
Proof. revert p; induction l as [|y l IH]; intros p; [reflexivity|]. cbn. now rewrite IH. Qed.
Lemma rd_marks l : forall p k y, rd l k = Some y -> exists b, rd (marks p l) k = Some (b, y) /\
  (k = 0 -> b = match p with None => true | Some q => negb (d y =? q) end) /\ (0 < k -> exists z, rd l (k - 1) = Some z /\ b = negb (d y =? d z)).
Proof.
  induction l as [|x l IH]; intros p k y H; [rewrite rd_nil in H; discriminate|]. cbn [marks]. rewrite rd_cons in H. rewrite rd_cons.
  destruct (k =? 0) eqn:E.
  - injection H as <-. apply Z.eqb_eq in E. subst k. eexists. split; [reflexivity|]. split; [auto|lia].
  - destruct (IH (Some (d x)) (k - 1) y H) as (b & H1 & H2 & H3). exists b. split; [exact H1|]. split; [lia|]. intros _. pose proof (rd_Some_bound _ _ _ H). rewrite rd_cons. destruct (k - 1 =? 0) eqn:E1.
    + exists x. split; [auto|]. apply H2. lia.
    + destruct (H3 ltac:(lia)) as (z & Z1 & Z2). exists z. replace (k - 1 - 1) with (k - 1 - 1) in Z1 by lia. auto.
Qed.
Variable s : Y -> Z.
(** sorted by increasing [d], then decreasing [s] *)
Definition before (x y : Y) : Prop := d x < d y \/ d x = d y /\ s y <= s x.
Definition firsts (l : list Y) : list Y := map snd (filter fst (marks None l)).
Lemma marks_in p l y : In y (map snd (filter fst (marks p l))) -> In y l.
Proof. intros H. apply in_map_iff in H as ((b & y') & <- & H). apply filter_In in H as (H & _). apply (in_map snd) in H. now rewrite marks_snd in H. Qed.
Lemma marks_sorted l : forall p, StronglySorted before l -> (forall q, p = Some q -> Forall (fun y => q <= d y) l) ->
  StronglySorted (fun x y => d x < d y) (map snd (filter fst (marks p l))) /\ (forall q y, p = Some q -> In y (map snd (filter fst (marks p l))) -> q < d y) /\
  forall y, In y l -> (exists q, p = Some q /\ d y = q) \/ exists z, In z (map snd (filter fst (marks p l))) /\ d z = d y /\ s y <= s z.
Proof.
  induction l as [|x l IH]; intros p HS HP; [split; [constructor|split; [intros ? ? ? []|intros ? []]]|]. inversion HS as [|? ? HS' HF]; subst.
  assert (HP' : forall q, Some (d x) = Some q -> Forall (fun y => q <= d y) l). { intros q E. injection E as <-. eapply Forall_impl; [|exact HF]. intros y [H|H]; cbn; lia. }
  destruct (IH (Some (d x)) HS' HP') as (I1 & I2 & I3). cbn [marks filter fst]. set (b := match p with None => true | Some q => negb (d x =? q) end).
  assert (B : b = false -> p = Some (d x)). { unfold b. destruct p as [q|]; [|discriminate]. intros E. f_equal. lia. }
  assert (X : forall y, In y l -> d y = d x -> s y <= s x). { intros y Hy E. rewrite Forall_forall in HF. destruct (HF y Hy) as [C|C]; lia. }
  destruct b eqn:Eb; cbn [map snd].
  - split.
    + constructor; [exact I1|]. apply Forall_forall. intros y Hy. now apply (I2 (d x)).
    + split.
      * intros q y Hq Hy. assert (Q : q <= d x /\ q <> d x). { subst p. unfold b in Eb. specialize (HP q eq_refl). inversion HP; subst. lia. } destruct Hy as [<-|Hy]; [lia|]. specialize (I2 (d x) y eq_refl Hy). lia.
      * intros y [<-|Hy]; [right; exists x; split; [now left|]; split; [auto|lia]|]. destruct (I3 y Hy) as [(q & E & E2)|(z & Z1 & Z2)]; [injection E as <-; right; exists x; split; [now left|]; split; [auto|]; auto|right; exists z; split; [now right|auto]].
  - rewrite (B eq_refl) in *. split; [exact I1|]. split; [intros q y E; injection E as <-; now apply I2|]. intros y [<-|Hy]; [left; eauto|]. auto.
Qed.
Lemma firsts_ok l : StronglySorted before l -> StronglySorted (fun x y => d x < d y) (firsts l) /\ (forall y, In y (firsts l) -> In y l) /\
  forall y, In y l -> exists z, In z (firsts l) /\ d z = d y /\ s y <= s z.
Proof.
  intros H. destruct (marks_sorted l None H) as (H1 & _ & H3); [discriminate|]. split; [exact H1|]. split; [apply marks_in|]. intros y Hy. destruct (H3 y Hy) as [(q & E & _)|Z]; [discriminate|exact Z].
Qed.
End Marks.

Lemma closure_lt_asym a b : closure_lt a b = true -> closure_lt b a = false.
Proof. unfold closure_lt. destruct (dst a =? dst b) eqn:E, (dst b =? dst a) eqn:E2; lia. Qed.
Lemma closure_lt_neg a b c : closure_lt a c = true -> closure_lt a b = true \/ closure_lt b c = true.
Proof. unfold closure_lt. destruct (dst a =? dst b) eqn:E, (dst b =? dst c) eqn:E2, (dst a =? dst c) eqn:E3; lia. Qed.

(** Sorting rows by a key that the elements carry *)
Lemma sorted_rows {Y} (g : Y -> arc) (x : list (list Y)) : exists sr,
  zlen sr = zlen x /\ map zlen sr = map zlen x /\
  (exists order, sort_sublists closure_lt (splits_of x) (map g (concat x)) = Some (map g (concat sr), order) /\ mapM (rd (concat x)) order = Some (concat sr)) /\
  forall i row, rd x i = Some row -> exists row', rd sr i = Some row' /\ Permutation row row' /\ StronglySorted (fun a b => closure_lt (g b) (g a) = false) row'.
Proof.
  destruct (C08_sort_sublists arc closure_lt closure_lt_asym closure_lt_neg (map (map g) x)) as (outs & E & LN & H).
  assert (EX : map g (concat x) = concat (map (map g) x)) by apply concat_map.
  assert (ES : splits_of (map (map g) x) = splits_of x) by (unfold splits_of; rewrite map_map; f_equal; apply map_ext; intros; apply zlen_map).
  rewrite ES, <- EX in E. rewrite zlen_map in LN.
  assert (P : forall i row, rd x i = Some row -> exists vals order row', rd outs i = Some (vals, order) /\ mapM (rd (concat x)) order = Some row' /\ vals = map g row' /\ Permutation row row' /\ StronglySorted (fun a b => closure_lt (g b) (g a) = false) row').
  { intros i row Hr. destruct (H i (map g row)) as (vals & order & H1 & H2 & H3 & H4 & _ & H5); [rewrite rd_map, Hr; reflexivity|].
    assert (P1 : mapM (rd (concat x)) (map (fun k => off1 x i + k) (zrange (zlen row))) = Some row).
    { apply mapM_by_rd; [rewrite zlen_map, zlen_zrange by apply zlen_nonneg; auto|]. intros k q Hq. rewrite rd_map in Hq. destruct (rd (zrange (zlen row)) k) as [k'|] eqn:Ek; [|discriminate]. injection Hq as <-. pose proof (rd_Some_bound _ _ _ Ek) as Bk. rewrite zlen_zrange in Bk by apply zlen_nonneg. rewrite rd_zrange in Ek by auto. injection Ek as <-. destruct (rd_in_bound row k Bk) as (y & Hy). rewrite Hy. exact (proj1 (rd_concat_off x i row k y Hr Hy)). }
    assert (EO : zlen (concat (firstn (Z.to_nat i) (map (map g) x))) = off1 x i) by (rewrite firstn_map, <- concat_map, zlen_map; reflexivity). rewrite EO, zlen_map in H2.
    assert (P2 : exists row', mapM (rd (concat x)) order = Some row' /\ vals = map g row').
    { clear -H3 EX. rewrite <- EX in H3. revert vals H3. induction order as [|o order IH]; intros vals H3; cbn [mapM] in *.
      - injection H3 as <-. exists []. auto.
      - rewrite rd_map in H3. destruct (rd (concat x) o) as [y|]; [|discriminate]. cbn in H3. destruct (mapM (rd (map g (concat x))) order) as [v|]; [|discriminate]. injection H3 as <-. destruct (IH v eq_refl) as (r & E1 & ->). rewrite E1. exists (y :: r). auto. }
    destruct P2 as (row' & Q1 & ->). exists (map g row'), order, row'. split; [auto|]. split; [auto|]. split; [auto|]. split.
    - apply Permutation_sym. exact (mapM_perm _ _ _ H2 _ _ Q1 P1).
    - clear -H5. induction row' as [|a r IH]; constructor; inversion H5; subst; auto. rewrite Forall_map in H2. exact H2. }
  assert (SR : exists sr, mapM (fun i => p <- rd outs i;; mapM (rd (concat x)) (snd p)) (zrange (zlen x)) = Some sr).
  { destruct (mapM_ex (fun i => p <- rd outs i;; mapM (rd (concat x)) (snd p)) (fun _ _ => True) (zrange (zlen x))) as (ys & E1 & _); [|eauto].
    intros i Hi. apply in_zrange in Hi. destruct (rd_in_bound x i Hi) as (row & Hr). destruct (P i row Hr) as (vals & order & row' & H1 & H2 & _). rewrite H1. cbn [snd]. eauto. }
  destruct SR as (sr & ESR).
  assert (LSR : zlen sr = zlen x). { pose proof (mapM_length _ _ _ ESR) as M. unfold zlen in *. rewrite zrange_length in M. lia. }
  assert (RSR : forall i row, rd x i = Some row -> exists row' vals order, rd sr i = Some row' /\ rd outs i = Some (vals, order) /\ mapM (rd (concat x)) order = Some row' /\ vals = map g row' /\ Permutation row row' /\ StronglySorted (fun a b => closure_lt (g b) (g a) = false) row').
  { intros i row Hr. destruct (P i row Hr) as (vals & order & row' & H1 & H2 & H3). pose proof (rd_Some_bound _ _ _ Hr) as B. destruct (rd_in_bound sr i ltac:(lia)) as (row2 & E2). destruct (mapM_rd _ _ _ _ _ ESR E2) as (i' & E3 & E4). rewrite rd_zrange in E3 by auto. injection E3 as <-. rewrite H1 in E4. cbn [snd] in E4. rewrite H2 in E4. injection E4 as <-. exists row', vals, order. split; auto. }
  exists sr. split; [exact LSR|]. split; [|split].
  - apply list_ext_rd; [rewrite !zlen_map; auto|]. intros i Hi. rewrite zlen_map, LSR in Hi. destruct (rd_in_bound x i Hi) as (row & Hr). destruct (RSR i row Hr) as (row' & vals & order & E1 & _ & _ & _ & E5 & _). rewrite !rd_map, E1, Hr. cbn. f_equal. unfold zlen. now rewrite (Permutation_length E5).
  - exists (concat (map snd outs)). split.
    + rewrite E. f_equal. f_equal. rewrite concat_map. f_equal. apply list_ext_rd; [rewrite !zlen_map; lia|]. intros i Hi. rewrite zlen_map, LN in Hi. destruct (rd_in_bound x i Hi) as (row & Hr). destruct (RSR i row Hr) as (row' & vals & order & E1 & E2 & _ & E4 & _). rewrite !rd_map, E1, E2. cbn. now rewrite E4.
    + apply mapM_concat. apply mapM_by_rd; [rewrite zlen_map; lia|]. intros i o Ho. rewrite rd_map in Ho. destruct (rd outs i) as [(v, oo)|] eqn:Eo; [|discriminate]. injection Ho as <-. pose proof (rd_Some_bound _ _ _ Eo) as B. destruct (rd_in_bound x i ltac:(lia)) as (row & Hr). destruct (RSR i row Hr) as (row' & vals & order & E1 & E2 & E3 & _). rewrite E1. rewrite Eo in E2. injection E2 as <- <-. exact E3.
  - intros i row Hr. destruct (RSR i row Hr) as (row' & vals & order & E1 & _ & _ & _ & E5 & E6). eauto.
Qed.

(** keep_first on sorted rows *)
Lemma keep_first_ok {Y} (g : Y -> arc) (sr : list (list Y)) :
  mapM (keep_first (splits_of sr) (ids_of sr) (map g (concat sr))) (zrange (zlen (concat sr))) = Some (map fst (concat (map (marks (fun y => dst (g y)) None) sr))).
Proof.
  set (ms := map (marks (fun y => dst (g y)) None) sr).
  assert (EC : map snd (concat ms) = concat sr). { unfold ms. rewrite concat_map, map_map. f_equal. rewrite <- (map_id sr) at 2. apply map_ext. intros; apply marks_snd. }
  assert (LN : zlen (concat ms) = zlen (concat sr)) by (rewrite <- EC, zlen_map; reflexivity).
  apply mapM_by_rd; [rewrite zlen_map, zlen_zrange by apply zlen_nonneg; auto|]. intros i i' Hi. pose proof (rd_Some_bound _ _ _ Hi) as Bi. rewrite zlen_zrange in Bi by apply zlen_nonneg. rewrite rd_zrange in Hi by auto. injection Hi as <-.
  destruct (rd_in_bound _ i Bi) as (y & Hy). destruct (rd_concat_inv _ _ _ Hy) as (r & l & k & H1 & H2 & H3 & H4). pose proof (rd_Some_bound _ _ _ H1). pose proof (rd_Some_bound _ _ _ H2). destruct (rd_marks (fun y => dst (g y)) l None k y H2) as (b & M1 & M2 & M3).
  assert (EM : rd (concat ms) i = Some (b, y)).
  { subst i. replace (off1 sr r) with (off1 ms r). { apply (rd_concat_off ms r (marks (fun y => dst (g y)) None l)); auto. unfold ms. rewrite rd_map, H1. reflexivity. }
    unfold off1. rewrite <- (zlen_map snd). rewrite concat_map. do 2 f_equal. unfold ms. rewrite firstn_map, map_map. rewrite <- (map_id (firstn _ sr)) at 2. apply map_ext. intros; apply marks_snd. }
  unfold keep_first. rewrite H4, rd_splits_off by lia. rewrite (rd_map fst), EM. cbn [option_map fst]. destruct (i =? off1 sr r) eqn:E.
  - f_equal. symmetry. apply M2. lia.
  - destruct (M3 ltac:(lia)) as (z & Z1 & ->). rewrite !rd_map, Hy. replace (i - 1) with (off1 sr r + (k - 1)) by lia. rewrite (proj1 (rd_concat_off sr r l _ z H1 Z1)). reflexivity.
Qed.
