(** Renumbered sub-automata: from flat index computations to [extracts], and
    what [extracts] says about paths. *)
From Coq Require Import ZArith List Lia Bool Permutation.
From Coq Require Import ZifyBool ZifyNat.
From Verif Require Import Base RaggedModel RaggedSpec RaggedProofs FsaSpec FsaLemmas FsaOpsModel FsaOpsProofs SelectProofs
  EpsLoopProofs RaggedOpsModel RaggedOpsProofs OpsModel OpsProofs FstSpec GraphProofs PropsModel PropsProofs PropsProps ReverseModel ReverseProofs ReverseProps
  ConnectModel ConnectSpec ConnectProofs.
Import ListNotations.
Open Scope Z_scope.

Definition idx_rows {B} (x : list (list B)) : list (list Z) :=
  imap (fun i row => map (fun k => off1 x i + k) (zrange (zlen row))) 0 x.

Lemma zlen_idx_rows {B} (x : list (list B)) : map zlen (idx_rows x) = map zlen x.
Proof.
  unfold idx_rows. rewrite map_imap. rewrite (imap_ext _ (fun _ r => zlen r)); [apply imap_const|].
  intros. rewrite zlen_map, zlen_zrange; auto. apply zlen_nonneg.
Qed.
Lemma rd_idx_rows {B} (x : list (list B)) i row : rd x i = Some row ->
  rd (idx_rows x) i = Some (map (fun k => off1 x i + k) (zrange (zlen row))).
Proof. intros H. unfold idx_rows. rewrite rd_imap, H. cbn. reflexivity. Qed.

Lemma rd_firstn {B} (l : list B) n i : 0 <= i < n -> rd (firstn (Z.to_nat n) l) i = rd l i.
Proof.
  intros H. rewrite <- (firstn_skipn (Z.to_nat n) l) at 2. destruct (Z_lt_dec i (zlen (firstn (Z.to_nat n) l))) as [L|L].
  - rewrite rd_app by lia. now replace (i <? zlen (firstn (Z.to_nat n) l)) with true by lia.
  - assert (E : zlen l <= i). { unfold zlen in *. rewrite firstn_length in L. lia. }
    rewrite firstn_skipn. rewrite (proj2 (rd_None l i)) by lia. apply rd_None. lia.
Qed.

Lemma kept_from_zrange (K : Z -> bool) n : 0 <= n -> kept_from 0 (map K (zrange n)) = filter K (zrange n).
Proof.
  intros Hn. pose proof (gather_filter K (zrange n)) as G.
  assert (X : forall l, (forall x, In x l -> 0 <= x < n) -> mapM (rd (zrange n)) l = Some l).
  { induction l as [|x l IH]; intros H; auto. cbn [mapM]. rewrite rd_zrange by (apply H; now left).
    rewrite IH; auto. intros; apply H; now right. }
  rewrite X in G; [congruence|]. intros x Hx. apply kept_from_in in Hx. replace (x - 0) with x in Hx by lia.
  apply rd_Some_bound in Hx. rewrite zlen_map, zlen_zrange in Hx; auto.
Qed.

Definition local (fs : list nfsa) (k : Z) (o : list Z) : list Z := map (fun s => s - off1 fs k) o.
Lemma in_local (fs : list nfsa) k o s : In s (local fs k o) <-> In (off1 fs k + s) o.
Proof.
  unfold local. rewrite in_map_iff. split.
  - intros (x & <- & Hx). now replace (off1 fs k + (x - off1 fs k)) with x by lia.
  - intros H. exists (off1 fs k + s). split; auto. lia.
Qed.
Lemma rd_local (fs : list nfsa) k o i s : rd o i = Some s -> rd (local fs k o) i = Some (s - off1 fs k).
Proof. intros H. unfold local. now rewrite rd_map, H. Qed.


Section X.
Variable fs : list nfsa.
Hypothesis WF : Forall well_formed fs.
Let SO : Forall src_ok fs.
Proof. eapply Forall_impl; [|exact WF]. now intros f (H & _). Qed.
Let DO : Forall (fun f : nfsa => forall a, In a (all_arcs f) -> 0 <= dst a < nstates f) fs.
Proof. eapply Forall_impl; [|exact WF]. now intros f (_ & H). Qed.

(** arcs of a state, as positions *)
Definition arow (s : Z) : list Z := match rd (idx_rows (concat fs)) s with Some r => r | None => [] end.

Definition abase (k : Z) : Z := off1 (map (@concat arc) fs) k.

Lemma arow_at k f r st : rd fs k = Some f -> rd f r = Some st ->
  arow (off1 fs k + r) = map (fun j => abase k + off1 f r + j) (zrange (zlen st)).
Proof.
  intros Hk Hr. destruct (rd_concat_off fs k f r st Hk Hr) as (P1 & P2). pose proof (rd_Some_bound _ _ _ Hr).
  unfold arow. rewrite (rd_idx_rows _ _ _ P1). unfold abase.
  pose proof (off1_concat fs k f r Hk ltac:(lia)) as O. rewrite <- off1_map_concat in O. now rewrite O.
Qed.

Lemma in_arow k f r st q : rd fs k = Some f -> rd f r = Some st ->
  In q (arow (off1 fs k + r)) <-> exists j a, rd st j = Some a /\ q = abase k + off1 f r + j.
Proof.
  intros Hk Hr. rewrite (arow_at k f r st) by auto. rewrite in_map_iff. split.
  - intros (j & <- & Hj). apply in_zrange in Hj. destruct (rd_in_bound st j Hj) as (a & Ha). eauto.
  - intros (j & a & Ha & ->). exists j. split; auto. apply in_zrange. eapply rd_Some_bound; eauto.
Qed.

(** an arc by its position *)
Lemma arc_by_pos k f j a : rd fs k = Some f -> rd (all_arcs f) j = Some a ->
  rd (concat (concat fs)) (abase k + j) = Some a /\
  rd (ids_of (concat fs)) (abase k + j) = Some (off1 fs k + src a) /\
  In (abase k + j) (arow (off1 fs k + src a)) /\ 0 <= src a < zlen f /\ 0 <= dst a < zlen f.
Proof.
  intros Hk Ha. unfold all_arcs in Ha. destruct (rd_concat_inv _ _ _ Ha) as (r & st & j' & H1 & H2 & -> & _).
  destruct (arc_at fs SO DO k f r st j' a Hk H1 H2) as (A1 & A2 & A3 & A4). fold (abase k) in A1, A2. subst r.
  replace (abase k + (off1 f (src a) + j')) with (abase k + off1 f (src a) + j') by lia.
  split; auto. split; auto. split; [|split; auto; apply rd_Some_bound in H1; auto].
  apply (in_arow k f (src a) st); eauto.
Qed.

Lemma arow_inv k f s q : rd fs k = Some f -> 0 <= s < zlen f -> In q (arow (off1 fs k + s)) ->
  exists j a, rd (all_arcs f) j = Some a /\ q = abase k + j /\ src a = s.
Proof.
  intros Hk Hs Hq. destruct (rd_in_bound f s Hs) as (st & Hst). destruct (proj1 (in_arow k f s st q Hk Hst) Hq) as (j & a & Ha & Eq); subst q.
  exists (off1 f s + j), a. destruct (rd_concat_off f s st j a Hst Ha) as (P & _). split; auto. split; [lia|].
  apply (arc_at fs SO DO k f s st j a Hk Hst Ha).
Qed.

Lemma arow_nodup s : NoDup (arow s).
Proof.
  unfold arow. destruct (rd (idx_rows (concat fs)) s) as [r|] eqn:E; [|constructor].
  unfold idx_rows in E. rewrite rd_imap in E. destruct (rd (concat fs) s); [|discriminate]. cbn in E. injection E as <-.
  apply FinFun.Injective_map_NoDup; [|apply NoDup_zrange]. intros x y. lia.
Qed.

Variables (O : list (list Z)) (PA : Z -> bool) (na : Z -> arc).
Definition xt (o : list Z) : list (list (arc * Z)) :=
  map (fun s => map (fun q => (na q, q)) (filter PA (arow s))) o.
Definition x_ts : list (list (list (arc * Z))) := map xt O.

Definition new_fsa (o : list Z) : nfsa := map (map fst) (xt o).
Definition new_map (o : list Z) : list Z := map snd (concat (xt o)).

Lemma new_map_eq o : new_map o = concat (map (fun s => filter PA (arow s)) o).
Proof.
  unfold new_map, xt. rewrite concat_map, map_map. f_equal. apply map_ext. intros s. rewrite map_map. apply map_id.
Qed.
Lemma new_arcs_eq o : all_arcs (new_fsa o) = map na (new_map o).
Proof.
  rewrite new_map_eq. unfold all_arcs, new_fsa, xt. rewrite concat_map, !map_map. f_equal. apply map_ext. intros s.
  rewrite map_map. reflexivity.
Qed.

Variables (k : Z) (f : nfsa) (o : list Z).
Hypothesis Hk : rd fs k = Some f.
Hypothesis ON : NoDup o.
Hypothesis OR : forall s, In s o -> 0 <= s - off1 fs k < zlen f.
Hypothesis HPA : forall j a, rd (all_arcs f) j = Some a -> In (off1 fs k + src a) o ->
  (PA (abase k + j) = true <-> In (off1 fs k + dst a) o).
Hypothesis HNA : forall j a, rd (all_arcs f) j = Some a -> In (off1 fs k + src a) o -> In (off1 fs k + dst a) o ->
  lab (na (abase k + j)) = lab a /\ sc (na (abase k + j)) = sc a /\
  rd o (src (na (abase k + j))) = Some (off1 fs k + src a) /\ rd o (dst (na (abase k + j))) = Some (off1 fs k + dst a).

Lemma in_new_map q : In q (new_map o) <->
  exists j a, rd (all_arcs f) j = Some a /\ q = abase k + j /\ In (src a) (local fs k o) /\ In (dst a) (local fs k o).
Proof.
  rewrite new_map_eq, in_concat. split.
  - intros (l & Hl & Hq). apply in_map_iff in Hl as (s & <- & Hs). apply filter_In in Hq as (Hq & HP).
    pose proof (OR s Hs) as B. replace s with (off1 fs k + (s - off1 fs k)) in Hq by lia.
    destruct (arow_inv k f _ q Hk B Hq) as (j & a & Ha & -> & Es). exists j, a. split; auto. split; auto.
    assert (In (off1 fs k + src a) o) by (rewrite Es; now replace (off1 fs k + (s - off1 fs k)) with s by lia).
    rewrite !in_local. split; auto. now apply (HPA j a).
  - intros (j & a & Ha & -> & Is & Id). rewrite in_local in Is, Id.
    exists (filter PA (arow (off1 fs k + src a))). split; [now apply in_map with (f := fun s => filter PA (arow s))|].
    apply filter_In. split; [apply (arc_by_pos k f j a Hk Ha)|]. now apply (HPA j a).
Qed.

Lemma zlen_new_fsa : zlen (new_fsa o) = zlen o.
Proof. unfold new_fsa, xt. now rewrite !zlen_map. Qed.

Lemma new_src i st b : rd (new_fsa o) i = Some st -> In b st -> src b = i.
Proof.
  unfold new_fsa, xt. rewrite map_map, rd_map. destruct (rd o i) as [s|] eqn:Es; [|discriminate]. cbn [option_map].
  intros E Hb. injection E as <-. rewrite map_map in Hb. apply in_map_iff in Hb as (q & <- & Hq). apply filter_In in Hq as (Hq & HP). cbn [fst].
  pose proof (OR s (rd_In _ _ _ Es)) as B. replace s with (off1 fs k + (s - off1 fs k)) in Hq by lia.
  destruct (arow_inv k f _ q Hk B Hq) as (j & a & Ha & -> & E2).
  assert (Is : In (off1 fs k + src a) o).
  { rewrite E2. replace (off1 fs k + (s - off1 fs k)) with s by lia. eapply rd_In; eauto. }
  destruct (HNA j a Ha Is) as (_ & _ & N & _); [now apply (HPA j a)|].
  rewrite E2 in N. replace (off1 fs k + (s - off1 fs k)) with s in N by lia. eapply NoDup_rd; eauto.
Qed.

Lemma new_map_nodup : NoDup (new_map o).
Proof.
  rewrite new_map_eq. clear HPA HNA. induction o as [|s l IH]; cbn [map concat]; [constructor|].
  inversion ON as [|? ? H1 H2]; subst. apply NoDup_app_disj.
  - apply NoDup_filter, arow_nodup.
  - apply IH; auto. intros; apply OR; now right.
  - intros q H3 H4. apply filter_In in H3 as (H3 & _). apply in_concat in H4 as (r & H4 & H5).
    apply in_map_iff in H4 as (s' & <- & Hs'). apply filter_In in H5 as (H5 & _).
    pose proof (OR s (or_introl eq_refl)) as B. pose proof (OR s' (or_intror Hs')) as B'.
    replace s with (off1 fs k + (s - off1 fs k)) in H3 by lia. replace s' with (off1 fs k + (s' - off1 fs k)) in H5 by lia.
    destruct (arow_inv k f _ q Hk B H3) as (j & a & Ha & E1 & E2). destruct (arow_inv k f _ q Hk B' H5) as (j' & a' & Ha' & E1' & E2').
    assert (j = j') by lia. subst j'. assert (a = a') by congruence. subst a'. apply H1. now replace s with s' by lia.
Qed.

Theorem extracts_ok : extracts (abase k) f (local fs k o) (new_fsa o) (new_map o).
Proof.
  unfold extracts. split.
  { unfold local. apply FinFun.Injective_map_NoDup; auto. intros x y. lia. }
  split. { intros s Hs. apply in_local in Hs. apply OR in Hs. unfold nstates. lia. }
  split. { unfold nstates, local. now rewrite zlen_new_fsa, zlen_map. }
  assert (Q : forall q b i, rd (all_arcs (new_fsa o)) q = Some b -> rd (new_map o) q = Some i ->
     exists j a, i = abase k + j /\ rd (all_arcs f) j = Some a /\
       rd (local fs k o) (src b) = Some (src a) /\ rd (local fs k o) (dst b) = Some (dst a) /\ lab b = lab a /\ sc b = sc a).
  { intros q b i Hb Hi. rewrite new_arcs_eq, rd_map, Hi in Hb. injection Hb as <-.
    apply rd_In, in_new_map in Hi as (j & a & Ha & -> & Is & Id). rewrite in_local in Is, Id.
    destruct (HNA j a Ha Is Id) as (N1 & N2 & N3 & N4). exists j, a. split; auto. split; auto.
    split; [rewrite (rd_local _ _ _ _ _ N3); f_equal; lia|]. split; [rewrite (rd_local _ _ _ _ _ N4); f_equal; lia|]. auto. }
  split.
  { split. { intros i st b H1 H2. eapply new_src; eauto. }
    intros b Hb. apply In_rd in Hb as (q & Hq & Hb). rewrite new_arcs_eq, zlen_map in Hq.
    destruct (rd_in_bound _ _ Hq) as (i & Hi). destruct (Q q b i Hb Hi) as (j & a & _ & _ & _ & Hd & _).
    apply rd_Some_bound in Hd. unfold local in Hd. rewrite zlen_map in Hd. unfold nstates. now rewrite zlen_new_fsa. }
  split. { now rewrite new_arcs_eq, zlen_map. }
  split; auto. split; [|apply new_map_nodup].
  intros j a Ha Is Id. apply in_new_map. exists j, a. auto.
Qed.
End X.

(** ** Paths of an extracted automaton *)
Section P.
Variables (base : Z) (f : nfsa) (o : list Z) (g : nfsa) (gm : list Z).
Hypothesis X : extracts base f o g gm.
Hypothesis WF : well_formed f.

Lemma x_arc b : In b (all_arcs g) -> exists a, In a (all_arcs f) /\ rd o (src b) = Some (src a) /\
  rd o (dst b) = Some (dst a) /\ lab b = lab a /\ sc b = sc a.
Proof.
  destruct X as (_ & _ & _ & _ & L & Q & _). intros H. apply In_rd in H as (q & Hq & Hb). rewrite <- L in Hq.
  destruct (rd_in_bound _ _ Hq) as (i & Hi). destruct (Q q b i Hb Hi) as (j & a & _ & Ha & R). exists a. split; auto. eapply rd_In; eauto.
Qed.
Lemma x_arc_back a i i' : In a (all_arcs f) -> rd o i = Some (src a) -> rd o i' = Some (dst a) ->
  In (mkArc i i' (lab a) (sc a)) (all_arcs g).
Proof.
  destruct X as (ND & _ & _ & _ & L & Q & R & _). intros Ha H1 H2. apply In_rd in Ha as (j & Hj & Ha).
  assert (I : In (base + j) gm) by (apply (R j a Ha); eapply rd_In; eauto).
  apply In_rd in I as (q & Hq & Hi). rewrite L in Hq. destruct (rd_in_bound _ _ Hq) as (b & Hb).
  destruct (Q q b _ Hb Hi) as (j' & a' & E & Ha' & B1 & B2 & B3 & B4). assert (j' = j) by lia. subst j'.
  assert (a' = a) by congruence. subst a'.
  replace (mkArc i i' (lab a) (sc a)) with b; [eapply rd_In; eauto|]. destruct b as [bs bd bl bsc]; cbn in *.
  rewrite B3, B4. f_equal; eapply NoDup_rd; eauto.
Qed.

Lemma x_path p : forall i i', path (all_arcs g) i p i' -> forall s, rd o i = Some s -> exists s' p',
  rd o i' = Some s' /\ path (all_arcs f) s p' s' /\ labels p' = labels p /\ score p' = score p /\
  (forall a, In a p' -> In (src a) o /\ In (dst a) o).
Proof.
  induction p as [|b p IH]; intros i i' H s Hs.
  - destruct (path_inv _ _ _ _ H) as [(_ & <-)|(? & ? & E & _)]; [|discriminate]. exists s, []. split; auto. split; [constructor|].
    split; auto. split; auto. intros a [].
  - destruct (path_inv _ _ _ _ H) as [(E & _)|(b' & p' & E & HI & <- & HP)]; [discriminate|]. injection E as <- <-.
    destruct (x_arc b HI) as (a & Ha & A1 & A2 & A3 & A4). destruct (IH _ _ HP (dst a) A2) as (s' & p' & E1 & P & L & SC & IN).
    assert (src a = s) by congruence. subst s.
    exists s', (a :: p'). split; auto. split; [now constructor|]. rewrite !labels_cons, !score_cons. split; [congruence|]. split; [lia|].
    intros c [<-|Hc]; [|auto]. split; eapply rd_In; eauto.
Qed.

Lemma x_path_back p : forall s s', path (all_arcs f) s p s' -> (forall a, In a p -> In (src a) o /\ In (dst a) o) ->
  forall i i', rd o i = Some s -> rd o i' = Some s' -> exists p',
  path (all_arcs g) i p' i' /\ labels p' = labels p /\ score p' = score p.
Proof.
  induction p as [|a p IH]; intros s s' H HO i i' Hi Hi'.
  - destruct (path_inv _ _ _ _ H) as [(_ & <-)|(? & ? & E & _)]; [|discriminate]. exists [].
    destruct X as (ND & _). assert (i = i') by (eapply NoDup_rd; eauto). subst. split; [constructor|auto].
  - destruct (path_inv _ _ _ _ H) as [(E & _)|(b' & p' & E & HI & <- & HP)]; [discriminate|]. injection E as <- <-.
    destruct (HO a (or_introl eq_refl)) as (O1 & O2). apply In_rd in O2 as (m & Hm & Em).
    destruct (IH _ _ HP ltac:(intros; apply HO; now right) m i' Em Hi') as (p' & P & L & SC).
    exists (mkArc i m (lab a) (sc a) :: p'). split.
    + eapply path_step; [now apply x_arc_back|reflexivity|exact P].
    + rewrite !labels_cons, !score_cons. cbn [lab sc]. split; [congruence|lia].
Qed.

(** If the listed states contain every state on a successful path, and start
    and end with the start and the final state, the language is the same. *)
Hypothesis OE : o = [] \/ (rd o 0 = Some 0 /\ rd o (zlen o - 1) = Some (final f)).
Hypothesis OU : forall s, useful f s -> In s o.

Lemma on_path_useful p : path (all_arcs f) 0 p (final f) -> forall a, In a p -> useful f (src a) /\ useful f (dst a).
Proof.
  intros H a Ha. apply in_split in Ha as (p1 & p2 & ->). pose proof (path_arcs_in _ _ _ _ H) as F.
  apply path_app_inv in H as (m & P1 & P2). destruct (path_inv _ _ _ _ P2) as [(E & _)|(a' & p' & E & HI & <- & HP)]; [discriminate|].
  injection E as <- <-. destruct WF as (W1 & W2). split.
  - split; [now apply src_ok_range|]. split; [eauto|]. exists (a :: p2). now constructor.
  - split; [now apply W2|]. split; [|eauto]. exists (p1 ++ [a]). eapply path_app; eauto. now apply path_one.
Qed.

Lemma x_success : forall w s, (exists p, path (all_arcs g) 0 p (final g) /\ labels p = w /\ score p = s) <->
  (exists p, path (all_arcs f) 0 p (final f) /\ labels p = w /\ score p = s).
Proof.
  intros w s. assert (NG : final g = zlen o - 1) by (unfold final; destruct X as (_ & _ & N & _); unfold nstates in N; lia). split.
  - intros (p & P & L & SC). destruct OE as [OO|(O1 & O2)].
    + exfalso. rewrite NG, OO in P. change (zlen (@nil Z) - 1) with (-1) in P. destruct (path_inv _ _ _ _ P) as [(_ & E)|(b & p' & E & HI & E2 & HP)]; [lia|].
      destruct (x_arc b HI) as (a & _ & A1 & _). rewrite OO, rd_nil in A1. discriminate.
    + destruct (x_path p _ _ P 0 O1) as (s' & p' & E1 & P' & L' & SC' & _). rewrite NG, O2 in E1. injection E1 as <-.
      exists p'. repeat split; congruence.
  - intros (p & P & L & SC). destruct OE as [OO|(O1 & O2)].
    + exfalso. destruct (path_inv _ _ _ _ P) as [(_ & E)|(b & p' & E & HI & E2 & HP)].
      * assert (U : useful f 0). { split; [unfold final, nstates in *; lia|]. split; exists p; auto. rewrite E at 2. auto. }
        apply OU in U. rewrite OO in U. destruct U.
      * subst p. destruct (on_path_useful _ P b (or_introl eq_refl)) as (U & _). apply OU in U. rewrite OO in U. destruct U.
    + destruct (x_path_back p 0 (final f) P) with (i := 0) (i' := zlen o - 1) as (p' & P' & L' & SC'); auto.
      { intros a Ha. destruct (on_path_useful p P a Ha). auto. }
      exists p'. rewrite NG. repeat split; congruence.
Qed.

Lemma x_accepts w s : accepts g w s <-> accepts f w s.
Proof. apply x_success. Qed.
Lemma x_accepts_str w s : accepts_str g w s <-> accepts_str f w s.
Proof.
  unfold accepts_str. split.
  - intros (p & P & L & SC). destruct (proj1 (x_success (labels p) s)) as (p' & P' & L' & SC'); [eauto|]. exists p'. rewrite L'. auto.
  - intros (p & P & L & SC). destruct (proj2 (x_success (labels p) s)) as (p' & P' & L' & SC'); [eauto|]. exists p'. rewrite L'. auto.
Qed.

Lemma x_valid : o <> [] -> valid f -> valid g.
Proof.
  intros NE (V1 & V2 & V3). destruct X as (ND & OR & N & (G1 & G2) & _). destruct OE as [OO|(O1 & O2)]; [congruence|].
  assert (NZ : zlen o <> 1). { intros E. rewrite E in O2. change (1 - 1) with 0 in O2. unfold final, nstates in *. assert (0 = zlen f - 1) by congruence. lia. }
  pose proof (rd_Some_bound _ _ _ O1). split; auto. split; [lia|]. intros b Hb. destruct (x_arc b Hb) as (a & Ha & A1 & A2 & A3 & A4).
  destruct (V3 a Ha) as (W1 & W2 & W3 & W4). split; auto. split; [lia|].
  assert (FG : final g = zlen o - 1) by (unfold final, nstates in *; lia). rewrite FG. split.
  - rewrite A3, W3. split; intros E.
    + rewrite E in A2. eapply NoDup_rd; eauto.
    + rewrite E in A2. congruence.
  - intros E. rewrite E in A1. congruence.
Qed.
End P.
