(** * The constructor: transposed arcs, compressed arcs and layout *)
From Coq Require Import ZArith List Lia Bool Permutation.
From Verif Require Import Base RaggedModel RaggedSpec RaggedProofs FsaSpec FsaLemmas RaggedOpsProofs OpsModel ReverseModel ReverseProofs IntersectSpec IDenseModel IDenseSpec IDensePaths.
From Verif Require GraphProofs.
Import ListNotations.
Open Scope Z_scope.

(** ** generic *)
Lemma off1_scale {X A B} (g : X -> list A) (h : X -> list B) c (l : list X) k :
  (forall x, In x l -> zlen (g x) = c * zlen (h x)) -> off1 (map g l) k = c * off1 (map h l) k.
Proof.
  intros H. unfold off1. rewrite !firstn_map, <- !zsum_zlen_concat, !map_map.
  assert (H' : forall x, In x (firstn (Z.to_nat k) l) -> zlen (g x) = c * zlen (h x)).
  { intros x Hx. apply H. rewrite <- (firstn_skipn (Z.to_nat k) l). apply in_or_app. now left. }
  clear H. induction (firstn (Z.to_nat k) l) as [|x t IH]; [change (zsum (map (fun x => zlen (g x)) [])) with 0; change (zsum (map (fun x => zlen (h x)) [])) with 0; lia|].
  cbn [map]. unfold zsum in *. cbn [fold_right]. rewrite IH, H' by (intros; auto using in_eq, in_cons). lia.
Qed.
Lemma off1_same {A B} (ll : list (list A)) (mm : list (list B)) k : map zlen ll = map zlen mm -> off1 ll k = off1 mm k.
Proof. intros H. unfold off1. rewrite <- !zsum_zlen_concat, <- !firstn_map, H. reflexivity. Qed.
Lemma off1_all {A} (ll : list (list A)) : off1 ll (zlen ll) = zlen (concat ll).
Proof. unfold off1. rewrite firstn_all2; [reflexivity|unfold zlen; lia]. Qed.
Lemma off1_first {A} (ll : list (list A)) c k : k <= c -> off1 (firstn (Z.to_nat c) ll) k = off1 ll k.
Proof. intros H. unfold off1. rewrite firstn_firstn. do 3 f_equal. lia. Qed.
Lemma rd_first {A} (l : list A) c k : k < c -> rd (firstn (Z.to_nat c) l) k = rd l k.
Proof.
  intros H. unfold rd. destruct (k <? 0) eqn:E; [reflexivity|]. apply Z.ltb_ge in E.
  assert (G : forall n i (m : list A), (i < n)%nat -> nth_error (firstn n m) i = nth_error m i).
  { clear. induction n as [|n IH]; intros i m H; [lia|]. destruct m as [|x m]; [now destruct i|]. destruct i; [reflexivity|]. cbn. apply IH. lia. }
  apply G. lia.
Qed.
Lemma zlen_first {A} (l : list A) c : 0 <= c <= zlen l -> zlen (firstn (Z.to_nat c) l) = c.
Proof. intros H. unfold zlen in *. rewrite firstn_length. lia. Qed.

Fixpoint posof (x : Z) (l : list Z) : Z :=
  match l with [] => 0 | y :: l' => if y =? x then 0 else 1 + posof x l' end.
Lemma posof_rd l : NoDup l -> forall p x, rd l p = Some x -> posof x l = p.
Proof.
  induction 1 as [|y l Hy ND IH]; intros p x H; [rewrite rd_nil in H; discriminate|]. pose proof (rd_Some_bound _ _ _ H).
  rewrite rd_cons in H. cbn [posof]. destruct (p =? 0) eqn:E.
  - apply Z.eqb_eq in E as ->. injection H as ->. now rewrite Z.eqb_refl.
  - apply Z.eqb_neq in E. destruct (y =? x) eqn:Ey.
    + apply Z.eqb_eq in Ey as ->. exfalso. apply Hy. exact (rd_In _ _ _ H).
    + rewrite (IH _ _ H). lia.
Qed.
Lemma invert_ok ord l : (forall n, is_sched n (ord n)) -> NoDup l -> (forall x, In x l <-> 0 <= x < zlen l) ->
  invert_permutation ord l = Some (tab (zlen l) (fun x => posof x l)).
Proof.
  intros Ho ND HI. unfold invert_permutation. apply k2_fill_spec with (m := zlen l); [apply zlen_nonneg|apply Ho| |].
  - intros i Hi. destruct (rd_in_bound l i Hi) as (x & Hx). rewrite Hx. eexists. split; [reflexivity|]. constructor; [|constructor].
    split; cbn [fst snd]; [apply HI; exact (rd_In _ _ _ Hx)|]. symmetry. now apply posof_rd.
  - intros j Hj. apply HI in Hj. apply In_rd in Hj as (i & Hi & Hx). exists i. rewrite Hx. eexists. split; [exact Hi|]. split; [reflexivity|]. now left.
Qed.
Lemma filter_none {X} (p : X -> bool) l : (forall x, In x l -> p x = false) -> filter p l = [].
Proof. intros H. induction l as [|x l IH]; [reflexivity|]. cbn. rewrite H by apply in_eq. apply IH. intros. apply H. now apply in_cons. Qed.
Lemma filter_ext_in' {X} (p q : X -> bool) l : (forall x, In x l -> p x = q x) -> filter p l = filter q l.
Proof. intros H. induction l as [|x l IH]; [reflexivity|]. cbn. rewrite H by apply in_eq. rewrite IH; [reflexivity|]. intros. apply H. now apply in_cons. Qed.

(** ** entering arcs of one graph *)
Definition darc (f : nfsa) (i : Z) : arc := match rd (concat f) i with Some a => a | None => mkArc 0 0 0 0 end.
Definition lbucket (f : nfsa) (s : Z) : list Z := filter (fun i => dst (darc f i) =? s) (zrange (zlen (concat f))).
Definition linc (f : nfsa) : list (list Z) := tab (zlen f) (lbucket f).

Lemma filter_index {X} (p : X -> bool) (l : list X) d : map (fun i => match rd l i with Some x => x | None => d end) (filter (fun i => p (match rd l i with Some x => x | None => d end)) (zrange (zlen l))) = filter p l.
Proof.
  induction l as [|x l IH] using rev_ind; [reflexivity|].
  rewrite zlen_app. change (zlen [x]) with 1. rewrite zrange_S by apply zlen_nonneg. rewrite !filter_app, map_app. f_equal.
  - rewrite <- IH at 1. rewrite (filter_ext_in' _ (fun i => p (match rd l i with Some x => x | None => d end))).
    + apply map_ext_in. intros i Hi. apply filter_In in Hi as (Hi & _). apply in_zrange in Hi. now rewrite rd_app_l by lia.
    + intros i Hi. apply in_zrange in Hi. now rewrite rd_app_l by lia.
  - cbn [filter]. rewrite rd_app_r by lia. rewrite Z.sub_diag. change (rd [x] 0) with (Some x). cbv iota. destruct (p x); [|reflexivity].
    cbn [map]. rewrite rd_app_r by lia. rewrite Z.sub_diag. reflexivity.
Qed.
Lemma lbucket_arcs f s : map (darc f) (lbucket f s) = filter (fun a => dst a =? s) (concat f).
Proof. apply (filter_index (fun a => dst a =? s) (concat f)). Qed.
Lemma in_lbucket f s i : In i (lbucket f s) <-> exists a, rd (concat f) i = Some a /\ dst a = s.
Proof.
  unfold lbucket. rewrite filter_In, in_zrange. unfold darc. split.
  - intros (Hi & H). destruct (rd_in_bound _ _ Hi) as (a & Ha). rewrite Ha in H. exists a. split; [exact Ha|]. now apply Z.eqb_eq.
  - intros (a & Ha & <-). rewrite Ha. split; [exact (rd_Some_bound _ _ _ Ha)|apply Z.eqb_refl].
Qed.
Lemma zlen_linc f : zlen (linc f) = zlen f.
Proof. apply zlen_tab, zlen_nonneg. Qed.

Section Graph.
Variable f : nfsa.
Hypothesis Hdst : forall a, In a (all_arcs f) -> 0 <= dst a < zlen f.
Lemma linc_NoDup : NoDup (concat (linc f)).
Proof.
  assert (G : forall n, NoDup (concat (map (lbucket f) (zrange (Z.of_nat n))))).
  { induction n as [|n IH]; [constructor|]. replace (Z.of_nat (S n)) with (Z.of_nat n + 1) by lia. rewrite zrange_S, map_app, concat_app by lia.
    cbn [map concat]. rewrite app_nil_r. apply NoDup_app_disj; [exact IH|apply NoDup_filter, NoDup_zrange|].
    intros i H1 H2. apply in_concat in H1 as (l & Hl & H1). apply in_map_iff in Hl as (s & <- & Hs). apply in_zrange in Hs.
    apply in_lbucket in H1 as (a & Ha & E). apply in_lbucket in H2 as (a' & Ha' & E'). rewrite Ha in Ha'. injection Ha' as <-. lia. }
  specialize (G (Z.to_nat (zlen f))). rewrite Z2Nat.id in G by apply zlen_nonneg. exact G.
Qed.
Lemma linc_in i : In i (concat (linc f)) <-> 0 <= i < zlen (concat f).
Proof.
  unfold linc. rewrite in_concat. split.
  - intros (l & Hl & Hi). apply In_rd in Hl as (s & _ & Hl). apply GraphProofs.rd_tab_Some in Hl as (_ & ->). apply in_lbucket in Hi as (a & Ha & _). exact (rd_Some_bound _ _ _ Ha).
  - intros Hi. destruct (rd_in_bound _ _ Hi) as (a & Ha). exists (lbucket f (dst a)). split; [|apply in_lbucket; eauto].
    apply (rd_In _ (dst a)). apply rd_tab. apply Hdst. exact (rd_In _ _ _ Ha).
Qed.
Lemma zlen_concat_linc : zlen (concat (linc f)) = zlen (concat f).
Proof.
  assert (P : Permutation (concat (linc f)) (zrange (zlen (concat f)))).
  { apply NoDup_Permutation; [apply linc_NoDup|apply NoDup_zrange|]. intros i. rewrite linc_in, in_zrange. reflexivity. }
  apply Permutation_length in P. unfold zlen at 1. rewrite P, zrange_length. pose proof (zlen_nonneg (concat f)). lia.
Qed.
End Graph.

Section Batch.
Variable V : list nfsa.
Hypothesis SO : Forall src_ok V.
Hypothesis DO : Forall (fun f : nfsa => forall a, In a (all_arcs f) -> 0 <= dst a < nstates f) V.
Notation ao k := (first_arc V k).
Definition Inc : list (list (list Z)) := imap (fun k f => map (map (Z.add (ao k))) (linc f)) 0 V.

Lemma V_dst k f : rd V k = Some f -> forall a, In a (all_arcs f) -> 0 <= dst a < zlen f.
Proof. intros H. rewrite Forall_forall in DO. exact (DO f (rd_In _ _ _ H)). Qed.
Lemma V_src k f : rd V k = Some f -> src_ok f.
Proof. intros H. rewrite Forall_forall in SO. exact (SO f (rd_In _ _ _ H)). Qed.
Lemma ao_next k f : rd V k = Some f -> ao (k + 1) = ao k + zlen (concat f).
Proof. intros H. unfold first_arc. apply off1_next. now rewrite rd_map, H. Qed.
Lemma ao_total k : ao k <= zlen (concat (concat V)).
Proof. unfold first_arc. rewrite <- concat_map_concat. apply off1_bound. Qed.
Lemma rd_arcs k f i a : rd V k = Some f -> rd (concat f) i = Some a -> rd (concat (concat V)) (ao k + i) = Some a.
Proof.
  intros Hk Hi. rewrite <- concat_map_concat. refine (proj1 (rd_concat_off (map (@concat arc) V) k (concat f) i a _ Hi)). now rewrite rd_map, Hk.
Qed.
Lemma arcs_inv g a : rd (concat (concat V)) g = Some a -> exists k f i, rd V k = Some f /\ rd (concat f) i = Some a /\ g = ao k + i.
Proof.
  rewrite <- concat_map_concat. intros H. apply rd_concat_inv in H as (k & l & i & H1 & H2 & H3 & _). rewrite rd_map in H1.
  destruct (rd V k) as [f|] eqn:Ef; [|discriminate]. injection H1 as <-. eauto 6.
Qed.
Lemma rd_gd k f i a : rd V k = Some f -> rd (concat f) i = Some a -> rd (gdest V) (ao k + i) = Some (off1 V k + dst a).
Proof.
  intros Hk Hi. apply rd_concat_inv in Hi as (r & st & j & H1 & H2 & -> & _). unfold first_arc.
  rewrite Z.add_assoc. exact (rd_gdest V k f r st j a Hk H1 H2).
Qed.
Lemma st_ids k f i a : rd V k = Some f -> rd (concat f) i = Some a -> rd (ids_of (concat V)) (ao k + i) = Some (off1 V k + src a) /\ 0 <= src a < zlen f.
Proof.
  intros Hk Hi. apply rd_concat_inv in Hi as (r & st & j & H1 & H2 & -> & _).
  destruct (arc_at V SO DO k f r st j a Hk H1 H2) as (_ & E & -> & _). unfold first_arc. rewrite Z.add_assoc. split; [exact E|exact (rd_Some_bound _ _ _ H1)].
Qed.

Lemma off1_Inc k : off1 Inc k = off1 V k.
Proof.
  apply off1_same. unfold Inc. rewrite map_imap. rewrite (imap_ext _ (fun _ f => zlen f)); [apply imap_const|]. intros. now rewrite zlen_map, zlen_linc.
Qed.
Lemma buckets_nested : buckets (gdest V) (zlen (concat V)) = concat Inc.
Proof.
  assert (EL : zlen (concat Inc) = zlen (concat V)).
  { rewrite <- !off1_all. rewrite off1_Inc. unfold Inc. now rewrite zlen_imap. }
  apply list_ext_rd.
  - unfold buckets. rewrite zlen_tab by apply zlen_nonneg. now rewrite EL.
  - intros g Hg. unfold buckets in *. rewrite zlen_tab in Hg by apply zlen_nonneg.
    rewrite rd_tab by lia. destruct (rd_in_bound (concat V) g Hg) as (st & Hst). apply rd_concat_inv in Hst as (k & f & s & H1 & H2 & -> & _).
    pose proof (rd_Some_bound _ _ _ H2) as Bs.
    assert (R : rd (concat Inc) (off1 V k + s) = Some (map (Z.add (ao k)) (lbucket f s))).
    { rewrite <- off1_Inc. apply (proj1 (rd_concat_off Inc k (map (map (Z.add (ao k))) (linc f)) s _ ltac:(unfold Inc; rewrite rd_imap, H1; cbn; now rewrite Z.add_0_l) ltac:(rewrite rd_map; unfold linc; rewrite rd_tab by lia; reflexivity))). }
    rewrite R. f_equal. unfold bucket. rewrite zlen_gdest. pose proof (ao_next k f H1) as NX. pose proof (ao_total (k + 1)).
    assert (0 <= ao k) by apply off1_nonneg. pose proof (zlen_nonneg (concat f)).
    replace (zlen (concat (concat V))) with (ao k + (zlen (concat f) + (zlen (concat (concat V)) - ao (k + 1)))) by lia.
    assert (OTHER : forall i, In i (zrange (zlen (concat (concat V)))) -> ~ (ao k <= i < ao (k + 1)) -> match rd (gdest V) i with Some x => x =? off1 V k + s | None => false end = false).
    { intros i Hi NI. apply in_zrange in Hi. destruct (rd_in_bound _ _ Hi) as (a & Ha). apply arcs_inv in Ha as (k' & f' & i' & K1 & K2 & ->).
      rewrite (rd_gd k' f' i' a K1 K2). apply Z.eqb_neq. intros E. pose proof (V_dst k' f' K1 a (rd_In _ _ _ K2)).
      pose proof (off1_next V k f H1). pose proof (off1_next V k' f' K1). pose proof (ao_next k' f' K1). pose proof (rd_Some_bound _ _ _ K2).
      destruct (Z.lt_trichotomy k k') as [L|[->|L]]; [|lia|].
      - pose proof (off1_mono V (k + 1) k' ltac:(lia)). lia.
      - pose proof (off1_mono V (k' + 1) k ltac:(lia)). lia. }
    rewrite zrange_app by lia. rewrite filter_app, filter_none. 2:{ intros i Hi. apply in_zrange in Hi. apply OTHER; [apply in_zrange; lia|lia]. }
    cbn [app]. rewrite zrange_app by lia. rewrite map_app, filter_app.
    rewrite (filter_none _ (map _ (map _ _))). 2:{ intros i Hi. apply in_map_iff in Hi as (i1 & <- & Hi). apply in_map_iff in Hi as (i2 & <- & Hi). apply in_zrange in Hi. apply OTHER; [apply in_zrange; lia|lia]. }
    rewrite app_nil_r. unfold lbucket.
    assert (FM : forall l, (forall i, In i l -> 0 <= i < zlen (concat f)) -> filter (fun i => match rd (gdest V) i with Some x => x =? off1 V k + s | None => false end) (map (fun i => ao k + i) l) = map (Z.add (ao k)) (filter (fun i => dst (darc f i) =? s) l)).
    { induction l as [|i l IH]; intros HB; [reflexivity|]. cbn [map filter]. rewrite IH by (intros; apply HB; now apply in_cons).
      destruct (rd_in_bound _ _ (HB i (in_eq _ _))) as (a & Ha). rewrite (rd_gd k f i a H1 Ha). unfold darc. rewrite Ha.
      replace (off1 V k + dst a =? off1 V k + s) with (dst a =? s) by (destruct (Z.eqb_spec (dst a) s), (Z.eqb_spec (off1 V k + dst a) (off1 V k + s)); auto; lia).
      now destruct (dst a =? s). }
    apply FM. intros i Hi. now apply in_zrange in Hi.
Qed.

(** arcs of the first FSAs, in the order of their destinations *)
Lemma Inc_zlen : map zlen (map (@concat Z) Inc) = map zlen (map (@concat arc) V).
Proof.
  unfold Inc. rewrite map_imap, !map_map, map_imap. transitivity (imap (fun _ f => zlen (@concat arc f)) 0 V); [|apply imap_const].
  apply list_ext_rd; [now rewrite !zlen_imap|]. intros k _. rewrite !rd_imap. destruct (rd V k) as [f|] eqn:Ef; [|reflexivity]. cbn. f_equal.
  rewrite <- concat_map, zlen_map. apply zlen_concat_linc. exact (V_dst k f Ef).
Qed.
Lemma rd_inc k f i p : rd V k = Some f -> rd (concat (linc f)) p = Some i -> rd (concat (concat Inc)) (ao k + p) = Some (ao k + i).
Proof.
  intros Hk Hp. rewrite <- concat_map_concat. unfold first_arc at 1. replace (off1 (map all_arcs V) k) with (off1 (map (@concat Z) Inc) k) by exact (off1_same _ _ _ Inc_zlen).
  refine (proj1 (rd_concat_off _ k (map (Z.add (ao k)) (concat (linc f))) p _ _ _)).
  - unfold Inc. rewrite rd_map, rd_imap, Hk. cbn. now rewrite Z.add_0_l, concat_map.
  - rewrite rd_map, Hp. reflexivity.
Qed.
Lemma inc_perm : NoDup (concat (concat Inc)) /\ zlen (concat (concat Inc)) = zlen (concat (concat V)) /\ forall x, In x (concat (concat Inc)) <-> 0 <= x < zlen (concat (concat Inc)).
Proof.
  assert (EL : zlen (concat (concat Inc)) = zlen (concat (concat V))).
  { rewrite <- !concat_map_concat, <- !zsum_zlen_concat. now rewrite Inc_zlen. }
  assert (INV : forall g x, rd (concat (concat Inc)) g = Some x -> exists k f p i, rd V k = Some f /\ rd (concat (linc f)) p = Some i /\ g = ao k + p /\ x = ao k + i).
  { intros g x H. rewrite <- concat_map_concat in H. apply rd_concat_inv in H as (k & l & p & H1 & H2 & H3 & _).
    rewrite (off1_same _ (map (@concat arc) V) _ Inc_zlen) in H3.
    unfold Inc in H1. rewrite rd_map, rd_imap in H1. destruct (rd V k) as [f|] eqn:Ef; [|discriminate]. cbn in H1. injection H1 as <-. rewrite Z.add_0_l in H2.
    rewrite <- concat_map, rd_map in H2. destruct (rd (concat (linc f)) p) as [i|] eqn:Ei; [|discriminate]. injection H2 as <-. exists k, f, p, i. auto. }
  split; [|split; [exact EL|]].
  - apply NoDup_nth_error. intros n n' Hn E.
    assert (B : 0 <= Z.of_nat n < zlen (concat (concat Inc))) by (unfold zlen; lia).
    destruct (rd_in_bound _ _ B) as (x & Hx). assert (Hx' : rd (concat (concat Inc)) (Z.of_nat n') = Some x) by (rewrite rd_nth, <- E, <- rd_nth; exact Hx).
    apply INV in Hx as (k & f & p & i & K1 & K2 & K3 & K4). apply INV in Hx' as (k' & f' & p' & i' & K1' & K2' & K3' & K4').
    pose proof (proj1 (linc_in f (V_dst _ _ K1) i) (rd_In _ _ _ K2)). pose proof (proj1 (linc_in f' (V_dst _ _ K1') i') (rd_In _ _ _ K2')).
    pose proof (ao_next _ _ K1). pose proof (ao_next _ _ K1').
    assert (k = k').
    { destruct (Z.lt_trichotomy k k') as [L|[->|L]]; [|reflexivity|]; exfalso.
      - pose proof (off1_mono (map all_arcs V) (k + 1) k' ltac:(lia)) as M. change (ao (k + 1) <= ao k') in M. lia.
      - pose proof (off1_mono (map all_arcs V) (k' + 1) k ltac:(lia)) as M. change (ao (k' + 1) <= ao k) in M. lia. }
    subst k'. rewrite K1 in K1'. injection K1' as <-. assert (i = i') by lia. subst i'.
    pose proof (linc_NoDup f (V_dst _ _ K1)) as ND. rewrite <- (posof_rd _ ND _ _ K2) in K3. rewrite <- (posof_rd _ ND _ _ K2') in K3'. lia.
  - intros x. rewrite EL. split.
    + intros H. apply In_rd in H as (g & _ & H). apply INV in H as (k & f & p & i & K1 & K2 & K3 & K4).
      pose proof (proj1 (linc_in f (V_dst _ _ K1) i) (rd_In _ _ _ K2)). pose proof (ao_next _ _ K1). pose proof (ao_total (k + 1)). assert (0 <= ao k) by apply off1_nonneg. lia.
    + intros H. destruct (rd_in_bound _ _ H) as (a & Ha). apply arcs_inv in Ha as (k & f & i & K1 & K2 & ->).
      pose proof (proj2 (linc_in f (V_dst _ _ K1) i) (rd_Some_bound _ _ _ K2)) as HI. apply In_rd in HI as (p & _ & Hp).
      exact (rd_In _ _ _ (rd_inc k f i p K1 Hp)).
Qed.
(** the place of arc [i] of FSA [k] in the transposed order *)
Lemma inc_idx ord : (forall n, is_sched n (ord n)) -> exists inv, invert_permutation ord (concat (concat Inc)) = Some inv /\
  forall k f i, rd V k = Some f -> 0 <= i < zlen (concat f) -> rd inv (ao k + i) = Some (ao k + posof i (concat (linc f))).
Proof.
  intros Ho. destruct inc_perm as (ND & EL & HI). exists (tab (zlen (concat (concat Inc))) (fun x => posof x (concat (concat Inc)))). split; [apply invert_ok; assumption|].
  intros k f i Hk Hi. pose proof (proj2 (linc_in f (V_dst _ _ Hk) i) Hi) as X. apply In_rd in X as (p & _ & Hp).
  pose proof (rd_inc k f i p Hk Hp) as R. rewrite rd_tab by (apply HI; exact (rd_In _ _ _ R)). f_equal.
  rewrite (posof_rd _ ND _ _ R), (posof_rd _ (linc_NoDup f (V_dst _ _ Hk)) _ _ Hp). reflexivity.
Qed.

(** ** the compressed arcs *)
Definition cin (k : Z) (f : nfsa) (i : Z) : Z := 2 * ao k + zlen (concat f) + posof i (concat (linc f)).
Definition carcs : list carc :=
  concat (imap (fun k f => imap (fun i a => mkCarc (src a) (dst a) (lab a + 1) k (cin k f i) (sc a)) 0 (concat f)) 0 V).
Hypothesis Hn : zlen V < 65536.
Hypothesis Hns : forall f, In f V -> zlen f < 65536.
Hypothesis Hlab : forall f a, In f V -> In a (all_arcs f) -> 0 <= lab a + 1 < 65536.

Lemma u16_id x : 0 <= x < 65536 -> u16 x = x.
Proof. intros. apply Z.mod_small. lia. Qed.
Lemma zlen_carcs : zlen carcs = zlen (concat (concat V)).
Proof.
  unfold carcs. rewrite <- concat_map_concat, <- !zsum_zlen_concat, map_map, map_imap. f_equal. rewrite <- (imap_const (fun x => zlen (concat x)) V 0). apply imap_ext. intros. apply zlen_imap.
Qed.
Lemma rd_carcs k f i a : rd V k = Some f -> rd (concat f) i = Some a ->
  rd carcs (ao k + i) = Some (mkCarc (src a) (dst a) (lab a + 1) k (cin k f i) (sc a)).
Proof.
  intros Hk Hi. unfold carcs, first_arc.
  replace (off1 (map all_arcs V) k) with (off1 (imap (fun k f => imap (fun i a => mkCarc (src a) (dst a) (lab a + 1) k (cin k f i) (sc a)) 0 (concat f)) 0 V) k).
  - refine (proj1 (rd_concat_off _ k (imap (fun i a => mkCarc (src a) (dst a) (lab a + 1) k (cin k f i) (sc a)) 0 (concat f)) i _ _ _)).
    + rewrite rd_imap, Hk. cbn. now rewrite Z.add_0_l.
    + rewrite rd_imap, Hi. cbn. now rewrite Z.add_0_l.
  - apply off1_same. rewrite map_imap, map_map. rewrite <- (imap_const (fun x => zlen (all_arcs x)) V 0). apply imap_ext. intros. apply zlen_imap.
Qed.
Lemma carcs_ok ord inv : invert_permutation ord (concat (concat Inc)) = Some inv ->
  (forall k f i, rd V k = Some f -> 0 <= i < zlen (concat f) -> rd inv (ao k + i) = Some (ao k + posof i (concat (linc f)))) ->
  mapM (init_carc (flat_vec V) (ids_of V) (ids_of (concat V)) inv) (zrange (zlen (concat (concat V)))) = Some carcs.
Proof.
  intros _ HI. rewrite <- zlen_carcs. apply GraphProofs.mapM_zrange. intros g c Hc. pose proof (rd_Some_bound _ _ _ Hc) as B. rewrite zlen_carcs in B.
  destruct (rd_in_bound _ _ B) as (a & Ha). pose proof Ha as Ha'. apply arcs_inv in Ha' as (k & f & i & K1 & K2 & ->).
  rewrite (rd_carcs k f i a K1 K2) in Hc. injection Hc as <-.
  unfold init_carc. cbn [flat_vec v_arcs v_rs1 v_rs2]. rewrite Ha. destruct (st_ids k f i a K1 K2) as (E1 & E2). rewrite E1.
  destruct (rd_in_bound f (src a) E2) as (st & Hst). destruct (rd_concat_off V k f (src a) st K1 Hst) as (_ & E3). rewrite E3. cbv zeta.
  pose proof (rd_Some_bound _ _ _ K1) as Bk. rewrite (u16_id k) by lia.
  rewrite !rd_splits_off by lia. 
  assert (E0 : forall j, 0 <= j <= zlen V -> rd (splits_of (concat V)) (off1 V j) = Some (ao j)).
  { intros j Hj. pose proof (off1_bound V j). pose proof (off1_nonneg V j). rewrite rd_splits_off by lia. f_equal.
    unfold first_arc. change (map all_arcs V) with (map (@concat arc) V). rewrite off1_map_concat. unfold off1. f_equal. f_equal.
    rewrite <- (firstn_skipn (Z.to_nat j) V) at 2. rewrite concat_app. unfold zlen. rewrite Nat2Z.id, firstn_app, firstn_all, Nat.sub_diag, firstn_O, app_nil_r. reflexivity. }
  rewrite !E0 by lia. rewrite (HI k f i K1) by exact (rd_Some_bound _ _ _ K2). f_equal. unfold cin.
  pose proof (V_dst k f K1 a (rd_In _ _ _ K2)). pose proof (Hns f (rd_In _ _ _ K1)). pose proof (Hlab f a (rd_In _ _ _ K1) (rd_In _ _ _ K2)).
  rewrite !u16_id by lia. rewrite (ao_next k f K1). f_equal. lia.
Qed.
Lemma rd_rs2 j : 0 <= j <= zlen V -> rd (splits_of (concat V)) (off1 V j) = Some (ao j).
Proof.
  intros Hj. pose proof (off1_bound V j). pose proof (off1_nonneg V j). rewrite rd_splits_off by lia. f_equal.
  unfold first_arc. change (map all_arcs V) with (map (@concat arc) V). rewrite off1_map_concat. unfold off1. f_equal. f_equal.
  rewrite <- (firstn_skipn (Z.to_nat j) V) at 2. rewrite concat_app. unfold zlen. rewrite Nat2Z.id, firstn_app, firstn_all, Nat.sub_diag, firstn_O, app_nil_r. reflexivity.
Qed.

(** ** the combined shape *)
Definition shape : list (list Z) := map (fun f : nfsa => map zlen f ++ map zlen (linc f)) V.
Lemma rd_rs k f s : rd V k = Some f -> 0 <= s <= zlen f -> rd (splits_of (concat V)) (off1 V k + s) = Some (ao k + off1 f s).
Proof.
  intros Hk Hs. pose proof (off1_next V k f Hk). pose proof (off1_bound V (k + 1)). pose proof (off1_nonneg V k).
  rewrite rd_splits_off by lia. rewrite (off1_concat V k f s Hk Hs). rewrite <- off1_map_concat. reflexivity.
Qed.
Lemma rd_irs k f s : rd V k = Some f -> 0 <= s <= zlen f -> rd (splits_of (concat Inc)) (off1 V k + s) = Some (ao k + off1 (linc f) s).
Proof.
  intros Hk Hs. 
  assert (HI : rd Inc k = Some (map (map (Z.add (ao k))) (linc f))) by (unfold Inc; rewrite rd_imap, Hk; cbn; now rewrite Z.add_0_l).
  pose proof (off1_next Inc k _ HI) as NX. rewrite zlen_map, zlen_linc in NX. pose proof (off1_bound Inc (k + 1)). pose proof (off1_nonneg V k).
  rewrite <- off1_Inc in *. rewrite rd_splits_off by lia. rewrite (off1_concat Inc k _ s HI) by (rewrite zlen_map, zlen_linc; lia).
  rewrite <- off1_map_concat. rewrite (off1_same _ _ k Inc_zlen). do 2 f_equal. apply off1_same. rewrite map_map. apply map_ext. intros. apply zlen_map.
Qed.
Lemma cat_ok : cat_shapes (splits_of V) (splits_of (concat V)) (splits_of (concat Inc)) = Some (exsum (map zlen shape), exsum (concat shape)).
Proof.
  unfold cat_shapes. rewrite zlen_splits_of. replace (zlen V + 1 - 1) with (zlen shape) by (unfold shape; rewrite zlen_map; lia).
  rewrite (GraphProofs.mapM_zrange shape); [reflexivity|].
  intros k x Hx. unfold shape in Hx. rewrite rd_map in Hx. destruct (rd V k) as [f|] eqn:Ef; [|discriminate]. injection Hx as <-.
  pose proof (rd_Some_bound _ _ _ Ef). rewrite !rd_splits_off by lia. pose proof (zlen_nonneg f).
  replace (off1 V (k + 1) - off1 V k) with (zlen f) by (rewrite (off1_next V k f Ef); lia).
  replace (zlen f) with (zlen (map zlen f)) at 1 by apply zlen_map. rewrite (GraphProofs.mapM_zrange (map zlen f)).
  2:{ intros s z Hz. pose proof (rd_Some_bound _ _ _ Hz) as B. rewrite zlen_map in B. rewrite rd_map in Hz. destruct (rd f s) as [st|] eqn:Es; [|discriminate]. injection Hz as <-.
      rewrite <- Z.add_assoc, !(rd_rs k f) by (assumption || lia). rewrite (off1_next f s st Es). f_equal. lia. }
  replace (zlen f) with (zlen (map zlen (linc f))) by (now rewrite zlen_map, zlen_linc). rewrite (GraphProofs.mapM_zrange (map zlen (linc f))).
  2:{ intros s z Hz. pose proof (rd_Some_bound _ _ _ Hz) as B. rewrite zlen_map, zlen_linc in B. rewrite rd_map in Hz. destruct (rd (linc f) s) as [st|] eqn:Es; [|discriminate]. injection Hz as <-.
      rewrite <- Z.add_assoc, !(rd_irs k f) by (assumption || lia). rewrite (off1_next (linc f) s st Es). f_equal. lia. }
  reflexivity.
Qed.
End Batch.
