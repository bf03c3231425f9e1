From Coq Require Import ZArith List Lia Bool Permutation.
From Coq Require Import ZifyBool ZifyNat.
From Verif Require Import Base RaggedModel RaggedSpec RaggedProofs FsaSpec FsaLemmas FsaOpsModel FsaOpsProofs
  EpsLoopProofs RaggedOpsProofs OpsModel FstSpec GraphProofs PropsProofs ReverseModel.
Import ListNotations.
Open Scope Z_scope.

(** ** GetTransposeReordering *)
Definition bucket (values : list Z) (c n : Z) : list Z :=
  filter (fun i => match rd values i with Some x => x =? c | None => false end) (zrange n).
Definition buckets (values : list Z) (num_cols : Z) : list (list Z) :=
  tab num_cols (fun c => bucket values c (zlen values)).

Lemma foldM_app {S B} (f : S -> B -> option S) l1 l2 s :
  foldM f (l1 ++ l2) s = (s' <- foldM f l1 s;; foldM f l2 s').
Proof. revert s; induction l1 as [|x l1 IH]; intros s; simpl; auto. destruct (f s x); auto. Qed.

Lemma transpose_ok values num_cols : 0 <= num_cols -> Forall (fun x => 0 <= x < num_cols) values ->
  transpose_reordering values num_cols = Some (concat (buckets values num_cols)).
Proof.
  intros Hc HF. unfold transpose_reordering.
  assert (G : forall d, Z.of_nat d <= zlen values ->
    foldM (fun cols i => bucket <- rd values i;; col <- rd cols bucket;; wr cols bucket (col ++ [i]))
      (zrange (Z.of_nat d)) (repeat [] (Z.to_nat num_cols)) = Some (tab num_cols (fun c => bucket values c (Z.of_nat d)))).
  { induction d as [|d IH]; intros Hd.
    - change (zrange (Z.of_nat 0)) with (@nil Z). cbn [foldM]. f_equal. apply list_ext_rd.
      + rewrite zlen_repeat, zlen_tab; lia.
      + intros i Hi. rewrite zlen_repeat in Hi. rewrite rd_repeat, rd_tab by lia. reflexivity.
    - replace (Z.of_nat (S d)) with (Z.of_nat d + 1) by lia. rewrite zrange_S by lia.
      rewrite foldM_app, IH by lia. cbn [foldM].
      destruct (rd_in_bound values (Z.of_nat d)) as (x & Hx); [lia|]. rewrite Hx.
      assert (Bx : 0 <= x < num_cols) by (rewrite Forall_forall in HF; apply HF; eapply rd_In; eauto).
      rewrite rd_tab by lia.
      destruct (wr_Some (tab num_cols (fun c => bucket values c (Z.of_nat d))) x (bucket values x (Z.of_nat d) ++ [Z.of_nat d]))
        as (l' & E1 & E2 & E3); [rewrite zlen_tab; lia|].
      rewrite E1. f_equal. rewrite zlen_tab in E2 by lia. apply list_ext_rd; [rewrite zlen_tab; lia|].
      intros j Hj. rewrite E3, !rd_tab by lia. unfold bucket at 3. rewrite zrange_S by lia. rewrite filter_app. cbn [filter].
      rewrite Hx. destruct (j =? x) eqn:E.
      + replace j with x by lia. rewrite Z.eqb_refl. reflexivity.
      + replace (x =? j) with false by lia. rewrite app_nil_r. reflexivity. }
  specialize (G (length values) ltac:(unfold zlen; lia)). fold (zlen values) in G. rewrite G. reflexivity.
Qed.

Lemma in_bucket values c n i : In i (bucket values c n) <-> 0 <= i < n /\ rd values i = Some c.
Proof.
  unfold bucket. rewrite filter_In, in_zrange. destruct (rd values i); [|split; intros (? & ?); discriminate].
  split; intros (H1 & H2); split; auto; [f_equal; lia|injection H2; lia].
Qed.

Lemma buckets_ids values num_cols : 0 <= num_cols ->
  mapM (rd values) (concat (buckets values num_cols)) = Some (ids_of (buckets values num_cols)).
Proof.
  intros H. apply mapM_by_rd; [unfold ids_of; now rewrite zlen_ids_from|].
  intros p i Hp. destruct (rd_concat_inv _ _ _ Hp) as (r & l & j & H1 & H2 & H3 & H4).
  rewrite H4. apply rd_tab_Some in H1 as (H1 & ->). apply rd_In, in_bucket in H2. tauto.
Qed.

Lemma incoming_arcs_ok n values : 0 <= n -> Forall (fun x => 0 <= x < n) values ->
  incoming_arcs n values = Some (splits_of (buckets values n), ids_of (buckets values n), concat (buckets values n)).
Proof.
  intros H HF. unfold incoming_arcs. rewrite transpose_ok by auto. rewrite buckets_ids by auto.
  assert (E : zlen (buckets values n) = n) by (unfold buckets; now apply zlen_tab).
  pose proof (splits_of_row_ids (buckets values n)) as R. rewrite E in R. rewrite R. reflexivity.
Qed.

Lemma NoDup_app_disj {X} (l1 l2 : list X) : NoDup l1 -> NoDup l2 -> (forall x, In x l1 -> In x l2 -> False) -> NoDup (l1 ++ l2).
Proof.
  induction l1 as [|x l1 IH]; intros H1 H2 H; simpl; auto. inversion H1; subst. constructor.
  - rewrite in_app_iff. intros [H'|H']; [auto|]. apply (H x); simpl; auto.
  - apply IH; auto. intros y Hy. apply H. now right.
Qed.

(** ** The reversed FSA, state by state *)
Definition rho (n s : Z) : Z := if s =? 0 then n - 1 else if s =? n - 1 then 0 else s.
Definition rev_arc (n : Z) (a : arc) : arc :=
  mkArc (rho n (dst a)) (rho n (src a)) (if lab a =? -1 then 0 else lab a) (sc a).

Lemma rho_range n s : 0 <= s < n -> 0 <= rho n s < n.
Proof. unfold rho. destruct (s =? 0) eqn:?, (s =? n - 1) eqn:?; lia. Qed.
Lemma rho_inv n s : 0 <= s < n -> rho n (rho n s) = s.
Proof. unfold rho. intros. destruct (s =? 0) eqn:?, (s =? n - 1) eqn:?, (n - 1 =? 0) eqn:?, (n - 1 =? n - 1) eqn:?; try lia;
  cbn; destruct (0 =? 0) eqn:?, (0 =? n - 1) eqn:?; try lia; destruct (s =? 0) eqn:?, (s =? n - 1) eqn:?; lia. Qed.

Section R.
Variable fs : list nfsa.
Hypothesis SO : Forall src_ok fs.
Hypothesis DO : Forall (fun f : nfsa => forall a, In a (all_arcs f) -> 0 <= dst a < nstates f) fs.

Let A := concat (concat fs).
Let S := zlen (concat fs).
(** global destination of every arc *)
Definition gdest : list Z := concat (imap (fun k f => map (fun a => off1 fs k + dst a) (concat f)) 0 fs).

Definition dflt (i : Z) : arc := match rd A i with Some a => a | None => mkArc 0 0 0 0 end.
Definition rev_state (k n s' : Z) : list (arc * Z) :=
  if s' =? n then [] else
  map (fun i => (rev_arc n (dflt i), i)) (bucket gdest (off1 fs k + rho n s') (zlen A)) ++
  (if s' =? n - 1 then [(mkArc (n - 1) n (-1) 0, -1)] else []).
Definition rev_nested (k : Z) (f : nfsa) : list (list (arc * Z)) :=
  if zlen f =? 0 then [] else tab (zlen f + 1) (rev_state k (zlen f)).
Definition rev_ts : list (list (list (arc * Z))) := imap rev_nested 0 fs.

Lemma zlen_gdest : zlen gdest = zlen A.
Proof.
  unfold gdest, A. rewrite <- concat_map_concat.
  rewrite <- !zsum_zlen_concat. f_equal. rewrite map_imap, map_map.
  rewrite (imap_ext _ (fun _ x => zlen (concat x))); [apply imap_const|]. intros. apply zlen_map.
Qed.

Lemma rd_gdest k f r st j a : rd fs k = Some f -> rd f r = Some st -> rd st j = Some a ->
  rd gdest (off1 (map (@concat arc) fs) k + off1 f r + j) = Some (off1 fs k + dst a).
Proof.
  intros Hk Hr Hj. destruct (rd_concat_off f r st j a Hr Hj) as (P & _).
  assert (E : imap (fun k f => map (fun a => off1 fs k + dst a) (concat f)) 0 fs =
              imap (fun k l => map ((fun k a => off1 fs k + dst a) k) l) 0 (map (@concat arc) fs)).
  { apply list_ext_rd; [now rewrite !zlen_imap, zlen_map|]. intros i _. rewrite !rd_imap, rd_map. destruct (rd fs i); reflexivity. }
  unfold gdest. rewrite E. rewrite <- Z.add_assoc.
  apply (rd_concat_imap_map (fun k a => off1 fs k + dst a) (map (@concat arc) fs) k (concat f)).
  - now rewrite rd_map, Hk.
  - exact P.
Qed.

Lemma arc_at k f r st j a : rd fs k = Some f -> rd f r = Some st -> rd st j = Some a ->
  rd A (off1 (map (@concat arc) fs) k + off1 f r + j) = Some a /\
  rd (ids_of (concat fs)) (off1 (map (@concat arc) fs) k + off1 f r + j) = Some (off1 fs k + r) /\
  src a = r /\ 0 <= dst a < zlen f.
Proof.
  intros Hk Hr Hj. pose proof (rd_Some_bound _ _ _ Hr).
  destruct (rd_concat_off fs k f r st Hk Hr) as (P1 & P2).
  destruct (rd_concat_off (concat fs) _ st j a P1 Hj) as (Q1 & Q2).
  pose proof (off1_concat fs k f r Hk ltac:(lia)) as O. rewrite <- off1_map_concat in O.
  rewrite O in Q1, Q2. split; auto. split; auto. split.
  - rewrite Forall_forall in SO. apply (SO f (rd_In _ _ _ Hk) r st); auto. eapply rd_In; eauto.
  - rewrite Forall_forall in DO. apply (DO f (rd_In _ _ _ Hk)). apply in_concat. exists st. split; eapply rd_In; eauto.
Qed.

Lemma gdest_range : Forall (fun x => 0 <= x < S) gdest.
Proof.
  apply Forall_forall. intros x Hx. apply In_rd in Hx as (i & Hi & Hx). rewrite zlen_gdest in Hi.
  destruct (arc_pos fs i Hi) as (k & f & r & st & j & a & H1 & H2 & H3 & ->).
  rewrite (rd_gdest k f r st j a) in Hx by auto. injection Hx as <-.
  destruct (arc_at k f r st j a H1 H2 H3) as (_ & _ & _ & B).
  pose proof (off1_nonneg fs k). pose proof (off1_next fs k f H1). pose proof (off1_bound fs (k + 1)). unfold S. lia.
Qed.

Lemma dest_states_ok : dest_states01 (flat_vec fs) (ids_of (concat fs)) = Some gdest.
Proof.
  unfold dest_states01. cbn [flat_vec v_arcs]. fold A. rewrite <- zlen_gdest. apply mapM_zrange.
  intros i x Hx. pose proof (rd_Some_bound _ _ _ Hx) as Hi. rewrite zlen_gdest in Hi.
  destruct (arc_pos fs i Hi) as (k & f & r & st & j & a & H1 & H2 & H3 & ->).
  rewrite (rd_gdest k f r st j a) in Hx by auto. injection Hx as <-.
  destruct (arc_at k f r st j a H1 H2 H3) as (E1 & E2 & E3 & B). rewrite E1, E2. f_equal. lia.
Qed.

Lemma rd_rev_ts k f : rd fs k = Some f -> rd rev_ts k = Some (rev_nested k f).
Proof. intros H. unfold rev_ts. rewrite rd_imap, H. replace (0 + k) with k by lia. reflexivity. Qed.

Lemma zlen_rev_nested k f : zlen (rev_nested k f) = zlen f + b2z (0 <? zlen f).
Proof.
  unfold rev_nested. pose proof (zlen_nonneg f). destruct (zlen f =? 0) eqn:E.
  - change (zlen (@nil (list (arc * Z)))) with 0. replace (0 <? zlen f) with false by lia. cbn [b2z]. lia.
  - rewrite zlen_tab by lia. replace (0 <? zlen f) with true by lia. reflexivity.
Qed.

Lemma rd_rev_nested k f s' : 0 < zlen f -> 0 <= s' <= zlen f -> rd (rev_nested k f) s' = Some (rev_state k (zlen f) s').
Proof. intros H Hs. unfold rev_nested. replace (zlen f =? 0) with false by lia. apply rd_tab. lia. Qed.

Lemma off1_rev_ts k : 0 <= k <= zlen fs -> off1 rev_ts k = off1 fs k + nne fs k.
Proof.
  intros H. replace k with (Z.of_nat (Z.to_nat k)) in * by lia. revert H.
  generalize (Z.to_nat k) as d. induction d as [|d IH]; intros H.
  - unfold off1, nne. change (Z.of_nat 0) with 0. change (Z.to_nat 0) with 0%nat. reflexivity.
  - destruct (rd_in_bound fs (Z.of_nat d)) as (f & Hf); [lia|]. specialize (IH ltac:(lia)).
    replace (Z.of_nat (Datatypes.S d)) with (Z.of_nat d + 1) by lia.
    rewrite (off1_next rev_ts _ _ (rd_rev_ts _ _ Hf)), zlen_rev_nested.
    rewrite (off1_next fs _ f Hf), (nne_next fs _ f Hf). lia.
Qed.

Definition o2n : list Z := concat (imap (fun k f => tab (zlen f) (fun s => off1 rev_ts k + rho (zlen f) s)) 0 fs).

Lemma zlen_o2n : zlen o2n = S.
Proof.
  unfold o2n, S. rewrite <- !zsum_zlen_concat. f_equal. rewrite map_imap.
  rewrite (imap_ext _ (fun _ x => zlen x)); [apply imap_const|]. intros. apply zlen_tab, zlen_nonneg.
Qed.
Lemma rd_o2n k f s : rd fs k = Some f -> 0 <= s < zlen f -> rd o2n (off1 fs k + s) = Some (off1 rev_ts k + rho (zlen f) s).
Proof.
  intros Hk Hs. unfold o2n. set (y := imap _ 0 fs).
  assert (Hy : rd y k = Some (tab (zlen f) (fun s => off1 rev_ts k + rho (zlen f) s))).
  { unfold y. rewrite rd_imap, Hk. replace (0 + k) with k by lia. reflexivity. }
  assert (O : off1 y k = off1 fs k).
  { unfold off1. rewrite <- !zsum_zlen_concat. rewrite <- !firstn_map. unfold y. rewrite map_imap.
    rewrite (imap_ext _ (fun _ x => zlen x)); [now rewrite imap_const|]. intros. apply zlen_tab, zlen_nonneg. }
  rewrite <- O. apply (rd_concat_off y k _ s _ Hy). now rewrite rd_tab.
Qed.

Lemma state_pos g : 0 <= g < S -> exists k f s st, rd fs k = Some f /\ rd f s = Some st /\ g = off1 fs k + s.
Proof.
  intros H. destruct (rd_in_bound _ _ H) as (st & Hst). destruct (rd_concat_inv _ _ _ Hst) as (k & f & s & H1 & H2 & H3 & _).
  exists k, f, s, st. auto.
Qed.

Lemma o2n_ok : mapM (rev_old2new_body (flat_vec fs) (ids_of fs) (exsum (fsa_nonempty (splits_of fs)))) (zrange S) = Some o2n.
Proof.
  rewrite <- zlen_o2n. apply mapM_zrange. intros g x Hg. pose proof (rd_Some_bound _ _ _ Hg) as Bg. rewrite zlen_o2n in Bg.
  destruct (state_pos g Bg) as (k & f & s & st & H1 & H2 & ->). pose proof (rd_Some_bound _ _ _ H1). pose proof (rd_Some_bound _ _ _ H2).
  rewrite (rd_o2n k f s) in Hg by auto. injection Hg as <-.
  destruct (pos_facts fs k f s st H1 H2) as (F1 & F2 & F3 & _).
  unfold rev_old2new_body. cbn [flat_vec v_rs1]. rewrite F1, F2, F3, rd_fmod by lia. f_equal.
  rewrite off1_rev_ts by lia. unfold rho.
  replace (off1 fs k + s =? off1 fs k) with (s =? 0) by lia.
  replace (off1 fs k + s =? off1 fs k + zlen f - 1) with (s =? zlen f - 1) by lia.
  destruct (s =? 0), (s =? zlen f - 1); lia.
Qed.

Lemma rrs1_ok : mapM (fun i => a <- rd (exsum (fsa_nonempty (splits_of fs))) i;; b <- rd (splits_of fs) i;; Some (a + b))
  (zrange (zlen fs + 1)) = Some (splits_of rev_ts).
Proof.
  assert (E : zlen (splits_of rev_ts) = zlen fs + 1) by (rewrite zlen_splits_of; unfold rev_ts; now rewrite zlen_imap).
  rewrite <- E. apply mapM_zrange. intros i x Hi. pose proof (rd_Some_bound _ _ _ Hi) as B. rewrite E in B.
  rewrite rd_splits_off in Hi by (unfold rev_ts; rewrite zlen_imap; lia). injection Hi as <-.
  rewrite rd_fmod, rd_splits_off by lia. f_equal. rewrite off1_rev_ts by lia. lia.
Qed.

Let B := buckets gdest S.

Lemma bucket_at k f s : rd fs k = Some f -> 0 <= s < zlen f ->
  rd B (off1 fs k + s) = Some (bucket gdest (off1 fs k + s) (zlen A)).
Proof.
  intros Hk Hs. unfold B, buckets. rewrite zlen_gdest. refine (rd_tab S (fun c => bucket gdest c (zlen A)) _ _).
  pose proof (off1_nonneg fs k). pose proof (off1_next fs k f Hk). pose proof (off1_bound fs (k + 1)). unfold S. lia.
Qed.

Lemma zlen_rev_state k n s' : 0 <= s' < n -> zlen (rev_state k n s') =
  (if s' =? n - 1 then 1 else 0) + zlen (bucket gdest (off1 fs k + rho n s') (zlen A)).
Proof.
  intros H. unfold rev_state. replace (s' =? n) with false by lia. rewrite zlen_app, zlen_map.
  destruct (s' =? n - 1); [change (zlen [_]) with 1|change (zlen []) with 0]; lia.
Qed.

Lemma zlen_B : zlen B = S.
Proof. unfold B, buckets. apply zlen_tab. apply zlen_nonneg. Qed.

Lemma count_body_at k f s st : rd fs k = Some f -> rd f s = Some st ->
  rev_count_body (flat_vec fs) (ids_of fs) (splits_of B) o2n (off1 fs k + s) =
  Some [(off1 rev_ts k + rho (zlen f) s, zlen (rev_state k (zlen f) (rho (zlen f) s)))].
Proof.
  intros Hk Hs. pose proof (rd_Some_bound _ _ _ Hs) as Bs.
  destruct (pos_facts fs k f s st Hk Hs) as (F1 & F2 & F3 & _ & F5). apply rd_Some_bound in F5. fold S in F5.
  unfold rev_count_body. cbn [flat_vec v_rs1]. rewrite F1, F2, (rd_o2n k f s) by auto.
  pose proof zlen_B. rewrite !(rd_splits_off B) by lia. rewrite (off1_next B _ _ (bucket_at k f s Hk Bs)).
  do 3 f_equal. rewrite zlen_rev_state by (apply rho_range; auto). rewrite rho_inv by auto.
  replace (off1 fs k + s =? off1 fs k) with (s =? 0) by lia.
  replace (rho (zlen f) s =? zlen f - 1) with (s =? 0).
  - destruct (s =? 0); lia.
  - unfold rho. destruct (s =? 0) eqn:?; [lia|]. destruct (s =? zlen f - 1) eqn:?; lia.
Qed.

Let T := concat rev_ts.

Lemma T_at k f s' : rd fs k = Some f -> 0 < zlen f -> 0 <= s' <= zlen f ->
  rd T (off1 rev_ts k + s') = Some (rev_state k (zlen f) s').
Proof.
  intros Hk Hf Hs. apply (rd_concat_off rev_ts k (rev_nested k f) s'); [now apply rd_rev_ts|].
  apply rd_rev_nested; auto.
Qed.

Lemma T_pos g x : rd T g = Some x -> exists k f s', rd fs k = Some f /\ 0 < zlen f /\ 0 <= s' <= zlen f /\
  g = off1 rev_ts k + s' /\ x = rev_state k (zlen f) s'.
Proof.
  intros H. destruct (rd_concat_inv _ _ _ H) as (k & t & s' & H1 & H2 & H3 & _).
  unfold rev_ts in H1. rewrite rd_imap in H1. destruct (rd fs k) as [f|] eqn:Hk; [|discriminate].
  cbn [option_map] in H1. injection H1 as <-. replace (0 + k) with k in H2 by lia.
  pose proof (rd_Some_bound _ _ _ H2) as B2. rewrite zlen_rev_nested in B2.
  assert (0 < zlen f) by (destruct (0 <? zlen f) eqn:?; cbn [b2z] in B2; lia).
  replace (0 <? zlen f) with true in B2 by lia. cbn [b2z] in B2.
  exists k, f, s'. rewrite rd_rev_nested in H2 by lia. injection H2 as <-. split; [auto|]. split; [auto|]. split; [lia|auto].
Qed.

Lemma counts_ok sched : is_sched S sched ->
  exists carr, k2_eval sched (rev_count_body (flat_vec fs) (ids_of fs) (splits_of B) o2n)
                  (repeat (Some 0) (Z.to_nat (zlen T + 1))) = Some carr /\
    freeze carr = Some (map zlen T ++ [0]).
Proof.
  intros Hs. pose proof (zlen_nonneg T) as HT.
  set (C := map zlen T ++ [0]). set (v := fun j => match rd C j with Some x => x | None => 0 end).
  assert (LC : zlen C = zlen T + 1) by (unfold C; rewrite zlen_app, zlen_map; reflexivity).
  assert (CT : forall k f s', rd fs k = Some f -> 0 < zlen f -> 0 <= s' <= zlen f ->
     0 <= off1 rev_ts k + s' < zlen T /\ v (off1 rev_ts k + s') = zlen (rev_state k (zlen f) s')).
  { intros k f s' Hk Hf Hs'. pose proof (T_at k f s' Hk Hf Hs') as HT'. pose proof (rd_Some_bound _ _ _ HT').
    split; auto. unfold v, C. rewrite rd_app_l by (rewrite zlen_map; lia). now rewrite rd_map, HT'. }
  destruct (k2_eval_agrees (zlen T + 1) v (rev_count_body (flat_vec fs) (ids_of fs) (splits_of B) o2n) sched) with
    (arr := repeat (Some 0) (Z.to_nat (zlen T + 1))) as (carr & E1 & E2 & E3).
  { intros g Hg. apply (in_sched _ _ _ Hs) in Hg. destruct (state_pos g Hg) as (k & f & s & st & H1 & H2 & ->).
    pose proof (rd_Some_bound _ _ _ H2) as Bs.
    rewrite (count_body_at k f s st) by auto. eexists. split; [reflexivity|]. constructor; [|constructor].
    pose proof (rho_range (zlen f) s Bs).
    destruct (CT k f (rho (zlen f) s) H1 ltac:(lia) ltac:(lia)) as (P1 & P2).
    split; cbn [fst snd]; [lia|auto]. }
  { rewrite zlen_repeat. lia. }
  exists carr. split; auto.
  assert (PW : forall j, 0 <= j < zlen T + 1 -> rd carr j = Some (Some (v j))).
  { intros j Hj. apply E3; auto. destruct (Z.eq_dec j (zlen T)) as [->|N].
    - left. rewrite rd_repeat by lia. unfold v, C. rewrite rd_app_r by (rewrite zlen_map; lia).
      rewrite zlen_map. replace (zlen T - zlen T) with 0 by lia. reflexivity.
    - destruct (rd_in_bound T j ltac:(lia)) as (x & Hx). destruct (T_pos j x Hx) as (k & f & s' & H1 & H2 & H3 & -> & ->).
      destruct (Z.eq_dec s' (zlen f)) as [->|N'].
      + left. rewrite rd_repeat by lia. destruct (CT k f (zlen f) H1 H2 ltac:(lia)) as (_ & ->).
        unfold rev_state. rewrite Z.eqb_refl. reflexivity.
      + right. pose proof (rho_range (zlen f) s' ltac:(lia)).
        destruct (rd_in_bound f (rho (zlen f) s') ltac:(lia)) as (st & Hst).
        exists (off1 fs k + rho (zlen f) s'). eexists. split; [|split; [apply (count_body_at k f _ st H1 Hst)|]].
        * apply (in_sched _ _ _ Hs). destruct (rd_concat_off fs k f _ st H1 Hst) as (P & _). apply rd_Some_bound in P. unfold S. lia.
        * cbn [map fst]. left. rewrite rho_inv by lia. reflexivity. }
  rewrite (freeze_tab (zlen T + 1) v carr E2 PW).
  f_equal. symmetry. rewrite <- LC. apply tab_rd. intros i Hi. unfold v. destruct (rd_in_bound C i Hi) as (x & ->). reflexivity.
Qed.

Lemma rrs2_eq : exsum (firstn (Z.to_nat (zlen T)) (map zlen T ++ [0])) = splits_of T.
Proof.
  unfold splits_of. f_equal. rewrite firstn_app. replace (Z.to_nat (zlen T) - length (map zlen T))%nat with 0%nat by
    (rewrite map_length; unfold zlen; lia). cbn [firstn]. rewrite app_nil_r. apply firstn_all2. rewrite map_length. unfold zlen; lia.
Qed.

(** the kernels that fill the arcs *)
Lemma inc_pos p i : rd (concat B) p = Some i -> exists k f r st j a s jj,
  rd fs k = Some f /\ rd f r = Some st /\ rd st j = Some a /\ s = dst a /\ src a = r /\ 0 <= s < zlen f /\
  i = off1 (map (@concat arc) fs) k + off1 f r + j /\
  rd (ids_of B) p = Some (off1 fs k + s) /\ p = off1 B (off1 fs k + s) + jj /\
  rd (bucket gdest (off1 fs k + s) (zlen A)) jj = Some i /\ rd A i = Some a /\
  rd (ids_of (concat fs)) i = Some (off1 fs k + r).
Proof.
  intros H. destruct (rd_concat_inv _ _ _ H) as (g & l & jj & H1 & H2 & H3 & H4).
  unfold B, buckets in H1. apply rd_tab_Some in H1 as (Bg & ->).
  rewrite zlen_gdest in H2. pose proof (rd_In _ _ _ H2) as HI. apply in_bucket in HI as (Bi & Hi).
  destruct (arc_pos fs i Bi) as (k & f & r & st & j & a & K1 & K2 & K3 & ->).
  rewrite (rd_gdest k f r st j a) in Hi by auto. injection Hi as <-.
  destruct (arc_at k f r st j a K1 K2 K3) as (E1 & E2 & E3 & E4).
  exists k, f, r, st, j, a, (dst a), jj. repeat (split; [assumption || reflexivity|]). assumption.
Qed.

Definition body1 := rev_arc_body (flat_vec fs) (ids_of (concat fs)) (splits_of B) (ids_of B) (concat B) o2n
                      (splits_of rev_ts) (ids_of rev_ts) (splits_of T).

Lemma rev_state_pos k f s' j : rd fs k = Some f -> 0 < zlen f -> 0 <= s' <= zlen f -> forall x,
  rd (rev_state k (zlen f) s') j = Some x ->
  rd (concat T) (off1 T (off1 rev_ts k + s') + j) = Some x.
Proof.
  intros Hk Hf Hs x Hx. apply (rd_concat_off T _ (rev_state k (zlen f) s') j x); auto. now apply T_at.
Qed.

Lemma body1_at p i : rd (concat B) p = Some i -> exists q x, body1 p = Some [(q, x)] /\ rd (concat T) q = Some x.
Proof.
  intros H. destruct (inc_pos p i H) as (k & f & r & st & j & a & s & jj & K1 & K2 & K3 & K4 & K5 & K6 & K7 & K8 & K9 & K10 & K11 & K12).
  pose proof (rd_Some_bound _ _ _ K2) as Br. pose proof (rho_range _ _ Br) as R1. pose proof (rho_range _ _ K6) as R2.
  unfold body1, rev_arc_body. cbn [flat_vec v_arcs]. rewrite H, K8.
  pose proof (bucket_at k f s K1 K6) as HB. pose proof (rd_Some_bound _ _ _ HB).
  rewrite (rd_splits_off B) by lia. rewrite (rd_o2n k f s) by auto.
  assert (Hf : 0 < zlen f) by lia.
  pose proof (T_at k f _ K1 Hf (conj (proj1 R2) (Z.lt_le_incl _ _ (proj2 R2)))) as HT.
  pose proof (rd_Some_bound _ _ _ HT). rewrite (rd_splits_off T) by lia.
  fold A. rewrite K11, K12, (rd_o2n k f r) by auto.
  assert (I1 : forall s', 0 <= s' < zlen f -> rd (ids_of rev_ts) (off1 rev_ts k + s') = Some k).
  { intros s' Hs'. apply (rd_concat_off rev_ts k (rev_nested k f) s' (rev_state k (zlen f) s')).
    - now apply rd_rev_ts. - apply rd_rev_nested; lia. }
  rewrite I1 by auto. pose proof (rd_Some_bound _ _ _ K1).
  rewrite (rd_splits_off rev_ts) by (unfold rev_ts; rewrite zlen_imap; lia).
  replace (dst a + (off1 fs k + r - src a)) with (off1 fs k + s) by lia. rewrite (rd_o2n k f s) by auto. rewrite I1 by auto.
  rewrite (rd_splits_off rev_ts) by (unfold rev_ts; rewrite zlen_imap; lia).
  eexists _, _. split; [reflexivity|].
  replace (p - off1 B (off1 fs k + s)) with jj by lia.
  apply (rev_state_pos k f); [assumption|lia|lia|]. unfold rev_state. replace (rho (zlen f) s =? zlen f) with false by lia.
  rewrite rho_inv by auto. pose proof (rd_Some_bound _ _ _ K10). rewrite rd_app_l by (rewrite zlen_map; lia).
  rewrite rd_map, K10. cbn [option_map]. unfold dflt. rewrite K11. do 2 f_equal. unfold rev_arc. f_equal.
  - rewrite K4. lia.
  - rewrite K5. lia.
Qed.

Definition body2 := rev_final_body (fsa_nonempty (splits_of fs)) (splits_of rev_ts) (splits_of T).

Lemma body2_at k f : rd fs k = Some f ->
  (zlen f = 0 /\ body2 k = Some []) \/
  (0 < zlen f /\
   body2 k = Some [(off1 T (off1 rev_ts k + (zlen f - 1)) + zlen (bucket gdest (off1 fs k + rho (zlen f) (zlen f - 1)) (zlen A)),
                    (mkArc (zlen f - 1) (zlen f) (-1) 0, -1))]).
Proof.
  intros Hk. pose proof (zlen_nonneg f). pose proof (rd_Some_bound _ _ _ Hk) as Bk.
  unfold body2, rev_final_body. rewrite fsa_nonempty_eq, rd_map, Hk. cbn [option_map].
  destruct (Z.eq_dec (zlen f) 0) as [E|E].
  - left. split; auto. rewrite E. reflexivity.
  - right. assert (Hf : 0 < zlen f) by lia. split; auto. replace (0 <? zlen f) with true by lia. cbn [b2z].
    change (1 =? 0) with false.
    assert (ZR : zlen rev_ts = zlen fs) by (unfold rev_ts; apply zlen_imap).
    rewrite !(rd_splits_off rev_ts) by lia. rewrite (off1_next rev_ts k _ (rd_rev_ts k f Hk)), zlen_rev_nested.
    replace (0 <? zlen f) with true by lia. cbn [b2z].
    pose proof (T_at k f (zlen f - 1) Hk Hf ltac:(lia)) as H1.
    pose proof (T_at k f (zlen f) Hk Hf ltac:(lia)) as H2.
    pose proof (off1_next T _ _ H1) as N1. pose proof (off1_next T _ _ H2) as N2.
    replace (off1 rev_ts k + (zlen f - 1) + 1) with (off1 rev_ts k + zlen f) in N1 by lia.
    replace (off1 rev_ts k + zlen f + 1) with (off1 rev_ts k + (zlen f + 1)) in N2 by lia.
    pose proof (rd_Some_bound _ _ _ H2). pose proof (rd_Some_bound _ _ _ H1).
    rewrite (rd_splits_off T) by lia. rewrite N2, N1. rewrite zlen_rev_state by lia.
    replace (zlen f - 1 =? zlen f - 1) with true by lia.
    assert (Z0 : zlen (rev_state k (zlen f) (zlen f)) = 0) by (unfold rev_state; rewrite Z.eqb_refl; reflexivity).
    rewrite Z0. do 3 f_equal; [lia|]. f_equal. f_equal; lia.
Qed.

Lemma arcs_ok sched : is_sched (zlen (concat B) + zlen fs) sched ->
  k2_fill (zlen (concat T)) sched (seq_body (zlen (concat B)) body1 body2) = Some (concat T).
Proof.
  intros Hs. pose proof (zlen_nonneg (concat B)). pose proof (zlen_nonneg fs).
  apply (k2_fill_list (concat T) (zlen (concat B) + zlen fs)); auto.
  - intros i Hi. unfold seq_body. destruct (i <? zlen (concat B)) eqn:E.
    + destruct (rd_in_bound (concat B) i) as (x & Hx); [lia|]. destruct (body1_at i x Hx) as (q & y & E1 & E2).
      exists [(q, y)]. split; auto.
    + destruct (rd_in_bound fs (i - zlen (concat B))) as (f & Hf); [lia|].
      destruct (body2_at _ f Hf) as [(Z0 & E1)|(Z0 & E1)]; rewrite E1; eexists; (split; [reflexivity|]); [constructor|].
      constructor; [|constructor]. cbn [fst snd]. apply (rev_state_pos (i - zlen (concat B)) f); [assumption|lia|lia|].
      unfold rev_state. replace (zlen f - 1 =? zlen f) with false by lia. replace (zlen f - 1 =? zlen f - 1) with true by lia.
      rewrite rd_app_r by (rewrite zlen_map; lia). rewrite zlen_map.
      rewrite Z.sub_diag. reflexivity.
  - intros q Hq. destruct (rd_in_bound _ _ Hq) as (x & Hx).
    destruct (rd_concat_inv _ _ _ Hx) as (g & st & jj & H1 & H2 & H3 & _).
    destruct (T_pos g st H1) as (k & f & s' & K1 & K2 & K3 & -> & ->).
    pose proof (rd_Some_bound _ _ _ K1) as Bk.
    assert (s' <> zlen f). { intros ->. unfold rev_state in H2. rewrite Z.eqb_refl, rd_nil in H2. discriminate. }
    assert (R : 0 <= rho (zlen f) s' < zlen f) by (apply rho_range; lia).
    pose proof (rd_Some_bound _ _ _ H2) as Bj. rewrite zlen_rev_state in Bj by lia.
    set (bk := bucket gdest (off1 fs k + rho (zlen f) s') (zlen A)) in *.
    destruct (Z_lt_ge_dec jj (zlen bk)).
    + destruct (rd_in_bound bk jj) as (i & Hi); [lia|].
      destruct (rd_concat_off B _ bk jj i (bucket_at k f _ K1 R) Hi) as (P1 & P2).
      set (p := off1 B (off1 fs k + rho (zlen f) s') + jj) in *.
      exists p. destruct (body1_at p i P1) as (q' & y & E1 & E2). exists [(q', y)].
      pose proof (rd_Some_bound _ _ _ P1). split; [lia|]. split.
      { unfold seq_body. replace (p <? zlen (concat B)) with true by lia. exact E1. }
      cbn [map fst]. left.
      destruct (inc_pos p i P1) as (k' & f' & r & st & j & a & s & jj' & L1 & L2 & L3 & L4 & L5 & L6 & L7 & L8 & L9 & L10 & L11 & L12).
      rewrite P2 in L8. injection L8 as L8.
      destruct (row_unique fs k f _ k' f' s K1 L1 R L6 L8) as (-> & <- & <-). clear L8.
      unfold body1, rev_arc_body in E1. cbn [flat_vec v_arcs] in E1. rewrite P1, P2 in E1.
      pose proof (rd_Some_bound _ _ _ (bucket_at k' f _ K1 R)).
      rewrite (rd_splits_off B) in E1 by lia. rewrite (rd_o2n k' f) in E1 by auto.
      rewrite rho_inv in E1 by lia. pose proof (rd_Some_bound _ _ _ H1). rewrite (rd_splits_off T) in E1 by lia.
      fold A in E1. rewrite L11, L12 in E1.
      destruct (rd o2n (off1 fs k' + r)) as [nd|]; [|discriminate]. destruct (rd (ids_of rev_ts) nd) as [nd0|]; [|discriminate].
      destruct (rd (splits_of rev_ts) nd0); [|discriminate].
      destruct (rd o2n (dst a + (off1 fs k' + r - src a))) as [ns|]; [|discriminate].
      destruct (rd (ids_of rev_ts) ns) as [ns0|]; [|discriminate].
      destruct (rd (splits_of rev_ts) ns0); [|discriminate].
      injection E1 as E1 _. unfold p in E1. lia.
    + assert (s' = zlen f - 1) by (destruct (s' =? zlen f - 1) eqn:?; lia). subst s'.
      exists (zlen (concat B) + k). destruct (body2_at k f K1) as [(Z0 & _)|(Z0 & E1)]; [lia|].
      eexists. split; [lia|]. split.
      { unfold seq_body. replace (zlen (concat B) + k <? zlen (concat B)) with false by lia.
        replace (zlen (concat B) + k - zlen (concat B)) with k by lia. exact E1. }
      cbn [map fst]. left. fold bk. replace (zlen f - 1 =? zlen f - 1) with true in Bj by lia. lia.
Qed.

Lemma zlen_concat_B : zlen (concat B) = zlen A.
Proof.
  rewrite <- zlen_gdest.
  pose proof (zlen_nonneg (concat fs)) as HS. fold S in HS.
  assert (P : Permutation (concat B) (zrange (zlen gdest))).
  { apply NoDup_Permutation.
    - (* each index is in exactly one bucket *)
      unfold B, buckets. clear - HS.
      assert (G : forall n, 0 <= n -> NoDup (concat (tab n (fun c => bucket gdest c (zlen gdest)))) ).
      { intros n Hn. replace n with (Z.of_nat (Z.to_nat n)) by lia. generalize (Z.to_nat n) as d. induction d as [|d IH].
        - constructor.
        - replace (Z.of_nat (Datatypes.S d)) with (Z.of_nat d + 1) by lia. unfold tab in *. rewrite zrange_S, map_app, concat_app by lia.
          cbn [map concat]. rewrite app_nil_r. apply NoDup_app_disj; [exact IH|apply NoDup_filter, NoDup_zrange|].
          intros i H1 H2. apply in_bucket in H2 as (_ & H2).
          change (map _ (zrange (Z.of_nat d))) with (tab (Z.of_nat d) (fun c => bucket gdest c (zlen gdest))) in H1.
          apply in_concat_tab in H1 as (c & Hc & H1). apply in_bucket in H1 as (_ & H1). rewrite H1 in H2. injection H2. lia. }
      apply G. exact HS.
    - apply NoDup_zrange.
    - intros i. rewrite in_zrange. unfold B, buckets. rewrite in_concat_tab. split.
      + intros (c & _ & H). apply in_bucket in H. tauto.
      + intros Hi. destruct (rd_in_bound gdest i Hi) as (c & Hc). exists c. split.
        * pose proof gdest_range as GR. rewrite Forall_forall in GR. apply GR. eapply rd_In; eauto.
        * apply in_bucket. auto. }
  apply Permutation_length in P. unfold zlen at 1. rewrite P, zrange_length. unfold zlen; lia.
Qed.

Theorem reverse_ok sched1 sched2 : is_sched S sched1 -> is_sched (zlen A + zlen fs) sched2 ->
  reverse sched1 sched2 (flat_vec fs) =
  Some (mkVOut (vec_of rev_ts) (ids_of (concat rev_ts)) (map snd (concat (concat rev_ts)))).
Proof.
  intros H1 H2. unfold reverse. cbn [flat_vec v_rs1 v_rs2 v_arcs]. cbv zeta. rewrite !zlen_splits_of.
  replace (zlen (concat fs) + 1 - 1) with (zlen (concat fs)) by lia.
  replace (zlen fs + 1 - 1) with (zlen fs) by lia. rewrite !row_ids_of_splits.
  change (mkVec (splits_of fs) (splits_of (concat fs)) (concat (concat fs))) with (flat_vec fs).
  rewrite dest_states_ok. fold S. rewrite (incoming_arcs_ok S gdest) by (apply zlen_nonneg || apply gdest_range).
  fold B. rewrite o2n_ok, rrs1_ok.
  pose proof (zlen_nonneg fs).
  assert (NR : rd (splits_of rev_ts) (zlen fs) = Some (zlen T)).
  { rewrite rd_splits_off by (unfold rev_ts; rewrite zlen_imap; lia).
    replace (zlen fs) with (zlen rev_ts) by (unfold rev_ts; apply zlen_imap). now rewrite off1_all. }
  rewrite NR. destruct (counts_ok sched1 H1) as (carr & C1 & C2). rewrite C1, C2, rrs2_eq.
  unfold T at 1. rewrite row_ids_of_splits.
  rewrite rd_splits_off by (pose proof (zlen_nonneg T); lia). rewrite off1_all, row_ids_of_splits.
  fold body1. fold body2. rewrite <- zlen_concat_B in H2.
  rewrite arcs_ok by auto. rewrite vec_of_eq. reflexivity.
Qed.
End R.
