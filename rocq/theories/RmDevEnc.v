(** FsaVecs over subsets of the states of an FsaVec: the arcs with the numbers of the
    states of the whole FsaVec, and what the code reads in the renumbered arrays *)
From Coq Require Import ZArith List Lia Bool.
From Coq Require Import ZifyBool ZifyNat.
From Verif Require Import Base RaggedModel RaggedSpec RaggedProofs FsaSpec FsaLemmas SelectProofs RaggedOpsModel RaggedOpsProofs EpsLoopProofs
  PropsProps ReverseProps ConnectProofs ExtractProofs ConnectRun RmDevModel RmDevRagged.
Import ListNotations.
Open Scope Z_scope.

(** An arc and the arcs it stands for *)
Notation item := (arc * list Z)%type.
Definition isrc (x : item) := src (fst x).
Definition idst (x : item) := dst (fst x).
Definition ilab (x : item) := lab (fst x).
Definition isc (x : item) := sc (fst x).

(** ** Numbers of kept states *)
Definition nw (K : Z -> bool) (o : Z) : Z := zlen (filter K (zrange o)).
Lemma nw_0 K : nw K 0 = 0. Proof. reflexivity. Qed.
Lemma nw_next K o : 0 <= o -> nw K (o + 1) = nw K o + b2z (K o).
Proof. intros H. unfold nw. rewrite zrange_S, filter_app, zlen_app by auto. cbn [filter]. destruct (K o); reflexivity. Qed.
Lemma nw_mono K a b : 0 <= a <= b -> nw K a <= nw K b.
Proof.
  intros H. replace b with (a + (b - a)) by lia. unfold nw. rewrite zrange_app by lia. rewrite filter_app, zlen_app. pose proof (zlen_nonneg (filter K (map (fun i => a + i) (zrange (b - a))))). lia.
Qed.
Lemma nw_lt K a b : 0 <= a < b -> K a = true -> nw K a < nw K b.
Proof. intros H E. pose proof (nw_mono K (a + 1) b ltac:(lia)). rewrite nw_next, E in H0 by lia. cbn in H0. lia. Qed.
Lemma nw_inj K a b : 0 <= a -> 0 <= b -> K a = true -> K b = true -> nw K a = nw K b -> a = b.
Proof. intros A B KA KB E. destruct (Z.lt_trichotomy a b) as [H|[H|H]]; auto; [pose proof (nw_lt K a b ltac:(lia) KA)|pose proof (nw_lt K b a ltac:(lia) KB)]; lia. Qed.
Lemma nw_all o : 0 <= o -> nw (fun _ => true) o = o.
Proof. intros H. unfold nw. assert (E : forall l : list Z, filter (fun _ => true) l = l) by (induction l as [|x l IH]; cbn; congruence). rewrite E, zlen_zrange; auto. Qed.

(** ** Rows of items *)
Section Rows.
Variable S : Z.
Variable K : Z -> bool.
Definition L : list Z := filter K (zrange S).
Lemma L_firstn o : 0 <= o <= S -> firstn (Z.to_nat (nw K o)) L = filter K (zrange o).
Proof.
  intros H. unfold L, nw. replace S with (o + (S - o)) by lia. rewrite zrange_app by lia. rewrite filter_app, firstn_app. unfold zlen. rewrite Nat2Z.id, firstn_all, Nat.sub_diag. cbn. now rewrite app_nil_r.
Qed.
Lemma zlen_L : zlen L = nw K S. Proof. reflexivity. Qed.
Lemma rd_L o : 0 <= o < S -> K o = true -> rd L (nw K o) = Some o.
Proof.
  intros H E. pose proof (nw_lt K o S ltac:(lia) E) as B. unfold nw at 2 in B. assert (B0 : 0 <= nw K o) by apply zlen_nonneg. 
  rewrite <- (rd_firstn L (nw K (o + 1))) by (rewrite nw_next, E by lia; cbn; lia). rewrite L_firstn by lia. rewrite zrange_S, filter_app by lia. cbn [filter]. rewrite E. rewrite rd_app_r by (fold (nw K o); lia). fold (nw K o). rewrite Z.sub_diag. apply rd_cons_0.
Qed.
Lemma L_rd r o : rd L r = Some o -> 0 <= o < S /\ K o = true /\ r = nw K o.
Proof.
  intros H. pose proof (rd_Some_bound _ _ _ H) as B. assert (I : In o L) by (eapply rd_In; eauto). unfold L in I. apply filter_In in I as (I1 & I2). apply in_zrange in I1. split; [auto|]. split; [auto|].
  assert (ND : NoDup L) by (apply NoDup_filter, NoDup_zrange). pose proof (rd_L o I1 I2) as H2. pose proof (rd_Some_bound _ _ _ H2).
  exact (NoDup_rd L ND _ _ _ H H2).
Qed.

Context {X : Type}.
Variable R : Z -> list X.
Definition flatR : list X := concat (map R (zrange S)).
Definition A (o : Z) : Z := zlen (concat (map R (zrange o))).
Lemma A_next o : 0 <= o -> A (o + 1) = A o + zlen (R o).
Proof. intros H. unfold A. rewrite zrange_S, map_app, concat_app, zlen_app by auto. cbn. now rewrite app_nil_r. Qed.
Lemma in_flat x : In x flatR <-> exists o, 0 <= o < S /\ In x (R o).
Proof. unfold flatR. rewrite in_concat. split; [intros (l & H1 & H2); apply in_map_iff in H1 as (o & <- & Ho); apply in_zrange in Ho; eauto|intros (o & H1 & H2); exists (R o); split; auto; apply in_map; now apply in_zrange]. Qed.
Hypothesis NIL : forall o, K o = false -> R o = [].
Lemma concat_L : concat (map R L) = flatR.
Proof. unfold L, flatR. apply concat_filter_nil. intros; auto. Qed.
Lemma off_L o : 0 <= o <= S -> off1 (map R L) (nw K o) = A o.
Proof. intros H. unfold off1. rewrite firstn_map, L_firstn by auto. unfold A. f_equal. apply concat_filter_nil. auto. Qed.
Lemma rs_L o : 0 <= o <= S -> rd (splits_of (map R L)) (nw K o) = Some (A o).
Proof. intros H. rewrite rd_splits_off. { now rewrite off_L. } rewrite zlen_map, zlen_L. pose proof (nw_mono K o S ltac:(lia)). pose proof (zlen_nonneg (filter K (zrange o))). unfold nw in *. lia. Qed.
Lemma rs_L1 o : 0 <= o < S -> K o = true -> rd (splits_of (map R L)) (nw K o + 1) = Some (A o + zlen (R o)).
Proof. intros H E. rewrite <- A_next by lia. rewrite <- rs_L by lia. rewrite nw_next, E by lia. reflexivity. Qed.
Lemma flat_rd o k x : rd (R o) k = Some x -> 0 <= o < S -> rd flatR (A o + k) = Some x.
Proof.
  intros H B. destruct (K o) eqn:E; [|rewrite NIL in H by auto; rewrite rd_nil in H; discriminate]. rewrite <- concat_L, <- off_L by lia.
  apply (rd_concat_off _ _ (R o)); auto. rewrite rd_map, rd_L; auto.
Qed.
Lemma rd_flat j x : rd flatR j = Some x -> exists o k, 0 <= o < S /\ K o = true /\ rd (R o) k = Some x /\ j = A o + k /\ rd (ids_of (map R L)) j = Some (nw K o).
Proof.
  intros H. rewrite <- concat_L in H. destruct (rd_concat_inv _ _ _ H) as (r & l & k & H1 & H2 & H3 & H4). rewrite rd_map in H1. destruct (rd L r) as [o|] eqn:E; [|discriminate]. injection H1 as <-.
  destruct (L_rd _ _ E) as (B & KO & ->). exists o, k. rewrite off_L in H3 by lia. auto 6.
Qed.
Lemma ids_flat (s : X -> Z) : (forall o x, In x (R o) -> s x = o) -> ids_of (map R L) = map (fun x => nw K (s x)) flatR.
Proof.
  intros H. assert (LN : zlen (ids_of (map R L)) = zlen flatR) by (unfold ids_of; rewrite zlen_ids_from, concat_L; reflexivity).
  apply list_ext_rd; [rewrite zlen_map; auto|]. intros i Hi. rewrite LN in Hi. destruct (rd_in_bound flatR i Hi) as (x & Hx). destruct (rd_flat i x Hx) as (o & k & B & KO & H1 & H2 & H3). rewrite H3, rd_map, Hx. cbn. now rewrite (H o) by (eapply rd_In; eauto).
Qed.
End Rows.
Arguments L S K : clear implicits.

(** ** The FsaVec *)
Section Enc.
Variable fs : list nfsa.
Definition NS : Z := zlen (concat fs).
Definition fid (o : Z) : Z := match rd (ids_of fs) o with Some i => i | None => 0 end.
(** start of the FSA of a state *)
Definition so (o : Z) : Z := off1 fs (fid o).
Lemma HNS : 0 <= NS. Proof. apply zlen_nonneg. Qed.
Lemma fid_ok o : 0 <= o < NS -> exists i f, rd fs i = Some f /\ fid o = i /\ rd (ids_of fs) o = Some i /\ so o = off1 fs i /\ off1 fs i <= o < off1 fs i + zlen f.
Proof.
  intros H. destruct (rd_in_bound (concat fs) o H) as (st & Hs). destruct (rd_concat_inv _ _ _ Hs) as (i & f & k & H1 & H2 & H3 & H4). exists i, f. unfold so, fid. rewrite H4. apply rd_Some_bound in H2. repeat split; auto; lia.
Qed.
Lemma fid_of i f o : rd fs i = Some f -> off1 fs i <= o < off1 fs i + zlen f -> fid o = i /\ so o = off1 fs i /\ 0 <= o < NS.
Proof.
  intros H B. destruct (rd_in_bound f (o - off1 fs i) ltac:(lia)) as (st & Hs). assert (E : rd (concat fs) o = Some st) by (replace o with (off1 fs i + (o - off1 fs i)) by lia; apply (rd_concat_off _ _ f); auto).
  pose proof (rd_Some_bound _ _ _ E). destruct (fid_ok o H0) as (i' & f' & H1 & H2 & H3 & H4 & H5). assert (i' = i); [|subst; auto].
  destruct (Z.lt_trichotomy i i') as [C|[C|C]]; auto; exfalso.
  - pose proof (off1_mono fs (i + 1) i' ltac:(pose proof (rd_Some_bound _ _ _ H); lia)). rewrite (off1_next _ _ _ H) in H6. lia.
  - pose proof (off1_mono fs (i' + 1) i ltac:(pose proof (rd_Some_bound _ _ _ H1); lia)). rewrite (off1_next _ _ _ H1) in H6. lia.
Qed.
Lemma so_bound o : 0 <= o < NS -> 0 <= so o <= o.
Proof. intros H. destruct (fid_ok o H) as (i & f & _ & _ & _ & -> & B). pose proof (off1_nonneg fs i). lia. Qed.

Definition Lg (K : Z -> bool) : list (list Z) := map (filter K) (idx_rows fs).
Lemma concat_idx_rows : concat (idx_rows fs) = zrange NS.
Proof. unfold idx_rows. rewrite splits_concat_zrange. reflexivity. Qed.
Lemma concat_Lg K : concat (Lg K) = L NS K.
Proof. unfold Lg. rewrite <- filter_concat, concat_idx_rows. reflexivity. Qed.
Lemma zlen_Lg K : zlen (Lg K) = zlen fs.
Proof. unfold Lg. rewrite zlen_map. rewrite <- (zlen_map zlen), zlen_idx_rows, zlen_map. reflexivity. Qed.
Lemma off_idx i : off1 (idx_rows fs) i = off1 fs i.
Proof. destruct (map_zlen_rd fs (idx_rows fs) (zlen_idx_rows fs)) as (_ & _ & H & _). apply H. Qed.
Lemma off_Lg K i : 0 <= i <= zlen fs -> off1 (Lg K) i = nw K (off1 fs i).
Proof.
  intros H. unfold off1 at 1, Lg, nw. rewrite firstn_map, <- filter_concat, <- firstn_off1, concat_idx_rows, off_idx. do 2 f_equal.
  pose proof (off1_bound fs i) as B. fold NS in B. pose proof (off1_nonneg fs i). replace NS with (off1 fs i + (NS - off1 fs i)) by lia. rewrite zrange_app by lia. rewrite firstn_app, zrange_length, Nat.sub_diag. cbn [firstn]. rewrite app_nil_r.
  rewrite <- (zrange_length (off1 fs i)) at 1. apply firstn_all.
Qed.
Lemma rs1_Lg K i : 0 <= i <= zlen fs -> rd (splits_of (Lg K)) i = Some (nw K (off1 fs i)).
Proof. intros H. rewrite rd_splits_off by (rewrite zlen_Lg; lia). now rewrite off_Lg. Qed.
Lemma ids1_Lg K o : 0 <= o < NS -> K o = true -> rd (ids_of (Lg K)) (nw K o) = Some (fid o).
Proof.
  intros H E. pose proof (rd_L NS K o H E) as E2. rewrite <- concat_Lg in E2. destruct (rd_concat_inv _ _ _ E2) as (i & l & k & H1 & H2 & H3 & H4). rewrite H4. f_equal.
  unfold Lg in H1. rewrite rd_map in H1. destruct (rd (idx_rows fs) i) as [r|] eqn:Er; [|discriminate]. injection H1 as <-. assert (Io : In o (filter K r)) by (eapply rd_In; eauto). apply filter_In in Io as (Io & _).
  destruct (rd fs i) as [f|] eqn:Ef; [|unfold idx_rows in Er; rewrite rd_imap, Ef in Er; discriminate]. rewrite (rd_idx_rows _ _ _ Ef) in Er. injection Er as <-. apply in_map_iff in Io as (q & <- & Hq). apply in_zrange in Hq. symmetry. apply (fid_of i f _ Ef). lia.
Qed.
Lemma zlen_ids1 K : zlen (ids_of (Lg K)) = nw K NS.
Proof. unfold ids_of. rewrite zlen_ids_from, concat_Lg. reflexivity. Qed.
Lemma ids1_map K : ids_of (Lg K) = map fid (L NS K).
Proof.
  apply list_ext_rd; [rewrite zlen_ids1, zlen_map; reflexivity|]. intros r Hr. rewrite zlen_ids1 in Hr. destruct (rd_in_bound (L NS K) r Hr) as (o & Ho). destruct (L_rd _ _ _ _ Ho) as (B & KO & ->). rewrite ids1_Lg, rd_map, Ho by auto. reflexivity.
Qed.

Definition enc (K : Z -> bool) (x : item) : arc :=
  let b := nw K (so (isrc x)) in mkArc (nw K (isrc x) - b) (nw K (idst x) - b) (ilab x) (isc x).
Definition fl (R : Z -> list item) : list item := flatR NS R.
Definition vec (K : Z -> bool) (R : Z -> list item) : rvec :=
  mkRV (splits_of (Lg K)) (ids_of (Lg K)) (splits_of (map R (L NS K))) (ids_of (map R (L NS K))) (map (enc K) (fl R)).
(** the items of state [o] leave [o] and stay among the kept states of its FSA *)
Definition wf (K : Z -> bool) (R : Z -> list item) : Prop :=
  (forall o, K o = false -> R o = []) /\
  forall o x, 0 <= o < NS -> In x (R o) -> isrc x = o /\ 0 <= idst x < NS /\ K (idst x) = true /\ so (idst x) = so o.

Section Read.
Variables (K : Z -> bool) (R : Z -> list item).
Hypothesis WF : wf K R.
Lemma wfn : forall o, K o = false -> R o = []. Proof. apply WF. Qed.
Lemma rd_fl j x : rd (fl R) j = Some x -> exists k, 0 <= isrc x < NS /\ K (isrc x) = true /\ rd (R (isrc x)) k = Some x /\ j = A R (isrc x) + k /\
  rd (r_ids2 (vec K R)) j = Some (nw K (isrc x)) /\ 0 <= idst x < NS /\ K (idst x) = true /\ so (idst x) = so (isrc x).
Proof.
  intros H. destruct (rd_flat NS K R wfn j x H) as (o & k & B & KO & H1 & H2 & H3). destruct (proj2 WF o x B ltac:(eapply rd_In; eauto)) as (<- & W). exists k. cbn [vec r_ids2]. split; [auto|]. split; [auto|]. split; [auto|]. split; [auto|]. split; [auto|]. exact W.
Qed.
Lemma in_fl x : In x (fl R) -> 0 <= isrc x < NS /\ K (isrc x) = true /\ In x (R (isrc x)) /\ 0 <= idst x < NS /\ K (idst x) = true /\ so (idst x) = so (isrc x).
Proof. intros H. apply In_rd in H as (j & _ & H). destruct (rd_fl j x H) as (k & H1 & H2 & H3 & _ & _ & W). split; [auto|]. split; [auto|]. split; [eapply rd_In; eauto|exact W]. Qed.
Lemma fl_rd o k x : 0 <= o < NS -> rd (R o) k = Some x -> rd (fl R) (A R o + k) = Some x.
Proof. intros B H. exact (flat_rd NS K R wfn o k x H B). Qed.
Lemma arc_rd j x : rd (fl R) j = Some x -> rd (r_arcs (vec K R)) j = Some (enc K x).
Proof. intros H. cbn [vec r_arcs]. rewrite rd_map, H. reflexivity. Qed.
Lemma b_rd o : 0 <= o < NS -> exists i, fid o = i /\ 0 <= i < zlen fs /\ rd (r_rs1 (vec K R)) i = Some (nw K (so o)).
Proof.
  intros H. destruct (fid_ok o H) as (i & f & H1 & H2 & H3 & H4 & H5). pose proof (rd_Some_bound _ _ _ H1). exists i. split; [auto|]. split; [auto|]. cbn [vec r_rs1]. rewrite rs1_Lg by lia. now rewrite H4.
Qed.
Lemma arc_pos_ok j x : rd (fl R) j = Some x -> arc_pos (vec K R) j = Some (enc K x, nw K (isrc x), nw K (so (isrc x))).
Proof.
  intros H. destruct (rd_fl j x H) as (k & B & KO & H1 & H2 & H3 & _). unfold arc_pos. rewrite (arc_rd _ _ H), H3. cbn [vec r_ids1]. rewrite ids1_Lg by auto. destruct (b_rd _ B) as (i & -> & _ & E). rewrite E. reflexivity.
Qed.
Lemma enc_src x : nw K (so (isrc x)) + src (enc K x) = nw K (isrc x). Proof. cbn. lia. Qed.
Lemma enc_dst x : nw K (so (isrc x)) + dst (enc K x) = nw K (idst x). Proof. cbn. lia. Qed.
Lemma rs2_rd o : 0 <= o <= NS -> rd (r_rs2 (vec K R)) (nw K o) = Some (A R o).
Proof. intros H. apply rs_L; auto. apply wfn. Qed.
Lemma rs2_rd1 o : 0 <= o < NS -> K o = true -> rd (r_rs2 (vec K R)) (nw K o + 1) = Some (A R o + zlen (R o)).
Proof. intros H E. apply rs_L1; auto. apply wfn. Qed.
Lemma zlen_arcs : zlen (r_arcs (vec K R)) = zlen (fl R). Proof. cbn [vec r_arcs]. apply zlen_map. Qed.
Lemma rows_concat : concat (map R (L NS K)) = fl R.
Proof. apply concat_L. apply wfn. Qed.
End Read.
End Enc.
