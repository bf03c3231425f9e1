(** * MakeTransposable and Transpose on nested lists. *)
From Coq Require Import ZArith List Lia Bool.
From Verif Require Import Base RaggedModel RaggedSpec RaggedProofs FsaSpec FsaLemmas EpsLoopProofs RaggedOpsModel RaggedOpsSpec
  RaggedOpsProofs RaggedListProofs RaggedOpsProps GraphProofs RnntProps BatchModel.
Import ListNotations.
Open Scope Z_scope.

Definition lay {A} (x : list (list A)) : layer := mk_layer (splits_of x) (ids_of x).

(** ** Rows of one length *)
Lemma off1_uniform {A} (y : list (list A)) c k : (forall row, In row y -> zlen row = c) -> 0 <= k <= zlen y -> off1 y k = k * c.
Proof.
  intros H B. replace k with (Z.of_nat (Z.to_nat k)) in * by lia. revert B. generalize (Z.to_nat k) as d. induction d as [|d IH]; intros B; [reflexivity|].
  destruct (rd_in_bound y (Z.of_nat d) ltac:(lia)) as (row & Hr). pose proof (off1_next y _ row Hr) as N.
  replace (Z.of_nat (S d)) with (Z.of_nat d + 1) by lia. rewrite N, IH, (H row) by (try lia; eapply rd_In; eauto). lia.
Qed.
Lemma uniform_splits {A} (y : list (list A)) c : (forall row, In row y -> zlen row = c) -> splits_of y = map (fun i => i * c) (zrange (zlen y + 1)).
Proof.
  intros H. pose proof (zlen_nonneg y). apply list_ext_rd.
  - now rewrite zlen_splits_of, zlen_map, zlen_zrange by lia.
  - intros i Hi. rewrite zlen_splits_of in Hi. rewrite rd_splits_off by lia. rewrite rd_map, rd_zrange by lia. cbn. f_equal. apply off1_uniform; auto. lia.
Qed.
Lemma zlen_uniform {A} (y : list (list A)) c : (forall row, In row y -> zlen row = c) -> zlen (concat y) = zlen y * c.
Proof. intros H. rewrite <- off1_all. apply off1_uniform; auto. pose proof (zlen_nonneg y). lia. Qed.
Lemma uniform_ids {A} (y : list (list A)) c : (forall row, In row y -> zlen row = c) -> ids_of y = map (fun i => i / c) (zrange (zlen y * c)).
Proof.
  intros H. assert (LL : zlen (ids_of y) = zlen y * c) by (unfold ids_of; rewrite zlen_ids_from; now apply zlen_uniform). pose proof (zlen_nonneg (ids_of y)). apply list_ext_rd.
  - now rewrite zlen_map, zlen_zrange by lia.
  - intros i Hi. rewrite rd_map, rd_zrange by lia. cbn [option_map].
    destruct (rd_in_bound (concat y) i) as (a & Ha). { unfold ids_of in Hi. now rewrite zlen_ids_from in Hi. }
    destruct (rd_concat_inv _ _ _ Ha) as (r & l & j & R1 & R2 & -> & R3). rewrite R3. pose proof (rd_Some_bound _ _ _ R1). pose proof (rd_Some_bound _ _ _ R2).
    rewrite (off1_uniform y c) in * by (auto; lia). rewrite (H l (rd_In _ _ _ R1)) in *. f_equal. apply Z.div_unique with (r := j); lia.
Qed.
Lemma uniform_rd {A} (y : list (list A)) c i j row : (forall row, In row y -> zlen row = c) -> rd y i = Some row -> 0 <= j < c -> rd (concat y) (i * c + j) = rd row j.
Proof.
  intros H Hi Hj. pose proof (H row (rd_In _ _ _ Hi)). destruct (rd_in_bound row j ltac:(lia)) as (a & Ha). rewrite Ha. pose proof (rd_Some_bound _ _ _ Hi).
  rewrite <- (off1_uniform y c) by (auto; lia). now destruct (rd_concat_off y i row j a Hi Ha).
Qed.

(** ** MakeTransposable *)
Definition padded {A} (M : Z) (row : list (list A)) : list (list A) := row ++ repeat [] (Z.to_nat (M - zlen row)).
Definition max_len {A} (x : list (list A)) : Z := fold_left Z.max (map zlen x) 0.
Definition pad_rows {A} (x : list (list (list A))) : list (list (list A)) := map (padded (max_len x)) x.

Lemma max_len_ge {A} (x : list (list A)) row : In row x -> zlen row <= max_len x.
Proof. intros H. unfold max_len. destruct (fold_max (map zlen x) 0) as (y & _ & -> & F). apply F. right. now apply in_map. Qed.
Lemma max_len_0 {A} (x : list (list A)) : 0 <= max_len x.
Proof. unfold max_len. destruct (fold_max (map zlen x) 0) as (y & _ & -> & F). apply F. now left. Qed.
Lemma concat_padded {A} M (row : list (list A)) : concat (padded M row) = concat row.
Proof. unfold padded. rewrite concat_app. replace (concat (repeat [] _)) with (@nil A); [now rewrite app_nil_r|]. induction (Z.to_nat (M - zlen row)); simpl; auto. Qed.
Lemma zlen_padded {A} M (row : list (list A)) : zlen row <= M -> zlen (padded M row) = M.
Proof. intros. unfold padded. rewrite zlen_app, zlen_repeat. lia. Qed.
Lemma pad_rows_len {A} (x : list (list (list A))) row : In row (pad_rows x) -> zlen row = max_len x.
Proof. intros H. apply in_map_iff in H as (r & <- & Hr). apply zlen_padded. now apply max_len_ge. Qed.
Lemma zlen_pad_rows {A} (x : list (list (list A))) : zlen (pad_rows x) = zlen x.
Proof. apply zlen_map. Qed.
Lemma pad_rows_values {A} (x : list (list (list A))) : concat (concat (pad_rows x)) = concat (concat x).
Proof. unfold pad_rows. generalize (max_len x). intros M. induction x as [|r x IH]; cbn [map concat]; auto. rewrite !concat_app, IH. now rewrite concat_padded. Qed.
Lemma off1_padded {A} M (row : list (list A)) r : 0 <= r -> off1 (padded M row) r = off1 row (Z.min r (zlen row)).
Proof.
  intros Hr. unfold padded. destruct (Z_le_gt_dec r (zlen row)) as [L|G].
  - rewrite Z.min_l by lia. unfold off1. rewrite firstn_app. replace (Z.to_nat r - length row)%nat with 0%nat by (unfold zlen in *; lia). cbn [firstn]. now rewrite app_nil_r.
  - rewrite Z.min_r by lia. unfold off1. rewrite firstn_app, concat_app. rewrite (firstn_all2 row) by (unfold zlen in *; lia). rewrite (firstn_all2 row) by (unfold zlen in *; lia).
    assert (E : forall k n, concat (firstn k (repeat (@nil A) n)) = []) by (induction k; intros [|n]; simpl; auto). now rewrite E, app_nil_r.
Qed.
Lemma pad_same {A} (x : list (list (list A))) : (forall row, In row x -> zlen row = max_len x) -> pad_rows x = x.
Proof.
  intros H. unfold pad_rows. etransitivity; [|apply map_id]. apply map_ext_in. intros r Hr. unfold padded. rewrite (H r Hr), Z.sub_diag. change (Z.to_nat 0) with 0%nat. cbn. apply app_nil_r.
Qed.

Lemma off1_concat2 {A} (x : list (list (list A))) k row r : rd x k = Some row -> 0 <= r <= zlen row ->
  off1 (concat x) (off1 x k + r) = zlen (concat (concat (firstn (Z.to_nat k) x))) + off1 row r.
Proof. apply off1_concat. Qed.

Lemma make_transposable_ok {A} (x : list (list (list A))) :
  make_transposable (lay x) (lay (concat x)) = Some (lay (pad_rows x), lay (concat (pad_rows x))).
Proof.
  unfold make_transposable. cbn [lay l_rs l_ids]. rewrite !zlen_splits_of. replace (zlen x + 1 - 1) with (zlen x) by lia. replace (zlen (concat x) + 1 - 1) with (zlen (concat x)) by lia.
  set (M := max_len x). pose proof (max_len_0 x) as M0. fold M in M0.
  destruct (zlen x <=? 1) eqn:E1.
  { rewrite pad_same; [reflexivity|]. intros row Hr. destruct x as [|r0 [|? x]]; [destruct Hr| |rewrite !zlen_cons in E1; pose proof (zlen_nonneg x); lia].
    destruct Hr as [<-|[]]. unfold max_len. cbn. pose proof (zlen_nonneg r0). lia. }
  rewrite max_size_ok. fold (max_len x). fold M. destruct (M <=? 0) eqn:E2.
  { rewrite pad_same; [reflexivity|]. intros row Hr. pose proof (max_len_ge x row Hr). fold M in H. pose proof (zlen_nonneg row). fold M. lia. }
  set (x' := pad_rows x). assert (LX : zlen x' = zlen x) by apply zlen_pad_rows.
  assert (UX : forall row, In row x' -> zlen row = M) by (intros; now apply pad_rows_len).
  assert (LC : zlen (concat x') = M * zlen x) by (rewrite (zlen_uniform x' M UX), LX; lia).
  assert (HX : forall k row, rd x k = Some row -> rd x' k = Some (padded M row)).
  { intros k row Hk. unfold x', pad_rows. rewrite rd_map, Hk. reflexivity. }
  assert (HV : forall k, zlen (concat (concat (firstn (Z.to_nat k) x'))) = zlen (concat (concat (firstn (Z.to_nat k) x)))).
  { intros k. unfold x', pad_rows. rewrite firstn_map. fold M. generalize (firstn (Z.to_nat k) x). clear. induction l as [|r l IH]; cbn [map concat]; auto.
    rewrite !concat_app, !zlen_app, IH. now rewrite concat_padded. }
  assert (HO : forall k row r, rd x k = Some row -> 0 <= r <= M -> off1 (concat x') (k * M + r) = zlen (concat (concat (firstn (Z.to_nat k) x))) + off1 row (Z.min r (zlen row))).
  { intros k row r Hk Hr. pose proof (rd_Some_bound _ _ _ Hk). rewrite <- (off1_uniform x' M) by (auto; lia).
    pose proof (max_len_ge x row (rd_In _ _ _ Hk)) as ML. fold M in ML.
    rewrite (off1_concat2 x' k (padded M row)) by (auto; rewrite zlen_padded by auto; lia). rewrite HV, off1_padded by lia. reflexivity. }
  rewrite (RaggedOpsProofs.mapM_zrange _ (M * zlen x + 1) (splits_of (concat x'))).
  - assert (E3 : zlen (ids_of (concat x)) = zlen (ids_of (concat x'))).
    { unfold ids_of. rewrite !zlen_ids_from. unfold x'. now rewrite pad_rows_values. }
    rewrite E3. rewrite (GraphProofs.mapM_zrange).
    + rewrite <- (uniform_ids x' M UX) || idtac. f_equal. f_equal. unfold lay. f_equal.
      * rewrite (uniform_splits x' M UX), LX. reflexivity.
      * rewrite (uniform_ids x' M UX), LX. f_equal. f_equal. lia.
    + intros i s' Hi. pose proof (rd_Some_bound _ _ _ Hi) as Bi. unfold ids_of in Bi. rewrite zlen_ids_from in Bi. unfold x' in Bi. rewrite pad_rows_values in Bi. fold x' in Bi.
      destruct (rd_in_bound _ _ Bi) as (a & Ha). destruct (rd_concat_inv _ _ _ Ha) as (r & l & j & R1 & R2 & -> & R3).
      destruct (rd_concat_inv _ _ _ R1) as (k & row & s & K1 & K2 & -> & K3). rewrite R3, K3.
      pose proof (rd_Some_bound _ _ _ K1). pose proof (rd_Some_bound _ _ _ K2). pose proof (max_len_ge x row (rd_In _ _ _ K1)) as ML. fold M in ML.
      rewrite rd_splits_off by lia. assert (OE : off1 (concat x) (off1 x k + s) = off1 (concat x') (k * M + s)).
      { rewrite (HO k row s K1) by lia. rewrite (off1_concat2 x k row) by (auto; lia). now rewrite Z.min_l by lia. }
      rewrite OE in Hi. assert (Hl : rd (concat x') (k * M + s) = Some l).
      { rewrite (uniform_rd x' M k s (padded M row)) by (auto; lia). unfold padded. rewrite rd_app_l by lia. exact K2. }
      destruct (rd_concat_off (concat x') _ l j a Hl R2) as (_ & RI). rewrite RI in Hi. injection Hi as <-. f_equal. lia.
  - pose proof (zlen_nonneg x). nia.
  - rewrite zlen_splits_of, LC. lia.
  - intros i Hi. rewrite rd_splits_off by lia. unfold mt_split. destruct (i =? M * zlen x) eqn:E4.
    + assert (i = M * zlen x) by lia. subst i. rewrite rd_splits_off by (pose proof (zlen_nonneg (concat x)); lia). rewrite off1_all. rewrite <- LC, off1_all. f_equal.
      unfold x'. now rewrite pad_rows_values.
    + assert (Bm : 0 <= i mod M < M) by (apply Z.mod_pos_bound; lia). pose proof (Z.div_mod i M ltac:(lia)) as DM.
      assert (Bk : 0 <= i / M < zlen x). { split; [apply Z.div_pos; lia|]. apply Z.div_lt_upper_bound; lia. }
      destruct (rd_in_bound x (i / M) Bk) as (row & Hrow). rewrite !rd_splits_off by lia. rewrite (off1_next x _ row Hrow).
      replace (off1 x (i / M) + zlen row - off1 x (i / M)) with (zlen row) by lia. pose proof (max_len_ge x row (rd_In _ _ _ Hrow)) as ML. fold M in ML.
      pose proof (off1_next x _ row Hrow) as ON. pose proof (off1_bound x (i / M + 1)). pose proof (off1_nonneg x (i / M)). pose proof (zlen_nonneg row).
      assert (OI : off1 (concat x') i = off1 (concat x') (i / M * M + i mod M)) by (f_equal; lia). rewrite OI, (HO _ row) by (auto; lia).
      destruct (i mod M <? zlen row) eqn:E5.
      * rewrite rd_splits_off by lia. rewrite (off1_concat2 x _ row) by (auto; lia). now rewrite Z.min_l by lia.
      * rewrite rd_splits_off by lia. rewrite (off1_concat2 x _ row) by (auto; lia). now rewrite Z.min_r by lia.
Qed.

(** ** Transpose *)
Definition transposed {A} (d : Z) (x : list (list (list A))) : list (list (list A)) := tab d (fun k => map (fun row => pick row k) x).

Lemma transpose3_ok {A} (x : list (list (list A))) d : 0 <= d -> (forall row, In row x -> zlen row = d) -> (x = [] -> d = 0) ->
  transpose3 (lay x) (lay (concat x)) (concat (concat x)) =
    Some (lay (transposed d x), lay (concat (transposed d x)), concat (concat (transposed d x))).
Proof.
  intros Hd HU HE. unfold transpose3. cbn [lay l_rs]. rewrite !zlen_splits_of. replace (zlen x + 1 - 1) with (zlen x) by lia.
  replace (zlen (concat x) + 1 - 1) with (zlen (concat x)) by lia. destruct (zlen x <=? 0) eqn:E0.
  { assert (x = []) as -> by (apply zlen_0_nil; pose proof (zlen_nonneg x); lia). rewrite HE by auto. reflexivity. }
  rewrite (zlen_uniform x d HU). set (n := zlen x) in *. replace (n * d / n) with d by (rewrite Z.mul_comm, Z.div_mul; lia).
  rewrite Z.mul_comm, Z.mod_mul by lia. rewrite Z.eqb_refl.
  set (y := transposed d x). assert (LY : zlen y = d) by (unfold y, transposed; rewrite zlen_tab; lia).
  assert (UY : forall row, In row y -> zlen row = n). { intros row Hr. unfold y, transposed, tab in Hr. apply in_map_iff in Hr as (k & <- & _). now rewrite zlen_map. }
  set (renum := map _ (zrange (d * n))).
  assert (PI : map (pick (concat x)) renum = concat y).
  { apply list_ext_rd.
    - unfold renum. rewrite !zlen_map, zlen_zrange by nia. rewrite (zlen_uniform y n UY), LY. reflexivity.
    - intros i Hi. unfold renum in *. rewrite !zlen_map, zlen_zrange in Hi by nia. rewrite !rd_map, rd_zrange by lia. cbn [option_map].
      assert (Bm : 0 <= i mod n < n) by (apply Z.mod_pos_bound; lia). pose proof (Z.div_mod i n ltac:(lia)) as DM.
      assert (Bk : 0 <= i / n < d). { split; [apply Z.div_pos; lia|]. apply Z.div_lt_upper_bound; lia. }
      destruct (rd_in_bound x (i mod n)) as (row & Hrow); [lia|]. unfold pick. rewrite (uniform_rd x d _ _ row HU Hrow) by lia.
      assert (OI : rd (concat y) i = rd (concat y) (i / n * n + i mod n)) by (f_equal; lia). rewrite OI.
      assert (HY : rd y (i / n) = Some (map (fun row => pick row (i / n)) x)) by (unfold y, transposed; now rewrite rd_tab by lia).
      rewrite (uniform_rd y n _ _ _ UY HY) by lia. rewrite rd_map, Hrow. reflexivity. }
  destruct (C07_index_axis0 A 0 (concat x) renum) as (el & C & _).
  { apply Forall_forall. intros j Hj. unfold renum in Hj. apply in_map_iff in Hj as (i & <- & Hi). apply in_zrange in Hi.
    change (nest A 1) with (list A). rewrite (zlen_uniform x d HU). fold n.
    assert (Bm : 0 <= i mod n < n) by (apply Z.mod_pos_bound; lia).
    assert (Bk : 0 <= i / n < d). { split; [apply Z.div_pos; lia|]. apply Z.div_lt_upper_bound; lia. } nia. }
  rewrite PI in C. cbn [layers_of values_of] in C. unfold lay. rewrite C. cbn [fst snd].
  rewrite (uniform_splits y n UY), (uniform_ids y n UY), LY. reflexivity.
Qed.
