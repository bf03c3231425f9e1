(** * GetBestMatchingStats: sums over an interval are sums over the best matches. *)
From Coq Require Import ZArith QArith List Bool Lia Sorting.Sorted Sorting.Permutation.
From Verif Require Import Base RaggedModel OpsModel OpsProofs RaggedCatProofs ReverseProofs FsaLemmas ExtractProofs IDenseSpec IPrunedCut DetInv SufModel SufSpec RnntDecList RnntDecGroup SufRadix SufDc3 SufDc3Main SufLcp SufTree SufTight SufText.
Import ListNotations.
Open Scope Z_scope.

Lemma firstn_sum (v : list Z) : forall i, 0 <= i -> zsum (firstn (Z.to_nat i) v) = zsum (map (fun y => if y <? i then at0 v y else 0) (zrange (zlen v))).
Proof.
  induction v as [|x v IH] using rev_ind; intros i Hi; [now rewrite firstn_nil|].
  rewrite zlen_app. change (zlen [x]) with 1. rewrite zrange_S, map_app, zsum_app, firstn_app, zsum_app by apply zlen_nonneg. f_equal.
  - rewrite (IH i Hi). apply zsum_ext. intros y Hy. apply in_zrange in Hy. now rewrite at0_app_l by auto.
  - cbn [map]. rewrite at0_app_r, Z.sub_diag, at0_cons_0 by lia. unfold zlen. destruct (Z.ltb_spec (Z.of_nat (length v)) i).
    + replace (Z.to_nat i - length v)%nat with (S (Z.to_nat i - length v - 1)) by lia. cbn [firstn]. now rewrite firstn_nil.
    + replace (Z.to_nat i - length v)%nat with 0%nat by lia. reflexivity.
Qed.
Lemma at0_exsum v i : 0 <= i <= zlen v -> at0 (exsum v) i = zsum (firstn (Z.to_nat i) v).
Proof. intros H. unfold at0. now rewrite rd_exsum by auto. Qed.
Lemma interval_sum v lb rb : 0 <= lb -> lb <= rb + 1 <= zlen v ->
  at0 (exsum v) (rb + 1) - at0 (exsum v) lb = zsum (map (fun y => if (lb <=? y) && (y <=? rb) then at0 v y else 0) (zrange (zlen v))).
Proof.
  intros H1 H2. rewrite !at0_exsum, !firstn_sum by lia.
  assert (E : zsum (map (fun y => if y <? rb + 1 then at0 v y else 0) (zrange (zlen v))) = zsum (map (fun y => (if y <? lb then at0 v y else 0) + (if (lb <=? y) && (y <=? rb) then at0 v y else 0)) (zrange (zlen v)))).
  { apply zsum_ext. intros y _. destruct (Z.ltb_spec y (rb + 1)), (Z.ltb_spec y lb), (Z.leb_spec lb y), (Z.leb_spec y rb); cbn [andb]; lia. }
  rewrite E, zsum_map_add. lia.
Qed.
Lemma map_at0_zrange l : map (at0 l) (zrange (zlen l)) = l.
Proof. apply list_ext_rd; [rewrite zlen_map, zlen_zrange; [reflexivity|apply zlen_nonneg]|]. intros i Hi. rewrite zlen_map, zlen_zrange in Hi by apply zlen_nonneg. rewrite rd_map, rd_zrange by auto. cbn [option_map]. symmetry. now apply at0_rd. Qed.
Lemma zsum_pos_ex {A} (f : A -> Z) l : 0 < zsum (map f l) -> exists x, In x l /\ 0 < f x.
Proof. induction l as [|x l IH]; cbn [map zsum fold_right]; [cbn; lia|]. change (zsum (f x :: map f l)) with (f x + zsum (map f l)). intros H. destruct (Z.lt_ge_cases 0 (f x)); [exists x; split; [now left|auto]|]. destruct IH as (y & Y1 & Y2); [lia|]. exists y. split; [now right|auto]. Qed.
Lemma zsum_mono_ex {A} (f : A -> Z) l x : (forall y, In y l -> 0 <= f y) -> In x l -> f x <= zsum (map f l).
Proof. induction l as [|y l IH]; intros HP HI; [destruct HI|]. change (zsum (map f (y :: l))) with (f y + zsum (map f l)). assert (0 <= zsum (map f l)). { apply zsum_nonneg. rewrite Forall_forall. intros z Hz. apply in_map_iff in Hz. destruct Hz as (u & <- & Hu). apply HP. now right. } pose proof (HP y (or_introl eq_refl)). destruct HI as [->|HI]; [lia|]. specialize (IH ltac:(intros; apply HP; now right) HI). lia. Qed.
Lemma zrange_rev_perm N : 0 <= N -> Permutation (map (fun j => N - 1 - j) (zrange N)) (zrange N).
Proof.
  intros H. apply NoDup_Permutation.
  - apply FinFun.Injective_map_NoDup; [intros x y; lia|apply NoDup_zrange].
  - apply NoDup_zrange.
  - intros x. rewrite in_map_iff, in_zrange. split; [intros (j & <- & Hj); apply in_zrange in Hj; lia|]. intros Hx. exists (N - 1 - x). rewrite in_zrange. lia.
Qed.

Section Stats.
Variables (tokens : list (list Z)) (scores counts : list Z) (eos mn mx mo : Z).
Let toks := concat tokens.
Let N := zlen toks.
Let n := N + 2.
Hypothesis HT : forall x, In x toks -> mn <= x <= mx.
Hypothesis HE : mn <= eos <= mx.
Hypothesis ZS : zlen scores = N.
Hypothesis ZC : zlen counts = N.
Hypothesis C0 : forall j, 0 <= at0 counts j.
Let t := sufx_text toks eos mn mx.

Definition gv (l : list Z) (f : Z -> Z) (p : Z) : Z := if N - 1 - p <? 0 then 0 else f (at0 l (N - 1 - p)).
Definition total_keys : Z := zsum (map (at0 counts) (zrange N)).

Lemma reorder_ok sa l f : zlen l = N -> (forall x, In x sa -> 0 <= x < n) ->
  mapM (fun x => let r := n - 2 - x - 1 in if r <? 0 then Some 0 else v <- rd l r;; Some (f v)) sa = Some (map (gv l f) sa).
Proof.
  intros HL HS. apply mapM_Some_map. intros x Hx. specialize (HS x Hx). cbv zeta. unfold gv. replace (n - 2 - x - 1) with (N - 1 - x) by (unfold n; lia). destruct (Z.ltb_spec (N - 1 - x) 0); [reflexivity|]. now rewrite (at0_rd l (N - 1 - x)) by lia.
Qed.

Section Sa.
Variable sa : list Z.
Hypothesis SA : suffix_array_of t n sa.
Lemma n_pos : 1 <= n. Proof. pose proof (zlen_nonneg toks). unfold n, N. lia. Qed.
Lemma sa_len : zlen sa = n.
Proof. destruct SA as (P & _). apply Permutation_length in P. unfold zlen. rewrite P. pose proof n_pos. rewrite zrange_length. lia. Qed.
Lemma sa_in x : In x sa -> 0 <= x < n.
Proof. destruct SA as (P & _). intros H. apply in_zrange. now apply (Permutation_in _ P). Qed.

(** summing over ranks is summing over positions of words *)
Lemma rank_sum (h : Z -> Z) : (forall p, N <= p -> h p = 0) -> zsum (map (fun y => h (at0 sa y)) (zrange n)) = zsum (map (fun j => h (N - 1 - j)) (zrange N)).
Proof.
  intros H0. pose proof (zlen_nonneg toks) as HN. fold N in HN.
  replace (map (fun y => h (at0 sa y)) (zrange n)) with (map h sa) by (rewrite <- (map_at0_zrange sa) at 1; rewrite map_map, sa_len; reflexivity).
  destruct SA as (P & _). rewrite (zsum_map_perm h _ _ P). unfold n. replace (N + 2) with (N + 1 + 1) by lia. rewrite !zrange_S, !map_app, !zsum_app by lia. cbn [map]. rewrite (H0 N), (H0 (N + 1)) by lia.
  rewrite <- (zsum_map_perm h _ _ (zrange_rev_perm N HN)), map_map. change (zsum [0]) with 0. lia.
Qed.

Lemma csum_step f y : 0 <= y < n -> at0 (exsum (map (gv counts f) sa)) (y + 1) - at0 (exsum (map (gv counts f) sa)) y = gv counts f (at0 sa y).
Proof.
  intros Hy. pose proof sa_len as ZL. rewrite interval_sum by (rewrite ?zlen_map; lia). rewrite zlen_map, ZL.
  rewrite (zsum_ext _ (fun k => if k =? y then gv counts f (at0 sa y) else 0)).
  - rewrite zsum_delta. replace ((0 <=? y) && (y <? n)) with true by lia. reflexivity.
  - intros k Hk. apply in_zrange in Hk. destruct (Z.eqb_spec k y) as [->|]; [rewrite !Z.leb_refl; cbn [andb]; apply at0_map; lia|]. replace ((y <=? k) && (k <=? y)) with false by lia. reflexivity.
Qed.
Let cs := exsum (map (gv counts (fun v => v)) sa).
Lemma gc_nonneg p : 0 <= gv counts (fun v => v) p.
Proof. unfold gv. destruct (N - 1 - p <? 0); [lia|apply C0]. Qed.
Lemma cs_len : zlen cs = n + 1.
Proof. unfold cs. now rewrite zlen_exsum, zlen_map, sa_len. Qed.
Lemma cs_mono a b : 0 <= a <= b -> b <= n -> at0 cs a <= at0 cs b.
Proof.
  intros (Ha & Hab) Hb. pose proof sa_len as ZL. assert (X : 0 <= at0 cs (b - 1 + 1) - at0 cs a).
  { unfold cs. rewrite interval_sum by (rewrite ?zlen_map; lia). apply zsum_nonneg. rewrite Forall_forall. intros z Hz. apply in_map_iff in Hz. destruct Hz as (u & <- & Hu). apply in_zrange in Hu. destruct (_ && _); [|lia]. rewrite at0_map by (rewrite zlen_map in Hu; lia). apply gc_nonneg. }
  replace (b - 1 + 1) with b in X by lia. lia.
Qed.
Lemma cs_total : rd cs n = Some total_keys.
Proof.
  pose proof n_pos as Hn. rewrite (at0_rd cs n) by (rewrite cs_len; lia). f_equal. pose proof sa_len as ZL.
  assert (Z0 : at0 cs 0 = 0) by (unfold cs; rewrite at0_exsum by (rewrite zlen_map; lia); reflexivity).
  pose proof (interval_sum (map (gv counts (fun v => v)) sa) 0 (n - 1) ltac:(lia) ltac:(rewrite zlen_map; lia)) as X. replace (n - 1 + 1) with n in X by lia. fold cs in X. rewrite Z0, Z.sub_0_r in X. rewrite X, zlen_map, ZL.
  rewrite (zsum_ext _ (fun y => gv counts (fun v => v) (at0 sa y))).
  - rewrite rank_sum by (intros p Hp; unfold gv; now replace (N - 1 - p <? 0) with true by lia). unfold total_keys. apply zsum_ext. intros j Hj. apply in_zrange in Hj. unfold gv. replace (N - 1 - (N - 1 - j)) with j by lia. now replace (j <? 0) with false by lia.
  - intros y Hy. apply in_zrange in Hy. replace ((0 <=? y) && (y <=? n - 1)) with true by lia. apply at0_map. lia.
Qed.

Lemma total_pos : 0 < total_keys <-> exists j, 0 <= j < N /\ 0 < at0 counts j.
Proof.
  clear SA HT HE ZS ZC. unfold total_keys. split.
  - intros H. apply zsum_pos_ex in H. destruct H as (j & J1 & J2). apply in_zrange in J1. eauto.
  - intros (j & J1 & J2). pose proof (zsum_mono_ex (at0 counts) (zrange N) j ltac:(intros; apply C0) ltac:(apply in_zrange; lia)). lia.
Qed.

(** the interval of a query *)
Section Query.
Variables (lcp : list Z) (nodes : list node) (lp lp' : list Z).
Hypothesis LC : lcp_array_of t n sa lcp.
Hypothesis TR : tree_ok lcp n nodes lp.
Hypothesis TI : forall x, 0 <= x < n -> exists d j, rd lp x = Some d /\ rd lp' x = Some j /\ tightest lcp n nodes cs d j.
Hypothesis TP : 0 < total_keys.
Let M i j := matched eos toks i j.

Lemma query_interval i x : 0 <= i < N -> at0 counts i = 0 -> 0 <= x < n -> at0 sa x = N - 1 - i ->
  exists k E, rd lp' x = Some k /\ rd nodes k = Some E /\ 0 <= n_lb E <= x /\ x <= n_rb E < n /\ (n_lcp E = 0 -> n_par E = -1) /\
    best_len eos toks counts i (n_lcp E) /\
    forall l f, zlen l = N -> at0 (exsum (map (gv l f) sa)) (n_rb E + 1) - at0 (exsum (map (gv l f) sa)) (n_lb E) = zsum (map (fun j => if n_lcp E <=? M i j then f (at0 l j) else 0) (zrange N)).
Proof.
  intros Hi Ci Hx Ex. pose proof n_pos as Hn. pose proof sa_len as ZL. destruct (TI x Hx) as (d & k & D1 & D2 & D3).
  destruct (interval_match t n sa lcp Hn SA LC nodes lp cs TR x d k Hx D1 D3) as (E & E1 & E2 & E3 & E4 & E5 & E6 & E7 & E8 & E9).
  { intros c y HC HY H1 H2. unfold cnt in HC. pose proof (cs_mono (n_lb c) y ltac:(lia) ltac:(lia)). pose proof (cs_mono y (y + 1) ltac:(lia) ltac:(lia)). pose proof (cs_mono (y + 1) (n_rb c + 1) ltac:(lia) ltac:(lia)). lia. }
  exists k, E. split; [exact D2|]. split; [exact E1|]. split; [lia|]. split; [lia|]. split; [exact E6|].
  set (L := n_lcp E) in *.
  assert (AM : forall j y, 0 <= j < N -> j <> i -> at0 sa y = N - 1 - j -> forall q, agree t (at0 sa x) (at0 sa y) q <-> q <= M i j).
  { intros j y Hj Nj Ey q. rewrite Ex, Ey. apply (agree_matched toks eos mn mx HT HE i j q Hi Hj). lia. }
  assert (CP : 0 < cnt cs E).
  { destruct E7 as [P|P]; [exact P|]. destruct TR as (_ & _ & R & _). rewrite P, R in E1. injection E1 as <-. unfold cnt. cbn [n_rb n_lb]. replace (n - 1 + 1) with n by lia. pose proof cs_total as T. unfold at0 at 1. rewrite T. replace (at0 cs 0) with 0; [lia|]. unfold cs. rewrite at0_exsum by (rewrite zlen_map; lia). reflexivity. }
  (* a key of the interval *)
  assert (KY : exists j, 0 <= j < N /\ 0 < at0 counts j /\ L <= M i j).
  { unfold cnt, cs in CP. rewrite interval_sum in CP by (rewrite ?zlen_map; lia). apply zsum_pos_ex in CP. destruct CP as (y & Y1 & Y2). apply in_zrange in Y1. rewrite zlen_map in Y1. destruct ((n_lb E <=? y) && (y <=? n_rb E)) eqn:B; [|lia]. rewrite at0_map in Y2 by lia. unfold gv in Y2. destruct (Z.ltb_spec (N - 1 - at0 sa y) 0); [lia|]. pose proof (sa_rd _ _ _ SA Hn y ltac:(lia)) as (_ & By).
    exists (N - 1 - at0 sa y). split; [lia|]. split; [lia|]. apply (AM _ y); [lia| |lia|]. { intros Q1. rewrite Q1 in Y2. lia. } apply E8; [lia|]. left. lia. }
  destruct KY as (j0 & J1 & J2 & J3).
  assert (BL : forall j, 0 <= j < N -> 0 < at0 counts j -> M i j <= L).
  { intros j Hj Kj. destruct (sa_rank _ _ _ SA Hn (N - 1 - j) ltac:(unfold n; lia)) as (y & Y1 & Y2). apply (E9 y); [lia| | |].
    - intros ->. rewrite Ex in Y2. assert (j = i) by lia. subst j. lia.
    - unfold cs. rewrite csum_step by lia. unfold gv. rewrite Y2. replace (N - 1 - (N - 1 - j)) with j by lia. replace (j <? 0) with false by lia. lia.
    - apply (AM j y); auto; [intros ->; lia|lia]. }
  split.
  { split; [|exact BL]. exists j0. split; [exact J1|]. split; [exact J2|]. specialize (BL j0 J1 J2). unfold M in *. lia. }
  intros l f Zl. rewrite interval_sum by (rewrite ?zlen_map; lia). rewrite zlen_map, ZL.
  set (h := fun p => if N - 1 - p <? 0 then 0 else if L <=? M i (N - 1 - p) then f (at0 l (N - 1 - p)) else 0).
  rewrite (zsum_ext _ (fun y => h (at0 sa y))).
  - rewrite rank_sum by (intros p Hp; unfold h; now replace (N - 1 - p <? 0) with true by lia). apply zsum_ext. intros j Hj. apply in_zrange in Hj. unfold h. replace (N - 1 - (N - 1 - j)) with j by lia. now replace (j <? 0) with false by lia.
  - intros y Hy. apply in_zrange in Hy. rewrite at0_map by lia. unfold h, gv. destruct (Z.ltb_spec (N - 1 - at0 sa y) 0); [now destruct (_ && _)|]. pose proof (sa_rd _ _ _ SA Hn y ltac:(lia)) as (_ & By).
    assert (X : (n_lb E <=? y) && (y <=? n_rb E) = (L <=? M i (N - 1 - at0 sa y))); [|now rewrite X].
    destruct (Z.eq_dec y x) as [->|Ny].
    + rewrite Ex. replace (N - 1 - (N - 1 - i)) with i by lia. replace ((n_lb E <=? x) && (x <=? n_rb E)) with true by lia. symmetry. apply Z.leb_le. unfold M, matched in *. rewrite match_len_refl. pose proof (match_len_le (history eos toks i) (history eos toks j0)). lia.
    + apply eq_true_iff_eq. rewrite andb_true_iff, !Z.leb_le. rewrite <- (AM (N - 1 - at0 sa y) y); [|lia| |lia].
      * specialize (E8 y Hy). tauto.
      * intros Q1. apply Ny. apply (sa_inj _ _ _ SA Hn); lia.
Qed.

Lemma any_interval x : 0 <= x < n -> exists k E, rd lp' x = Some k /\ rd nodes k = Some E /\ 0 <= n_lb E <= x /\ x <= n_rb E < n /\ (n_lcp E = 0 -> n_par E = -1).
Proof.
  intros Hx. pose proof n_pos as Hn. destruct (TI x Hx) as (d & k & D1 & D2 & D3).
  destruct (interval_match t n sa lcp Hn SA LC nodes lp cs TR x d k Hx D1 D3) as (E & E1 & E2 & E3 & E4 & E5 & E6 & _).
  { intros c y HC HY H1 H2. unfold cnt in HC. pose proof (cs_mono (n_lb c) y ltac:(lia) ltac:(lia)). pose proof (cs_mono y (y + 1) ltac:(lia) ltac:(lia)). pose proof (cs_mono (y + 1) (n_rb c + 1) ltac:(lia) ltac:(lia)). lia. }
  exists k, E. repeat (split; [assumption || lia|]). exact E6.
Qed.
End Query.
End Sa.

Let dist := concat (map (fun l : list Z => map (fun i => i + 1) (zrange (zlen l))) tokens).
Lemma dist_len (ts : list (list Z)) : zlen (concat (map (fun l : list Z => map (fun i => i + 1) (zrange (zlen l))) ts)) = zlen (concat ts).
Proof. induction ts as [|l ts IH]; [reflexivity|]. cbn [map concat]. rewrite !zlen_app, IH, zlen_map, zlen_zrange by apply zlen_nonneg. reflexivity. Qed.
Lemma dist_place i c : place tokens i c -> rd dist i = Some (c + 1).
Proof.
  intros (pre & l & post & E & -> & Hc). unfold dist. rewrite E, map_app, concat_app. cbn [map concat]. rewrite rd_app_r by (rewrite dist_len; lia). rewrite dist_len. replace (zlen (concat pre) + c - zlen (concat pre)) with c by lia. rewrite rd_app_l by (rewrite zlen_map, zlen_zrange; lia). now rewrite rd_map, rd_zrange by lia.
Qed.

(** sums over the positions that match position [i] in at least [L] words *)
Definition msum (L i : Z) (f : Z -> Z) : Z := zsum (map (fun j => if L <=? matched eos toks i j then f j else 0) (zrange N)).
Definition mean_of (s c : Z) : Q := (if c =? 0 then 0 else inject_Z s / inject_Z c)%Q.
Definition var_of (q s c : Z) : Q := (if (c =? 0) || (c =? 1)%Z then 0 else (inject_Z q - 2 * mean_of s c * inject_Z s + inject_Z c * mean_of s c * mean_of s c) / inject_Z c)%Q.

Definition query_stat (i : Z) (st : stat) : Prop :=
  exists L, best_len eos toks counts i L /\
    let s := msum L i (at0 scores) in let q := msum L i (fun j => at0 scores j * at0 scores j) in let c := msum L i (at0 counts) in
    o_mean st = mean_of s c /\ o_var st = var_of q s c /\ o_count st = (if L =? 0 then 0 else c) /\
    forall p, place tokens i p -> o_order st = (if L =? 0 then 0 else if p + 1 <=? L then mo else Z.min L mo).

Lemma stats2_ok : exists r, stats2 tokens scores counts eos mn mx mo = Some r /\ zlen r = N /\
  (total_keys = 0 -> r = map (fun _ => mkSt 0 0 0 0) toks) /\
  (0 < total_keys -> forall i st, rd r i = Some st -> at0 counts i = 0 -> query_stat i st).
Proof.
  unfold stats2. fold toks. change (zlen toks) with N. cbv zeta. change (N + 2) with n. pose proof n_pos as Hn. pose proof (zlen_nonneg toks) as HN. change (zlen toks) with N in HN.
  change (map (fun x => x + (1 - mn)) (rev toks) ++ [eos + (1 - mn); mx + 1 + (1 - mn); 0; 0; 0]) with t.
  pose proof (text_padded toks eos mn mx HT HE) as PT. change (sufx_text toks eos mn mx) with t in PT. change (zlen toks + 2) with n in PT.
  destruct (dc3_ok (Z.to_nat n) t n (mx + 1 + (1 - mn)) PT Hn ltac:(lia)) as (sa & E1 & SA). rewrite E1.
  pose proof (sa_in sa SA) as SI.
  pose proof (reorder_ok sa counts (fun v => v) ZC SI) as R1. cbv zeta in R1. rewrite R1.
  pose proof (reorder_ok sa scores (fun v => v) ZS SI) as R2. cbv zeta in R2. rewrite R2.
  pose proof (reorder_ok sa scores (fun v => v * v) ZS SI) as R3. cbv zeta in R3. rewrite R3. clear R1 R2 R3.
  rewrite (cs_total sa SA).
  assert (T0 : 0 <= total_keys). { apply zsum_nonneg. rewrite Forall_forall. intros z Hz. apply in_map_iff in Hz. destruct Hz as (u & <- & _). apply C0. }
  destruct (Z.eqb_spec total_keys 0) as [TZ|TZ].
  { eexists. split; [reflexivity|]. split; [now rewrite zlen_map|]. split; [auto|lia]. }
  destruct (create_lcp_ok t n _ PT sa SA Hn) as (lcp & E2 & LC). rewrite E2.
  destruct (lcp_ends toks eos mn mx HT HE sa lcp SA LC) as (L0 & L1 & L2).
  destruct (intervals_ok lcp n (proj1 LC) Hn L0 L1 L2) as (nodes & lp & E3 & TR). rewrite E3. cbn [fst snd].
  destruct (tightest_ok lcp n Hn nodes lp _ TR (cs_len sa SA) (cs_mono sa SA)) as (lp' & E4 & _ & TI). rewrite E4.
  destruct (scat (at0 sa) (fun i => i) (fun v i => x <- rd sa i;; wr v x i) (repeat 0 (Z.to_nat n)) n ltac:(lia)) as (inv & E5 & _ & V & _).
  { intros i Hi. rewrite zlen_repeat. pose proof (sa_rd _ _ _ SA Hn i Hi). lia. }
  { intros i j Hi Hj. now apply (sa_inj _ _ _ SA Hn). }
  { intros v i Hi. now rewrite (proj1 (sa_rd _ _ _ SA Hn i Hi)). }
  rewrite E5. fold dist.
  match goal with |- exists r, mapM ?b _ = _ /\ _ => destruct (mapM_exists b (fun i st => at0 counts i = 0 -> query_stat i st) N HN) as (r & M1 & M2 & M3) end.
  2:{ exists r. split; [exact M1|]. split; [exact M2|]. split; [lia|]. intros _. exact M3. }
  intros i Hi. destruct (sa_rank _ _ _ SA Hn (N - 1 - i) ltac:(unfold n; lia)) as (x & X1 & X2).
  replace (n - 2 - i - 1) with (at0 sa x) by (unfold n; lia). rewrite (V x X1).
  assert (Zd : zlen dist = N) by apply dist_len.
  assert (G : exists k E, rd lp' x = Some k /\ rd nodes k = Some E /\ 0 <= n_lb E <= x /\ x <= n_rb E < n /\ (n_lcp E = 0 -> n_par E = -1) /\
    (at0 counts i = 0 -> best_len eos toks counts i (n_lcp E) /\ forall l f, zlen l = N -> at0 (exsum (map (gv l f) sa)) (n_rb E + 1) - at0 (exsum (map (gv l f) sa)) (n_lb E) = msum (n_lcp E) i (fun j => f (at0 l j)))).
  { destruct (Z.eq_dec (at0 counts i) 0) as [Ci|Ci].
    - destruct (query_interval sa SA lcp nodes lp lp' LC TR TI ltac:(lia) i x Hi Ci X1 X2) as (k & E & Q1 & Q2 & Q3 & Q4 & Q5 & Q6 & Q7). exists k, E. do 5 (split; [assumption|]). intros _. split; [exact Q6|]. exact Q7.
    - destruct (any_interval sa SA lcp nodes lp lp' LC TR TI x X1) as (k & E & Q1 & Q2 & Q3 & Q4 & Q5). exists k, E. do 5 (split; [assumption|]). intros; contradiction. }
  destruct G as (k & E & G1 & G2 & G3 & G4 & G5 & G6). rewrite G1, G2. pose proof (sa_len sa SA) as ZL.
  assert (RR : forall l f p, 0 <= p <= n -> rd (exsum (map (gv l f) sa)) p = Some (at0 (exsum (map (gv l f) sa)) p)). { intros. apply at0_rd. rewrite zlen_exsum, zlen_map, ZL. lia. }
  rewrite !RR by lia. rewrite (at0_rd dist i) by lia.
  destruct (Z.eqb_spec (n_lcp E) 0) as [LZ|LZ].
  - rewrite (G5 LZ). cbn [Z.eqb Pos.eqb]. eexists. split; [reflexivity|]. intros Ci. destruct (G6 Ci) as (B & SM). rewrite !SM by auto. exists (n_lcp E). split; [exact B|]. cbn [o_mean o_var o_count o_order]. cbv zeta. split; [reflexivity|]. split; [reflexivity|]. rewrite LZ. split; [reflexivity|]. intros; reflexivity.
  - eexists. split; [reflexivity|]. intros Ci. destruct (G6 Ci) as (B & SM). rewrite !SM by auto. exists (n_lcp E). split; [exact B|]. cbn [o_mean o_var o_count o_order]. cbv zeta. split; [reflexivity|]. split; [reflexivity|]. replace (n_lcp E =? 0) with false by lia. split; [reflexivity|]. intros p Hp. apply dist_place in Hp. unfold at0. rewrite Hp. reflexivity.
Qed.
End Stats.

(** ** from sums to means and variances *)
Lemma Qsum_sq (f : Z -> Z) (m : Q) l : (Qsum (map (fun j => (inject_Z (f j) - m) * (inject_Z (f j) - m)) l) ==
  inject_Z (zsum (map (fun j => (f j * f j)%Z) l)) - 2 * m * inject_Z (zsum (map f l)) + inject_Z (zlen l) * m * m)%Q.
Proof.
  induction l as [|x l IH]; [unfold Qsum; cbn [map fold_right]; change (zsum []) with 0; rewrite zlen_nil; change (inject_Z 0) with 0%Q; ring|]. change (Qsum (map ?g (x :: l))) with (g x + Qsum (map g l))%Q. rewrite IH. change (zsum (map f (x :: l))) with (f x + zsum (map f l)). change (zsum (map (fun j => f j * f j) (x :: l))) with (f x * f x + zsum (map (fun j => f j * f j) l)). rewrite zlen_cons, !inject_Z_plus, inject_Z_mult. change (inject_Z 1) with 1%Q. ring.
Qed.

Lemma msum_keys tokens eos counts L i f (FK : forall j, 0 <= j < zlen (concat tokens) -> at0 counts j <= 0 -> f j = 0) :
  msum tokens eos L i f = zsum (map f (filter (fun j => (0 <? at0 counts j) && (L <=? matched eos (concat tokens) i j)) (zrange (zlen (concat tokens))))).
Proof.
  unfold msum. rewrite zsum_filter. apply zsum_ext. intros j Hj. apply in_zrange in Hj. destruct (Z.ltb_spec 0 (at0 counts j)); cbn [andb]; [reflexivity|]. rewrite (FK j Hj) by lia. now destruct (_ <=? _).
Qed.

Lemma query_best tokens scores counts eos mo i st : (forall j, 0 <= j < zlen (concat tokens) -> at0 counts j = 0 /\ at0 scores j = 0 \/ at0 counts j = 1) ->
  query_stat tokens scores counts eos mo i st -> best_stats eos mo tokens scores counts i (o_mean st) (o_var st) (o_count st) (o_order st).
Proof.
  intros HK (L & B & H1 & H2 & H3 & H4). exists L. split; [exact B|]. cbv zeta.
  set (ks := filter (fun j => (0 <? at0 counts j) && (L <=? matched eos (concat tokens) i j)) (zrange (zlen (concat tokens)))).
  rewrite (msum_keys tokens eos counts L i (at0 scores)) in H1, H2 by (intros j Hj Cj; destruct (HK j Hj) as [(_ & ?)|]; lia). fold ks in H1, H2.
  rewrite (msum_keys tokens eos counts L i (fun j => at0 scores j * at0 scores j)) in H2 by (intros j Hj Cj; destruct (HK j Hj) as [(_ & ->)|]; lia). fold ks in H2.
  assert (CE : msum tokens eos L i (at0 counts) = zlen ks).
  { rewrite (msum_keys tokens eos counts L i (at0 counts)) by (intros j Hj Cj; destruct (HK j Hj) as [(? & _)|]; lia). fold ks.
    rewrite (zsum_ext _ (fun _ => 1)).
    - clearbody ks. clear. induction ks as [|x l IH]; [reflexivity|]. change (zsum (map (fun _ => 1) (x :: l))) with (1 + zsum (map (fun _ : Z => 1) l)). rewrite zlen_cons. lia.
    - intros j Hj. apply filter_In in Hj. destruct Hj as (Hj & T). apply in_zrange in Hj. destruct (HK j Hj) as [(Q1 & _)|Q1]; [rewrite Q1 in T; discriminate|exact Q1]. }
  rewrite CE in *.
  assert (KP : 0 < zlen ks).
  { destruct B as ((j & J1 & J2 & J3) & _). assert (IN : In j ks) by (apply filter_In; split; [now apply in_zrange|]; apply andb_true_iff; split; [now apply Z.ltb_lt|apply Z.leb_le; lia]). clearbody ks. destruct ks; [destruct IN|]. rewrite zlen_cons. pose proof (zlen_nonneg ks). lia. }
  clearbody ks.
  assert (NZ : ~ (inject_Z (zlen ks) == 0)%Q). { change 0%Q with (inject_Z 0). rewrite inject_Z_injective. lia. }
  unfold mean_of in H1. replace (zlen ks =? 0) with false in H1 by lia.
  split; [now rewrite H1|]. split; [|split; [exact H3|exact H4]].
  rewrite Qsum_sq, H2. unfold var_of. replace (zlen ks =? 0) with false by lia. cbn [orb]. unfold mean_of. replace (zlen ks =? 0) with false by lia. rewrite H1.
  destruct (Z.eqb_spec (zlen ks) 1) as [E|E]; [|reflexivity].
  destruct ks as [|k [|k' l]]; [discriminate| |rewrite !zlen_cons in E; pose proof (zlen_nonneg l); lia].
  change (zlen [k]) with 1. cbn [map]. change (zsum [at0 scores k]) with (at0 scores k + 0). change (zsum [at0 scores k * at0 scores k]) with (at0 scores k * at0 scores k + 0). rewrite !Z.add_0_r, inject_Z_mult. change (inject_Z 1) with 1%Q. field.
Qed.
