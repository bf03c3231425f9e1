(** * FindTightestNonemptyIntervals: the smallest enclosing interval with a nonzero count. *)
From Coq Require Import ZArith List Bool Lia Sorting.Sorted Sorting.Permutation.
From Verif Require Import Base RaggedModel OpsModel OpsProofs ReverseProofs FsaLemmas IDenseSpec DetInv SufModel SufSpec RnntDecList RnntDecGroup SufRadix SufDc3 SufDc3Main SufLcp SufTree.
Import ListNotations.
Open Scope Z_scope.

Lemma foldM_down_zr {S} (I : Z -> S -> Prop) (step : S -> Z -> option S) m : 0 <= m -> forall s, I m s ->
  (forall i s, 0 <= i < m -> I (i + 1) s -> exists s', step s i = Some s' /\ I i s') -> exists s', foldM step (rev (zrange m)) s = Some s' /\ I 0 s'.
Proof.
  revert m. apply (natlike_ind (fun m => forall s, I m s -> (forall i s, 0 <= i < m -> I (i + 1) s -> exists s', step s i = Some s' /\ I i s') -> exists s', foldM step (rev (zrange m)) s = Some s' /\ I 0 s')).
  - intros s H _. exists s. split; [reflexivity|exact H].
  - intros m Hm IH s H HS. change (Z.succ m) with (m + 1) in *. rewrite zrange_S, rev_app_distr by lia. cbn [rev app foldM]. destruct (HS m s ltac:(lia) H) as (s1 & E1 & I1). rewrite E1. apply IH; [exact I1|]. intros; apply HS; [lia|auto].
Qed.

Section Tight.
Variables (lcp : list Z) (n : Z).
Hypothesis Hn : 1 <= n.
Variables (nodes : list node) (lp csum : list Z).
Hypothesis TR : tree_ok lcp n nodes lp.
Hypothesis ZC : zlen csum = n + 1.
Definition cnt (e : node) : Z := at0 csum (n_rb e + 1) - at0 csum (n_lb e).
Hypothesis C0 : forall a b, 0 <= a <= b -> b <= n -> at0 csum a <= at0 csum b.
Let M := zlen nodes.

Definition inside (c e : node) : Prop := n_lb e <= n_lb c /\ n_rb c <= n_rb e.
Definition tightest (i j : Z) : Prop :=
  exists e E, rd nodes i = Some e /\ rd nodes j = Some E /\ inside e E /\ (0 < cnt E \/ j = M - 1) /\
    (j = i \/ exists c, inside e c /\ 0 <= n_lb c /\ n_rb c < n /\ cnt c = 0 /\ n_lcp E = plcp lcp c).

Lemma node_bounds i e : rd nodes i = Some e -> 0 <= n_lb e /\ n_lb e <= n_rb e < n.
Proof.
  clear ZC C0.
  intros H. pose proof (rd_Some_bound _ _ _ H) as B. destruct TR as (_ & _ & R & T & _). destruct (Z.eq_dec i (zlen nodes - 1)) as [->|]; [rewrite R in H; injection H as <-; cbn; lia|]. destruct (T i e ltac:(lia) H) as ((K1 & K2 & _) & _). lia.
Qed.

Lemma tightest_ok : exists lp', find_tightest n nodes csum lp = Some lp' /\ zlen lp' = n /\
  forall x, 0 <= x < n -> exists d j, rd lp x = Some d /\ rd lp' x = Some j /\ tightest d j.
Proof.
  unfold find_tightest. rewrite ZC, Z.eqb_refl. pose proof TR as (ZLP & M1 & R & T & TL). rewrite ZLP, Z.eqb_refl. change (zlen nodes) with M in M1, R, T |- *.
  destruct (foldM_down_zr (fun i t => zlen t = M /\ forall k, i <= k < M -> exists j, rd t k = Some j /\ tightest k j)
    (fun t i => e <- rd nodes i;; a <- rd csum (n_rb e + 1);; b <- rd csum (n_lb e);; j <- (if (n_par e <? 0) || (b <? a) then Some i else rd t (n_par e));; wr t i j) M ltac:(lia) (repeat 0 (Z.to_nat M))) as (tight & E & ZT & HT).
  - split; [rewrite zlen_repeat; lia|]. intros; lia.
  - intros i t Hi (Zt & Ht). destruct (rd_in_bound nodes i Hi) as (e & He). rewrite He. destruct (node_bounds i e He) as (B1 & B2). rewrite (at0_rd csum (n_rb e + 1)), (at0_rd csum (n_lb e)) by lia.
    assert (G : exists j, (if (n_par e <? 0) || (at0 csum (n_lb e) <? at0 csum (n_rb e + 1)) then Some i else rd t (n_par e)) = Some j /\ tightest i j).
    { destruct (Z.eq_dec i (M - 1)) as [->|Ni].
      - exists (M - 1). rewrite R in He. injection He as <-. cbn [n_par]. split; [reflexivity|]. eexists _, _. split; [exact R|]. split; [exact R|]. split; [split; lia|]. split; [now right|now left].
      - destruct (T i e ltac:(lia) He) as (K & P1 & E & P2 & P3 & P4 & P5). replace (n_par e <? 0) with false by lia. cbn [orb]. destruct (Z.ltb_spec (at0 csum (n_lb e)) (at0 csum (n_rb e + 1))) as [L|L].
        + exists i. split; [reflexivity|]. exists e, e. split; [exact He|]. split; [exact He|]. split; [split; lia|]. split; [left; unfold cnt; lia|now left].
        + destruct (Ht (n_par e) ltac:(lia)) as (j & J1 & J2). exists j. split; [exact J1|]. destruct J2 as (e1 & E1 & Q1 & Q2 & Q3 & Q4 & Q5). rewrite P2 in Q1. injection Q1 as <-. exists e, E1. split; [exact He|]. split; [exact Q2|]. split; [unfold inside in *; lia|]. split; [exact Q4|]. right. destruct Q5 as [->|(c & C1 & C2)].
          * rewrite P2 in Q2. injection Q2 as <-. exists e. split; [split; lia|]. split; [lia|]. split; [lia|]. split; [|exact P3]. unfold cnt. pose proof (C0 (n_lb e) (n_rb e + 1) ltac:(lia) ltac:(lia)). lia.
          * exists c. split; [unfold inside in *; lia|]. exact C2. }
    destruct G as (j & G1 & G2). rewrite G1. destruct (wr_Some t i j ltac:(lia)) as (t' & W1 & W2 & W3). rewrite W1. exists t'. split; [reflexivity|]. split; [lia|]. intros k Hk. rewrite W3. destruct (Z.eqb_spec k i) as [->|]; [eauto|]. apply Ht. lia.
  - rewrite E. set (g := fun x => at0 tight (at0 lp x)).
    assert (X : forall x, 0 <= x < n -> rd lp x = Some (at0 lp x) /\ exists j, rd tight (at0 lp x) = Some j /\ tightest (at0 lp x) j).
    { intros x Hx. destruct (TL x Hx) as (d & F & D1 & D2 & _). unfold at0. rewrite D1. split; [reflexivity|]. apply HT. apply rd_Some_bound in D2. fold M in D2. lia. }
    exists (map g (zrange n)). split; [|split].
    + apply mapM_Some_map. intros x Hx. apply in_zrange in Hx. destruct (X x Hx) as (E1 & j & E2 & _). rewrite E1. unfold g, at0 at 2. now rewrite E2.
    + rewrite zlen_map, zlen_zrange; lia.
    + intros x Hx. destruct (X x Hx) as (E1 & j & E2 & E3). exists (at0 lp x), j. split; [exact E1|]. split; [|exact E3]. rewrite rd_map, rd_zrange by lia. cbn [option_map]. unfold g, at0 at 1. now rewrite E2.
Qed.
End Tight.

(** ** from the tree to matching suffixes *)
Section Match.
Variables (t : list Z) (n K : Z) (sa lcp : list Z).
Hypothesis W : padded t n K.
Hypothesis Hn : 1 <= n.
Hypothesis SA : suffix_array_of t n sa.
Hypothesis LC : lcp_array_of t n sa lcp.
Variables (nodes : list node) (lp csum : list Z).
Hypothesis TR : tree_ok lcp n nodes lp.

(** the suffixes that agree with the suffix of rank [x] up to the string depth of the
    interval are those of the interval, and a suffix that is counted agrees no further *)
Lemma interval_match x d j : 0 <= x < n -> rd lp x = Some d -> tightest lcp n nodes csum d j ->
  (forall c y, cnt csum c = 0 -> n_lb c <= y <= n_rb c -> 0 <= n_lb c -> n_rb c < n -> at0 csum (y + 1) - at0 csum y = 0) ->
  exists E, rd nodes j = Some E /\ n_lb E <= x <= n_rb E /\ 0 <= n_lb E /\ n_rb E < n /\ 0 <= n_lcp E /\ (n_lcp E = 0 -> n_par E = -1) /\ (0 < cnt csum E \/ j = zlen nodes - 1) /\
    (forall y, 0 <= y < n -> (agree t (at0 sa x) (at0 sa y) (n_lcp E) <-> n_lb E <= y <= n_rb E \/ y = x)) /\
    (forall y k, 0 <= y < n -> y <> x -> at0 csum (y + 1) - at0 csum y <> 0 -> agree t (at0 sa x) (at0 sa y) k -> k <= n_lcp E).
Proof.
  intros Hx Hd (e & E & He & HE & HI & HC & HT) HZ. exists E. split; [exact HE|].
  pose proof TR as (_ & M1 & R & T & TL). destruct (TL x Hx) as (d' & e' & D1 & D2 & D3 & D4). rewrite Hd in D1. injection D1 as <-. rewrite He in D2. injection D2 as <-.
  destruct (node_bounds lcp n Hn nodes lp TR j E HE) as (B1 & B2). unfold inside in HI. split; [lia|]. split; [lia|]. split; [lia|].
  pose proof (rd_Some_bound _ _ _ HE) as BJ.
  assert (AB : forall x y k, agree t (at0 sa x) (at0 sa y) k -> 0 <= x -> x < y -> y < n -> forall m, x < m <= y -> k <= at0 lcp m).
  { intros x1 y1 k1 A1 P1 P2 P3. now apply (agree_between t n sa SA Hn lcp LC x1 y1 k1 P1 P2 P3). }
  assert (BA : forall x y k, 0 <= x -> x < y -> y < n -> (forall m, x < m <= y -> k <= at0 lcp m) -> agree t (at0 sa x) (at0 sa y) k).
  { intros x1 y1 k1 P1 P2 P3 A1. now apply (agree_between t n sa SA Hn lcp LC x1 y1 k1 P1 P2 P3). }
  assert (NO : j = zlen nodes - 1 /\ E = mkN 0 0 (n - 1) (-1) \/ node_ok lcp n E). { destruct (Z.eq_dec j (zlen nodes - 1)) as [->|]; [left; rewrite R in HE; injection HE as <-; auto|right]. apply (T j E); [lia|exact HE]. }
  split; [destruct NO as [(_ & ->)|(_ & _ & N & _)]; cbn; lia|]. split; [destruct NO as [(_ & ->)|(_ & _ & N & _)]; [reflexivity|lia]|]. split; [exact HC|]. split.
  - intros y Hy. split.
    + intros A. destruct NO as [(_ & ->)|(N1 & N2 & N3 & N4 & N5 & N6)]; [left; cbn; lia|]. destruct (Z.lt_ge_cases y (n_lb E)) as [L|L].
      * exfalso. apply agree_sym in A. pose proof (AB _ _ _ A ltac:(lia) ltac:(lia) ltac:(lia)) as A'. specialize (A' (n_lb E) ltac:(lia)). lia.
      * destruct (Z.lt_ge_cases (n_rb E) y) as [L2|L2]; [|left; lia]. exfalso. pose proof (AB _ _ _ A ltac:(lia) ltac:(lia) ltac:(lia)) as A'. specialize (A' (n_rb E + 1) ltac:(lia)). lia.
    + intros [HB|EB]; [|rewrite EB; intros m _; reflexivity]. destruct (Z.lt_trichotomy x y) as [L|[L|L]]; [|subst y; intros m _; reflexivity|].
      * apply BA; [lia|lia|lia|]. intros m Hm. destruct NO as [(_ & ->)|(N1 & N2 & N3 & N4 & _)]; [cbn|apply N4; lia]. apply (lc_adj t n sa SA Hn lcp LC m). lia.
      * apply agree_sym. apply BA; [lia|lia|lia|]. intros m Hm. destruct NO as [(_ & ->)|(N1 & N2 & N3 & N4 & _)]; [cbn|apply N4; lia]. apply (lc_adj t n sa SA Hn lcp LC m). lia.
  - intros y k Hy Ny NC A.
    assert (G : exists lb rb, lb <= x <= rb /\ (y < lb \/ rb < y) /\ n_lcp E = Z.max (at0 lcp lb) (at0 lcp (rb + 1))).
    { destruct HT as [->|(c & C1 & P & P2 & C2 & C3)].
      - rewrite He in HE. injection HE as <-. exists x, x. split; [lia|]. split; [lia|]. exact D4.
      - exists (n_lb c), (n_rb c). unfold inside in C1. split; [lia|]. split; [|exact C3]. destruct (Z.lt_ge_cases y (n_lb c)); [now left|]. destruct (Z.lt_ge_cases (n_rb c) y); [now right|]. exfalso. apply NC.
        apply (HZ c); auto; lia. }
    destruct G as (lb & rb & G1 & [G2|G2] & G3).
    + apply agree_sym in A. pose proof (AB _ _ _ A ltac:(lia) ltac:(lia) ltac:(lia)) as A'. destruct (Z.eq_dec lb x) as [->|]; [specialize (A' x ltac:(lia))|specialize (A' lb ltac:(lia))]; lia.
    + pose proof (AB _ _ _ A ltac:(lia) ltac:(lia) ltac:(lia)) as A'. specialize (A' (rb + 1) ltac:(lia)). lia.
Qed.
End Match.
