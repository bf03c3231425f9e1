(** * The constructor and the forward-backward steps *)
From Coq Require Import ZArith List Lia Bool Permutation.
From Verif Require Import Base RaggedModel RaggedSpec RaggedProofs FsaSpec FsaLemmas RaggedOpsProofs OpsModel ReverseModel ReverseProofs IntersectSpec IDenseModel IDenseSpec IDensePaths IDenseInit.
From Verif Require GraphProofs.
Import ListNotations.
Open Scope Z_scope.

(** ** InvertMonotonicDecreasing *)
Lemma k2_eval_inv {A} n (v : Z -> A) body sched :
  (forall i, In i sched -> exists ws, body i = Some ws /\ Forall (agrees n v) ws) ->
  forall arr, zlen arr = n ->
  exists arr', k2_eval sched body arr = Some arr' /\ zlen arr' = n /\
    forall j, 0 <= j < n ->
      (rd arr' j = Some (Some (v j)) \/ rd arr' j = rd arr j) /\
      ((rd arr j = Some (Some (v j)) \/ exists i ws, In i sched /\ body i = Some ws /\ In j (map fst ws)) -> rd arr' j = Some (Some (v j))).
Proof.
  induction sched as [|i t IH]; intros Hb arr Hn; cbn [k2_eval].
  - exists arr. split; [reflexivity|]. split; [exact Hn|]. intros j Hj. split; [now right|]. intros [H|(i & ws & [] & _)]; auto.
  - destruct (Hb i (or_introl eq_refl)) as (ws & Hw & Ha). rewrite Hw.
    destruct (wrs_agrees n v ws Ha arr Hn) as (a1 & H1 & H2 & H3). rewrite H1.
    destruct (IH (fun k Hk => Hb k (or_intror Hk)) a1 H2) as (a2 & H4 & H5 & H6).
    exists a2. split; [exact H4|]. split; [exact H5|]. intros j Hj. destruct (H6 j Hj) as (G1 & G2). split.
    + destruct G1 as [G1|G1]; [now left|]. rewrite G1, H3 by auto. destruct existsb; auto.
    + intros HH. apply G2. destruct HH as [HH|(k & ws' & [->|Hk] & Hw' & Hin)].
      * left. rewrite H3 by auto. destruct existsb; auto.
      * left. rewrite Hw in Hw'; injection Hw' as <-. rewrite H3 by auto.
        replace (existsb _ ws) with true; auto. symmetry; apply existsb_exists.
        apply in_map_iff in Hin as (w & Hw1 & Hw2). exists w; split; auto. now apply Z.eqb_eq.
      * right. eauto 6.
Qed.
Lemma suffix_max_ok l : zlen (suffix_max l) = zlen l /\ forall t y, rd (suffix_max l) t = Some y ->
  (forall p x, t <= p -> rd l p = Some x -> x <= y) /\ exists p, t <= p /\ rd l p = Some y.
Proof.
  induction l as [|x l (IL & IH)]; [split; [reflexivity|]; intros t y H; cbn [suffix_max] in H; rewrite rd_nil in H; discriminate|].
  cbn [suffix_max]. destruct (suffix_max l) as [|y0 r] eqn:E.
  - assert (l = []) by (apply zlen_0_nil; rewrite <- IL; reflexivity). subst l. split; [reflexivity|].
    intros t y H. pose proof (rd_Some_bound _ _ _ H) as B. change (zlen [x]) with 1 in B. assert (t = 0) by lia. subst t. injection H as <-. split.
    + intros p z Hp Hz. pose proof (rd_Some_bound _ _ _ Hz) as B'. change (zlen [x]) with 1 in B'. assert (p = 0) by lia. subst p. injection Hz as <-. lia.
    + exists 0. split; [lia|reflexivity].
  - split; [rewrite zlen_cons, zlen_cons in *; rewrite zlen_cons; lia|]. intros t y H. rewrite rd_cons in H. destruct (t =? 0) eqn:Et.
    + apply Z.eqb_eq in Et as ->. injection H as <-. destruct (IH 0 y0 eq_refl) as (A & p & Hp & B). split.
      * intros q z Hq Hz. pose proof (rd_Some_bound _ _ _ Hz). rewrite rd_cons in Hz. destruct (q =? 0) eqn:Eq; [injection Hz as <-; lia|]. apply Z.eqb_neq in Eq.
        specialize (A (q - 1) z ltac:(lia) Hz). lia.
      * destruct (Z.max_spec x y0) as [(_ & ->)|(_ & ->)]; [|exists 0; split; [lia|reflexivity]].
        exists (p + 1). rewrite rd_cons_S by lia. split; [lia|exact B].
    + apply Z.eqb_neq in Et. pose proof (rd_Some_bound _ _ _ H) as Bd.
      destruct (IH (t - 1) y H) as (A & p & Hp & B). split.
      * intros q z Hq Hz. rewrite rd_cons in Hz. replace (q =? 0) with false in Hz by (symmetry; apply Z.eqb_neq; lia). exact (A (q - 1) z ltac:(lia) Hz).
      * exists (p + 1). rewrite rd_cons_S by lia. split; [lia|exact B].
Qed.
Definition cnt (l : list Z) (t : Z) : Z := zlen (filter (fun x => t <? x) l).
Definition down (l : list Z) : Prop := forall i j x y, i <= j -> rd l i = Some x -> rd l j = Some y -> y <= x.
Lemma down_tl x l : down (x :: l) -> down l.
Proof.
  intros H i j a b Hij Ha Hb. pose proof (rd_Some_bound _ _ _ Ha). apply (H (i + 1) (j + 1) a b); [lia| |]; rewrite rd_cons_S by lia; assumption.
Qed.
Lemma cnt_ok l t : down l -> forall k x, rd l k = Some x -> (k < cnt l t <-> t < x).
Proof.
  induction l as [|y l IH]; intros D k x H; [rewrite rd_nil in H; discriminate|]. pose proof (rd_Some_bound _ _ _ H) as B.
  unfold cnt. cbn [filter]. destruct (t <? y) eqn:E.
  - apply Z.ltb_lt in E. rewrite zlen_cons. fold (cnt l t). rewrite rd_cons in H. destruct (k =? 0) eqn:Ek.
    + apply Z.eqb_eq in Ek. injection H as <-. unfold cnt. pose proof (zlen_nonneg (filter (fun x => t <? x) l)). lia.
    + rewrite <- (IH (down_tl _ _ D) _ _ H). lia.
  - apply Z.ltb_ge in E. assert (x <= y) by (exact (D 0 k y x ltac:(lia) eq_refl H)).
    rewrite filter_none; [change (zlen (@nil Z)) with 0; lia|]. intros z Hz. apply In_rd in Hz as (i & Hi & Hz).
    pose proof (D 0 (i + 1) y z ltac:(lia) eq_refl ltac:(rewrite rd_cons_S by lia; exact Hz)). apply Z.ltb_ge. lia.
Qed.
Lemma cnt_bound l t : 0 <= cnt l t <= zlen l.
Proof.
  unfold cnt. split; [apply zlen_nonneg|]. induction l as [|x l IH]; [change (zlen (filter (fun x => t <? x) [])) with 0; apply zlen_nonneg|]. cbn [filter]. destruct (t <? x); rewrite ?zlen_cons; lia.
Qed.
Lemma cnt_mono l t t' : t <= t' -> cnt l t' <= cnt l t.
Proof.
  intros H. unfold cnt. induction l as [|x l IH]; [cbn; lia|]. cbn [filter]. destruct (Z.ltb_spec t' x), (Z.ltb_spec t x); rewrite ?zlen_cons; lia.
Qed.
Lemma freeze_map {A} (arr : list (option A)) : (forall j, 0 <= j < zlen arr -> exists x, rd arr j = Some (Some x)) -> exists l, freeze arr = Some l /\ arr = map Some l.
Proof.
  intros H. unfold freeze. induction arr as [|o arr IH]; [exists []; auto|].
  destruct (H 0) as (x & Hx); [rewrite zlen_cons; pose proof (zlen_nonneg arr); lia|]. injection Hx as ->.
  destruct IH as (l & E1 & ->). { intros j Hj. destruct (H (j + 1)) as (y & Hy); [rewrite zlen_cons; lia|]. rewrite rd_cons_S in Hy by lia. eauto. }
  exists (x :: l). cbn. rewrite E1. auto.
Qed.
Lemma imd_ok ord l d : (forall n, is_sched n (ord n)) -> down l -> rd l 0 = Some d -> (forall x, In x l -> 1 <= x) ->
  exists nf, invert_monotonic_decreasing ord l = Some nf /\ zlen nf = d /\ forall t, 0 <= t < d -> rd nf t = Some (cnt l t).
Proof.
  intros Ho D H0 Hpos. unfold invert_monotonic_decreasing. pose proof (rd_Some_bound _ _ _ H0) as B0.
  replace (zlen l =? 0) with false by (symmetry; apply Z.eqb_neq; lia). rewrite H0.
  assert (Hd : 1 <= d) by (apply Hpos; exact (rd_In _ _ _ H0)).
  assert (LAST : forall i x, rd l i = Some x -> (i + 1 = zlen l \/ exists y, rd l (i + 1) = Some y /\ y < x) -> cnt l (x - 1) = i + 1).
  { intros i x Hi Hl. pose proof (proj2 (cnt_ok l (x - 1) D i x Hi) ltac:(lia)). pose proof (cnt_bound l (x - 1)).
    destruct Hl as [Hl|(y & Hy & Hlt)]; [lia|]. pose proof (cnt_ok l (x - 1) D (i + 1) y Hy). lia. }
  set (body := fun i => v <- rd l i;; (if i + 1 =? zlen l then Some [(v - 1, i + 1)] else v' <- rd l (i + 1);; Some (if v' <? v then [(v - 1, i + 1)] else []))).
  destruct (k2_eval_inv d (cnt l) body (ord (zlen l))) with (arr := repeat (Some 0) (Z.to_nat d)) as (arr & E1 & E2 & E3).
  - intros i Hi. apply (in_sched (zlen l)) in Hi; [|apply Ho]. destruct (rd_in_bound l i Hi) as (x & Hx). unfold body. rewrite Hx.
    pose proof (Hpos x (rd_In _ _ _ Hx)). pose proof (D 0 i d x ltac:(lia) H0 Hx).
    destruct (i + 1 =? zlen l) eqn:E.
    + apply Z.eqb_eq in E. eexists. split; [reflexivity|]. constructor; [|constructor]. split; cbn [fst snd]; [lia|]. symmetry. apply LAST; auto.
    + apply Z.eqb_neq in E. destruct (rd_in_bound l (i + 1) ltac:(lia)) as (y & Hy). rewrite Hy. eexists. split; [reflexivity|].
      destruct (y <? x) eqn:Ey; [|constructor]. apply Z.ltb_lt in Ey. constructor; [|constructor]. split; cbn [fst snd]; [lia|]. symmetry. apply LAST; eauto.
  - rewrite zlen_repeat. lia.
  - rewrite E1. 
    assert (CELL : forall j, 0 <= j < d -> rd arr j = Some (Some (cnt l j)) \/ rd arr j = Some (Some 0)).
    { intros j Hj. destruct (E3 j Hj) as ([E|E] & _); [now left|right]. rewrite E. apply rd_repeat. lia. }
    destruct (freeze_map arr) as (m & F1 & F2). { intros j Hj. destruct (CELL j ltac:(lia)) as [E|E]; rewrite E; eauto. }
    rewrite F1. exists (suffix_max m). destruct (suffix_max_ok m) as (S1 & S2). assert (Hm : zlen m = d) by (rewrite <- E2, F2, zlen_map; reflexivity).
    split; [reflexivity|]. split; [lia|]. intros t Ht. destruct (rd_in_bound (suffix_max m) t ltac:(lia)) as (y & Hy). rewrite Hy. f_equal.
    destruct (S2 t y Hy) as (U1 & p & Hp & U2).
    assert (RM : forall j x, rd m j = Some x -> rd arr j = Some (Some x)) by (intros j x Hx; rewrite F2, rd_map, Hx; reflexivity).
    apply Z.le_antisymm.
    + pose proof (rd_Some_bound _ _ _ U2). pose proof (cnt_mono l t p Hp). pose proof (cnt_bound l t). destruct (CELL p ltac:(lia)) as [E|E]; rewrite (RM _ _ U2) in E; injection E as ->; lia.
    + pose proof (cnt_ok l t D 0 d H0) as C0. pose proof (cnt_bound l t) as CB. destruct (rd_in_bound l (cnt l t - 1) ltac:(lia)) as (x & Hx).
      pose proof (cnt_ok l t D _ _ Hx) as C1. pose proof (D 0 (cnt l t - 1) d x ltac:(lia) H0 Hx).
      assert (HL : cnt l t - 1 + 1 = zlen l \/ exists y, rd l (cnt l t - 1 + 1) = Some y /\ y < x).
      { destruct (Z.eq_dec (cnt l t) (zlen l)); [left; lia|right]. destruct (rd_in_bound l (cnt l t - 1 + 1) ltac:(lia)) as (z & Hz). exists z. split; [exact Hz|]. pose proof (cnt_ok l t D _ _ Hz). lia. }
      assert (W : rd arr (x - 1) = Some (Some (cnt l (x - 1)))).
      { apply (E3 (x - 1)); [lia|]. right. exists (cnt l t - 1). unfold body. rewrite Hx.
        destruct (cnt l t - 1 + 1 =? zlen l) eqn:E.
        - eexists. split; [apply (in_sched (zlen l)); [apply Ho|lia]|]. split; [reflexivity|]. now left.
        - apply Z.eqb_neq in E. destruct HL as [HL|(z & Hz & Hlt)]; [lia|]. rewrite Hz. replace (z <? x) with true by (symmetry; now apply Z.ltb_lt).
          eexists. split; [apply (in_sched (zlen l)); [apply Ho|lia]|]. split; [reflexivity|]. now left. }
      rewrite F2, rd_map in W. destruct (rd m (x - 1)) as [z|] eqn:Ez; [|discriminate]. injection W as ->. pose proof (U1 (x - 1) _ ltac:(lia) Ez) as U. rewrite (LAST _ _ Hx HL) in U. lia.
Qed.
Lemma nonincreasing_down l : nonincreasing l = true <-> down l.
Proof.
  induction l as [|x l IH]; [split; auto; intros _ i j a b _ H; rewrite rd_nil in H; discriminate|]. destruct l as [|y l].
  - split; auto. intros _ i j a b Hij Ha Hb. pose proof (rd_Some_bound _ _ _ Ha) as B1. pose proof (rd_Some_bound _ _ _ Hb) as B2. change (zlen [x]) with 1 in *.
    assert (i = 0) by lia. assert (j = 0) by lia. subst. rewrite Ha in Hb. injection Hb as <-. lia.
  - change (nonincreasing (x :: y :: l)) with ((y <=? x) && nonincreasing (y :: l)). rewrite andb_true_iff, IH, Z.leb_le. split.
    + intros (Hxy & D) i j a b Hij Ha Hb. pose proof (rd_Some_bound _ _ _ Ha). rewrite rd_cons in Ha, Hb. destruct (i =? 0) eqn:Ei.
      * injection Ha as <-. destruct (j =? 0) eqn:Ej; [injection Hb as <-; lia|]. apply Z.eqb_neq in Ej. pose proof (D 0 (j - 1) y b ltac:(apply Z.eqb_eq in Ei; lia) eq_refl Hb). lia.
      * apply Z.eqb_neq in Ei. replace (j =? 0) with false in Hb by (symmetry; apply Z.eqb_neq; lia). exact (D (i - 1) (j - 1) a b ltac:(lia) Ha Hb).
    + intros D. split; [exact (D 0 1 x y ltac:(lia) eq_refl eq_refl)|]. exact (down_tl _ _ D).
Qed.
Lemma nondecreasing_up l : nondecreasing l = true -> forall i j x y, i <= j -> rd l i = Some x -> rd l j = Some y -> x <= y.
Proof.
  induction l as [|x l IH]; intros H i j a b Hij Ha Hb; [rewrite rd_nil in Ha; discriminate|]. pose proof (rd_Some_bound _ _ _ Ha) as Bi.
  rewrite rd_cons in Ha, Hb. destruct l as [|y l].
  - pose proof (zlen_cons x (@nil Z)) as Z1. change (zlen (@nil Z)) with 0 in Z1. assert (i = 0) by lia. subst i. injection Ha as <-. destruct (j =? 0); [injection Hb as <-; lia|rewrite rd_nil in Hb; discriminate].
  - change (nondecreasing (x :: y :: l)) with ((x <=? y) && nondecreasing (y :: l)) in H. apply andb_prop in H as (H1 & H2). apply Z.leb_le in H1.
    destruct (i =? 0) eqn:Ei.
    + injection Ha as <-. destruct (j =? 0) eqn:Ej; [injection Hb as <-; lia|]. apply Z.eqb_neq in Ej. apply Z.eqb_eq in Ei. pose proof (IH H2 0 (j - 1) y b ltac:(lia) eq_refl Hb). lia.
    + apply Z.eqb_neq in Ei. replace (j =? 0) with false in Hb by (symmetry; apply Z.eqb_neq; lia). exact (IH H2 (i - 1) (j - 1) a b ltac:(lia) Ha Hb).
Qed.

Lemma combine_fst {A B} (l : list A) (r : list B) : length l = length r -> map fst (combine l r) = l.
Proof. revert r. induction l as [|x l IH]; intros [|y r] H; cbn in *; try lia; auto. f_equal. apply IH. lia. Qed.
Lemma combine_snd {A B} (l : list A) (r : list B) : length l = length r -> map snd (combine l r) = r.
Proof. revert r. induction l as [|x l IH]; intros [|y r] H; cbn in *; try lia; auto. f_equal. apply IH. lia. Qed.

Section Steps.
Variable V : list nfsa.
Variable seqs : list frames.
Variable m : list Z.
Variables cols stride : Z.
Variable ord : Z -> list Z.
Variable beam : Z.
Hypothesis Ho : forall n, is_sched n (ord n).
Hypothesis HV : Forall src_ok V.
Hypothesis HD : Forall (fun f : nfsa => forall a, In a (all_arcs f) -> 0 <= dst a < nstates f) V.
Hypothesis Hlab : forall f a, In f V -> In a (all_arcs f) -> 0 <= lab a + 1 < cols.
Hypothesis Hcols : cols <= stride /\ cols <= 65536.
Hypothesis Hns : forall f, In f V -> zlen f < 65536.
Hypothesis Hn : 0 < zlen V < 65536.
Hypothesis Hrows : forall r, In r (concat seqs) -> zlen r = stride.
Hypothesis HT : forall s, In s seqs -> zlen s < 65536.
Hypothesis Hsort : nonincreasing (map zlen seqs) = true.
Hypothesis Hm : nondecreasing m = true.
Hypothesis Hml : zlen m = zlen V.
Hypothesis Hmr : forall j, In j m -> 0 <= j < zlen seqs.
Hypothesis Hbeam : 0 < beam.

Definition seq_at (j : Z) : frames := match rd seqs j with Some s => s | None => [] end.
Definition VR : list (nfsa * frames) := combine V (map seq_at m).
Notation ao k := (first_arc V k).
Definition soff (k : Z) : Z := match rd m k with Some j => off1 seqs j * stride | None => 0 end.
Notation mem := (concat (concat seqs)).
Notation db := (flat_dense cols stride seqs).
Definition infos : list finfo :=
  imap (fun k x => mkInfo (zlen (snd x)) (zlen (fst x)) (soff k) (off1 V k) (ao k)) 0 VR.

Lemma VR_fst : map fst VR = V.
Proof. apply combine_fst. rewrite map_length. unfold zlen in *. lia. Qed.
Lemma zlen_VR : zlen VR = zlen V.
Proof. rewrite <- VR_fst. now rewrite zlen_map. Qed.
Lemma VR_rd k f rows : rd VR k = Some (f, rows) -> rd V k = Some f /\ exists j, rd m k = Some j /\ rd seqs j = Some rows.
Proof.
  intros H. split; [rewrite <- VR_fst, rd_map, H; reflexivity|].
  assert (E : map snd VR = map seq_at m).
  { apply combine_snd. rewrite map_length. unfold zlen in *. lia. }
  assert (X : rd (map snd VR) k = Some rows) by (rewrite rd_map, H; reflexivity). rewrite E, rd_map in X. destruct (rd m k) as [j|] eqn:Ej; [|discriminate]. injection X as X.
  exists j. split; [reflexivity|]. destruct (rd_in_bound seqs j (Hmr j (rd_In _ _ _ Ej))) as (s & Hs). unfold seq_at in X. rewrite Hs in *. congruence.
Qed.
Lemma VR_of k f : rd V k = Some f -> exists rows, rd VR k = Some (f, rows).
Proof.
  intros H. pose proof (rd_Some_bound _ _ _ H) as B. rewrite <- zlen_VR in B. destruct (rd_in_bound VR k B) as ((g & rows) & E). exists rows. destruct (VR_rd k g rows E) as (X & _). congruence.
Qed.
Lemma VR_at k : 0 <= k < zlen V -> exists f rows, rd VR k = Some (f, rows) /\ rd V k = Some f.
Proof. intros H. destruct (rd_in_bound V k H) as (f & Hf). destruct (VR_of k f Hf) as (rows & E). eauto. Qed.
Lemma rows_lt k f rows : rd VR k = Some (f, rows) -> 0 <= zlen rows < 65536.
Proof. intros H. destruct (VR_rd k f rows H) as (_ & j & _ & Hs). split; [apply zlen_nonneg|]. apply HT. exact (rd_In _ _ _ Hs). Qed.
Lemma V_s k f : rd V k = Some f -> src_ok f.
Proof. exact (V_src V HV k f). Qed.
Lemma V_d k f : rd V k = Some f -> forall a, In a (all_arcs f) -> 0 <= dst a < zlen f.
Proof. exact (V_dst V HD k f). Qed.

Definition lens : list Z := map (fun x => 1 + zlen (snd x)) VR.
Lemma lens_down : down lens.
Proof.
  intros i j x y Hij Hx Hy. unfold lens in *. rewrite rd_map in Hx, Hy. destruct (rd VR i) as [(f & r)|] eqn:Ei; [|discriminate]. destruct (rd VR j) as [(f' & r')|] eqn:Ej; [|discriminate].
  injection Hx as <-. injection Hy as <-. cbn [snd]. destruct (VR_rd _ _ _ Ei) as (_ & u & U1 & U2). destruct (VR_rd _ _ _ Ej) as (_ & v & W1 & W2).
  pose proof (nondecreasing_up m Hm i j u v Hij U1 W1) as Huv. apply nonincreasing_down in Hsort.
  pose proof (Hsort u v (zlen r) (zlen r') Huv ltac:(rewrite rd_map, U2; reflexivity) ltac:(rewrite rd_map, W2; reflexivity)). lia.
Qed.
(** number of FSAs that have frame [t] *)
Definition nft (t : Z) : Z := cnt lens t.
Lemma nft_ok t k f rows : rd VR k = Some (f, rows) -> (k < nft t <-> t <= zlen rows).
Proof.
  intros H. unfold nft. rewrite (cnt_ok lens t lens_down k (1 + zlen rows)); [lia|]. unfold lens. now rewrite rd_map, H.
Qed.
Lemma nft_bound t : 0 <= nft t <= zlen V.
Proof. unfold nft. pose proof (cnt_bound lens t) as B. assert (E : zlen lens = zlen V) by (unfold lens; now rewrite zlen_map, zlen_VR). lia. Qed.
Definition Tmax : Z := match rd VR 0 with Some x => zlen (snd x) | None => 0 end.
Lemma Tmax_ge k f rows : rd VR k = Some (f, rows) -> zlen rows <= Tmax.
Proof.
  intros H. unfold Tmax. pose proof (rd_Some_bound _ _ _ H). destruct (rd_in_bound VR 0 ltac:(lia)) as (x & Hx). rewrite Hx.
  pose proof (lens_down 0 k (1 + zlen (snd x)) (1 + zlen rows) ltac:(lia) ltac:(unfold lens; rewrite rd_map, Hx; reflexivity) ltac:(unfold lens; rewrite rd_map, H; reflexivity)). lia.
Qed.

(** ** memory *)
Lemma off1_rows n : 0 <= n <= zlen (concat seqs) -> off1 (concat seqs) n = stride * n.
Proof.
  intros H. unfold off1. rewrite <- zsum_zlen_concat, <- firstn_map. 
  replace (map zlen (concat seqs)) with (map (fun _ : list (option Z) => stride) (concat seqs)) by (apply map_ext_in; intros r Hr; symmetry; now apply Hrows).
  rewrite firstn_map.
  assert (E : forall l : list (list (option Z)), zsum (map (fun _ => stride) l) = stride * zlen l).
  { induction l as [|x l IH]; [change (zlen (@nil (list (option Z)))) with 0; cbn; lia|]. cbn [map]. rewrite zlen_cons. unfold zsum in *. cbn [fold_right]. rewrite IH. lia. }
  rewrite E. f_equal. unfold zlen in *. rewrite firstn_length. lia.
Qed.
Lemma rd_mem k f rows t l : rd VR k = Some (f, rows) -> 0 <= t < zlen rows -> 0 <= l + 1 < cols ->
  rd mem (soff k + stride * t + (l + 1)) = Some (frame rows t l).
Proof.
  intros H Ht Hl. destruct (VR_rd k f rows H) as (_ & j & J1 & J2). unfold soff. rewrite J1.
  destruct (rd_in_bound rows t Ht) as (r & Hr). destruct (rd_concat_off seqs j rows t r J2 Hr) as (R & _).
  assert (Lr : zlen r = stride) by (apply Hrows; exact (rd_In _ _ _ R)). destruct (rd_in_bound r (l + 1) ltac:(lia)) as (x & Hx).
  pose proof (proj1 (rd_concat_off (concat seqs) _ r (l + 1) x R Hx)) as M. pose proof (rd_Some_bound _ _ _ R). rewrite off1_rows in M by lia.
  unfold frame. rewrite Hr, Hx. rewrite <- M. f_equal. lia.
Qed.

(** ** the object *)
Definition g0 (nf : list Z) : mgdi :=
  mkMgdi (flat_vec V) db (ids_of V) (carcs V) infos (exsum (map zlen (shape V))) (exsum (concat (shape V))) Tmax nf.

Lemma rd_infos k f rows : rd VR k = Some (f, rows) -> rd infos k = Some (mkInfo (zlen rows) (zlen f) (soff k) (off1 V k) (ao k)).
Proof. intros H. unfold infos. rewrite rd_imap, H. cbn. now rewrite Z.add_0_l. Qed.
Lemma zlen_infos : zlen infos = zlen V.
Proof. unfold infos. now rewrite zlen_imap, zlen_VR. Qed.

Lemma Hlab16 f a : In f V -> In a (all_arcs f) -> 0 <= lab a + 1 < 65536.
Proof. intros Hf Ha. pose proof (Hlab f a Hf Ha). lia. Qed.
Lemma construct_ok : exists nf, construct ord (flat_vec V) db m beam = Some (g0 nf) /\ zlen nf = Tmax + 1 /\ forall t, 0 <= t <= Tmax -> rd nf t = Some (nft t).
Proof.
  destruct (VR_at 0 ltac:(lia)) as (f0 & r0 & H0 & _).
  assert (ET : Tmax = zlen r0) by (unfold Tmax; now rewrite H0).
  destruct (imd_ok ord lens (1 + zlen r0) Ho lens_down) as (nf & N1 & N2 & N3).
  { unfold lens. now rewrite rd_map, H0. }
  { intros x Hx. unfold lens in Hx. apply in_map_iff in Hx as (y & <- & _). pose proof (zlen_nonneg (snd y)). lia. }
  exists nf. split; [|split; [lia|intros t Ht; apply N3; lia]].
  unfold construct. cbn [flat_vec v_rs1 v_rs2 v_arcs]. rewrite !zlen_splits_of.
  replace (zlen V + 1 - 1) with (zlen V) by lia. replace (zlen (concat V) + 1 - 1) with (zlen (concat V)) by lia.
  replace (zlen V =? zlen m) with true by (symmetry; apply Z.eqb_eq; lia).
  replace (0 <? zlen V) with true by (symmetry; apply Z.ltb_lt; lia). replace (0 <? beam) with true by (symmetry; apply Z.ltb_lt; lia). cbv iota.
  rewrite row_ids_of_splits, row_ids_of_splits. rewrite (dest_states_ok V HV HD).
  rewrite incoming_arcs_ok by (try apply zlen_nonneg; exact (gdest_range V HV HD)). rewrite (buckets_nested V HD).
  destruct (inc_idx V HD ord Ho) as (inv & I1 & I2). rewrite I1.
  rewrite (carcs_ok V HV HD ltac:(lia) Hns Hlab16 ord inv I1 I2).
  rewrite (cat_ok V HD Hns Hlab16).
  rewrite <- zlen_infos at 1. rewrite (GraphProofs.mapM_zrange infos).
  2:{ intros k y Hy. pose proof (rd_Some_bound _ _ _ Hy) as B. rewrite zlen_infos in B. destruct (VR_at k B) as (f & rows & E1 & E2). rewrite (rd_infos k f rows E1) in Hy. injection Hy as <-.
      destruct (VR_rd k f rows E1) as (_ & j & J1 & J2). pose proof (rd_Some_bound _ _ _ J2). unfold init_info. rewrite J1. cbn [flat_dense b_rs b_stride flat_vec v_rs1 v_rs2].
      rewrite !rd_splits_off by lia. rewrite (rd_rs2 V) by lia. rewrite (off1_next seqs j rows J2), (off1_next V k f E2).
      unfold soff. rewrite J1. rewrite !u16_id; [do 2 f_equal; lia| |]; pose proof (Hns f (rd_In _ _ _ E2)); pose proof (HT rows (rd_In _ _ _ J2)); pose proof (zlen_nonneg f); pose proof (zlen_nonneg rows); lia. }
  cbn [flat_dense b_rs]. rewrite zlen_splits_of. replace (zlen seqs + 1 - 1) with (zlen (map zlen seqs)) by (rewrite zlen_map; lia).
  rewrite (GraphProofs.mapM_zrange (map zlen seqs)).
  2:{ intros j x Hx. rewrite rd_map in Hx. destruct (rd seqs j) as [s|] eqn:Es; [|discriminate]. injection Hx as <-. pose proof (rd_Some_bound _ _ _ Es). rewrite !rd_splits_off by lia. rewrite (off1_next seqs j s Es). f_equal. lia. }
  rewrite Hsort. destruct (VR_rd 0 f0 r0 H0) as (_ & j0 & J1 & J2). rewrite J1. rewrite rd_map, J2. cbn [option_map].
  replace (zlen V) with (zlen lens) by (unfold lens; now rewrite zlen_map, zlen_VR).
  rewrite (GraphProofs.mapM_zrange lens).
  2:{ intros k x Hx. unfold lens in Hx. rewrite rd_map in Hx. destruct (rd VR k) as [(f & rows)|] eqn:E; [|discriminate]. injection Hx as <-. destruct (VR_rd k f rows E) as (_ & j & K1 & K2).
      rewrite K1. pose proof (rd_Some_bound _ _ _ K2). rewrite !rd_splits_off by lia. rewrite (off1_next seqs j rows K2). cbn [snd]. f_equal. lia. }
  rewrite N1. replace (zlen nf =? zlen r0 + 1) with true by (symmetry; apply Z.eqb_eq; lia). cbv iota. unfold g0. rewrite ET. reflexivity.
Qed.

(** ** state scores *)
Definition SSk (n : nat) (x : nfsa * frames) : list (option Z) :=
  map (Bw (fst x) (snd x) n) (zrange (zlen (fst x))) ++ map (Fw (fst x) (snd x) n) (zrange (zlen (fst x))).
Definition SS (n : nat) (c : Z) : list (option Z) := concat (firstn (Z.to_nat c) (map (SSk n) VR)).
Lemma off1_SS n k : off1 (map (SSk n) VR) k = 2 * off1 V k.
Proof.
  rewrite <- VR_fst. apply off1_scale. intros x _. unfold SSk. rewrite zlen_app, !zlen_map, zlen_zrange by apply zlen_nonneg. lia.
Qed.
Lemma rd_SS n c k f rows s : rd VR k = Some (f, rows) -> k < c -> 0 <= s < zlen f ->
  rd (SS n c) (2 * off1 V k + s) = Some (Bw f rows n s) /\ rd (SS n c) (2 * off1 V k + zlen f + s) = Some (Fw f rows n s).
Proof.
  intros Hk Hc Hs. unfold SS. rewrite <- (off1_SS n k), <- (off1_first (map (SSk n) VR) c k) by lia.
  assert (R : rd (firstn (Z.to_nat c) (map (SSk n) VR)) k = Some (SSk n (f, rows))) by (rewrite rd_first by lia; rewrite rd_map, Hk; reflexivity).
  split.
  - refine (proj1 (rd_concat_off _ k _ s _ R _)). unfold SSk. cbn [fst snd]. rewrite rd_app_l by (rewrite zlen_map, zlen_zrange; lia). rewrite rd_map, rd_zrange by lia. reflexivity.
  - rewrite <- Z.add_assoc. refine (proj1 (rd_concat_off _ k _ (zlen f + s) _ R _)). unfold SSk. cbn [fst snd]. rewrite rd_app_r by (rewrite zlen_map, zlen_zrange; lia).
    rewrite zlen_map, zlen_zrange by lia. replace (zlen f + s - zlen f) with s by lia. rewrite rd_map, rd_zrange by lia. reflexivity.
Qed.
Lemma zlen_SS n c : 0 <= c <= zlen V -> zlen (SS n c) = 2 * off1 V c.
Proof. intros H. rewrite <- (off1_SS n c). reflexivity. Qed.
Lemma states_inv g : 0 <= g < zlen (concat V) -> exists k f rows s, rd VR k = Some (f, rows) /\ rd V k = Some f /\ 0 <= s < zlen f /\ g = off1 V k + s /\ rd (ids_of V) g = Some k.
Proof.
  intros H. destruct (rd_in_bound _ _ H) as (st & Hst). apply rd_concat_inv in Hst as (k & f & s & H1 & H2 & H3 & H4). destruct (VR_of k f H1) as (rows & E). exists k, f, rows, s. repeat split; try assumption; apply (rd_Some_bound _ _ _ H2).
Qed.
Lemma SS_inv n c g : 0 <= c <= zlen V -> 0 <= g < zlen (SS n c) -> exists k f rows s, rd VR k = Some (f, rows) /\ k < c /\ 0 <= s < zlen f /\ (g = 2 * off1 V k + s \/ g = 2 * off1 V k + zlen f + s).
Proof.
  intros Hc Hg. destruct (rd_in_bound _ _ Hg) as (x & Hx). apply rd_concat_inv in Hx as (k & l & j & H1 & H2 & H3 & _).
  pose proof (rd_Some_bound _ _ _ H1) as Bk. rewrite zlen_first in Bk by (rewrite zlen_map, zlen_VR; lia). rewrite rd_first in H1 by lia. rewrite off1_first in H3 by lia. rewrite off1_SS in H3.
  rewrite rd_map in H1. destruct (rd VR k) as [(f & rows)|] eqn:E; [|discriminate]. injection H1 as <-.
  pose proof (rd_Some_bound _ _ _ H2) as Bj. unfold SSk in Bj. rewrite zlen_app, !zlen_map in Bj. cbn [fst] in Bj. pose proof (zlen_nonneg f). rewrite zlen_zrange in Bj by lia.
  destruct (Z.lt_ge_cases j (zlen f)); [exists k, f, rows, j|exists k, f, rows, (j - zlen f)]; repeat split; try assumption; lia.
Qed.

Lemma step0_ok nf : do_step0 ord (g0 nf) = Some (SS 0 (zlen V)).
Proof.
  unfold do_step0. cbn [g0 g_v flat_vec v_rs2 g_ids1 g_info]. rewrite zlen_splits_of. replace (zlen (concat V) + 1 - 1) with (zlen (concat V)) by lia.
  assert (EL : zlen (SS 0 (zlen V)) = 2 * zlen (concat V)) by (rewrite zlen_SS, off1_all by lia; reflexivity).
  rewrite <- EL.
  assert (BODY : forall k f rows s, rd VR k = Some (f, rows) -> 0 <= s < zlen f -> (k0 <- rd (ids_of V) (off1 V k + s);;
    info <- rd infos k0;;
    (let bw := i_st info + (off1 V k + s) in let fw := bw + i_ns info in let st1 := off1 V k + s - i_st info in
     Some [(fw, if st1 =? 0 then Some 0 else None); (bw, if st1 + 1 =? i_ns info then Some 0 else None)])) = Some [(2 * off1 V k + zlen f + s, Fw f rows 0 s); (2 * off1 V k + s, Bw f rows 0 s)]).
  { intros k f rows s Hk Hs. destruct (VR_rd k f rows Hk) as (Hf & _). destruct (rd_in_bound f s Hs) as (st & Hst).
    rewrite (proj2 (rd_concat_off V k f s st Hf Hst)). rewrite (rd_infos k f rows Hk). cbv zeta. cbn [i_st i_ns Fw Bw].
    replace (off1 V k + s - off1 V k) with s by lia.
    replace (off1 V k + (off1 V k + s) + zlen f) with (2 * off1 V k + zlen f + s) by lia. replace (off1 V k + (off1 V k + s)) with (2 * off1 V k + s) by lia. reflexivity. }
  apply k2_fill_list with (m := zlen (concat V)); [apply Ho| |].
  - intros g Hg. destruct (states_inv g Hg) as (k & f & rows & s & Hk & Hf & Hs & -> & _). eexists. split; [exact (BODY k f rows s Hk Hs)|].
    pose proof (rd_Some_bound _ _ _ Hf). destruct (rd_SS 0 (zlen V) k f rows s Hk ltac:(lia) Hs) as (S1 & S2). constructor; [exact S2|constructor; [exact S1|constructor]].
  - intros j Hj. destruct (SS_inv 0 (zlen V) j ltac:(lia) Hj) as (k & f & rows & s & Hk & Hkc & Hs & Ej). destruct (VR_rd k f rows Hk) as (Hf & _).
    exists (off1 V k + s). eexists. split; [|split; [exact (BODY k f rows s Hk Hs)|]].
    + pose proof (off1_next V k f Hf). pose proof (off1_bound V (k + 1)). pose proof (off1_nonneg V k). lia.
    + cbn. destruct Ej as [->| ->]; auto.
Qed.

(** ** one step *)
Definition bval (n : nat) (x : nfsa * frames) (a : arc) : option Z :=
  oadd (oadd (Bw (fst x) (snd x) n (dst a)) (Some (sc a))) (frame (snd x) (zlen (snd x) - Z.of_nat (S n)) (lab a)).
Definition fval (n : nat) (x : nfsa * frames) (a : arc) : option Z :=
  oadd (oadd (Fw (fst x) (snd x) n (src a)) (Some (sc a))) (frame (snd x) (Z.of_nat n) (lab a)).
Definition Xk (n : nat) (x : nfsa * frames) : list (list (option Z)) :=
  map (map (bval n x)) (fst x) ++ map (fun l => map (fun i => fval n x (darc (fst x) i)) l) (linc (fst x)).
Lemma Xk_max n x : map kmax (Xk n x) = SSk (S n) x.
Proof.
  destruct x as (f & rows). unfold Xk, SSk. cbn [fst snd]. pose proof (zlen_nonneg f). rewrite map_app, !map_map. f_equal.
  - apply list_ext_rd; [now rewrite !zlen_map, zlen_zrange|]. intros s Hs. rewrite zlen_map in Hs. rewrite !rd_map, rd_zrange by lia. destruct (rd_in_bound f s Hs) as (st & Hst). rewrite Hst. cbn [option_map Bw]. rewrite Hst. reflexivity.
  - unfold linc, tab. rewrite map_map. apply map_ext. intros s. cbn [Fw]. unfold all_arcs. rewrite <- lbucket_arcs, map_map. reflexivity.
Qed.
Lemma Xk_shape n : map zlen (concat (map (Xk n) VR)) = concat (shape V).
Proof.
  rewrite concat_map, map_map. unfold shape. rewrite <- VR_fst. rewrite map_map. f_equal. apply map_ext. intros (f & rows). unfold Xk. cbn [fst snd].
  rewrite map_app, !map_map. f_equal; apply map_ext; intros; apply zlen_map.
Qed.
Lemma Xk_zlen n x : zlen (Xk n x) = 2 * zlen (fst x).
Proof. unfold Xk. rewrite zlen_app, !zlen_map, zlen_linc. lia. Qed.
Lemma off1_X n k : off1 (map (Xk n) VR) k = 2 * off1 V k.
Proof. rewrite <- VR_fst. apply off1_scale. intros x _. apply Xk_zlen. Qed.
Lemma crs1_at c : 0 <= c <= zlen V -> rd (exsum (map zlen (shape V))) c = Some (2 * off1 V c).
Proof.
  intros Hc. change (exsum (map zlen (shape V))) with (splits_of (shape V)). rewrite rd_splits_off by (unfold shape; rewrite zlen_map; lia). f_equal.
  unfold shape. replace (off1 V c) with (off1 (map (fun f : nfsa => f) V) c) by (now rewrite map_id). apply off1_scale. intros f _. rewrite zlen_app, !zlen_map, zlen_linc. lia.
Qed.
Lemma X_concat n k f rows : rd VR k = Some (f, rows) -> concat (Xk n (f, rows)) = map (bval n (f, rows)) (concat f) ++ map (fun i => fval n (f, rows) (darc f i)) (concat (linc f)).
Proof. intros _. unfold Xk. cbn [fst]. rewrite concat_app, <- !concat_map. reflexivity. Qed.
Lemma off1_XX n k : off1 (map (@concat _) (map (Xk n) VR)) k = 2 * ao k.
Proof.
  rewrite map_map. unfold first_arc. rewrite <- VR_fst. rewrite map_map. apply off1_scale. intros x Hx. apply In_rd in Hx as (i & _ & Hx). destruct x as (f & rows). rewrite (X_concat n i f rows Hx).
  rewrite zlen_app, !zlen_map. rewrite zlen_concat_linc by (apply (V_d i); apply (VR_rd i f rows Hx)). unfold all_arcs. cbn [fst]. lia.
Qed.
Notation XS n c := (concat (concat (firstn (Z.to_nat c) (map (Xk n) VR)))).
Lemma zlen_XS n c : zlen (XS n c) = 2 * ao c.
Proof. rewrite <- (off1_XX n c). rewrite off1_map_concat. reflexivity. Qed.
Lemma rd_XS n c k f rows q : rd VR k = Some (f, rows) -> k < c -> 0 <= q < 2 * zlen (concat f) ->
  rd (XS n c) (2 * ao k + q) = rd (map (bval n (f, rows)) (concat f) ++ map (fun i => fval n (f, rows) (darc f i)) (concat (linc f))) q.
Proof.
  intros Hk Hc Hq. rewrite <- concat_map_concat. rewrite <- (off1_XX n k), <- (off1_first _ c k) by lia.
  replace (firstn (Z.to_nat c) (map (@concat (option Z)) (map (Xk n) VR))) with (map (@concat (option Z)) (firstn (Z.to_nat c) (map (Xk n) VR))) by (symmetry; apply firstn_map).
  assert (R : rd (map (@concat _) (firstn (Z.to_nat c) (map (Xk n) VR))) k = Some (concat (Xk n (f, rows)))).
  { rewrite rd_map, rd_first, rd_map, Hk by lia. reflexivity. }
  rewrite (X_concat n k f rows Hk) in R. 
  destruct (rd_in_bound (map (bval n (f, rows)) (concat f) ++ map (fun i => fval n (f, rows) (darc f i)) (concat (linc f))) q) as (y & Hy).
  { rewrite zlen_app, !zlen_map, zlen_concat_linc by (apply (V_d k); apply (VR_rd k f rows Hk)). lia. }
  rewrite Hy. exact (proj1 (rd_concat_off _ k _ q y R Hy)).
Qed.
Lemma carc_inv g c : 0 <= c <= zlen V -> 0 <= g < ao c -> exists k f rows i a, rd VR k = Some (f, rows) /\ k < c /\ rd (concat f) i = Some a /\ g = ao k + i.
Proof.
  intros Hc Hg. pose proof (ao_total V c). destruct (rd_in_bound (concat (concat V)) g ltac:(lia)) as (a & Ha). apply arcs_inv in Ha as (k & f & i & H1 & H2 & ->).
  destruct (VR_of k f H1) as (rows & E). exists k, f, rows, i, a. repeat split; try assumption. destruct (Z.lt_ge_cases k c); [assumption|]. exfalso.
  pose proof (off1_mono (map all_arcs V) c k ltac:(lia)) as M. change (ao c <= ao k) in M. pose proof (rd_Some_bound _ _ _ H2). lia.
Qed.
Lemma body_ok nf n c c' k f rows i a : rd VR k = Some (f, rows) -> k < c' -> k < c -> rd (concat f) i = Some a -> Z.of_nat (S n) <= zlen rows ->
  set_arc_scores (g0 nf) (SS n c') (Z.of_nat (S n)) (ao k + i) = Some [(cin V k f i, fval n (f, rows) a); (ao k + i + ao k, bval n (f, rows) a)].
Proof.
  intros Hk Hc' Hc Hi Ht. destruct (VR_rd k f rows Hk) as (Hf & _). unfold set_arc_scores. cbn [g0 g_carcs g_info g_b flat_dense b_cols b_data b_stride].
  rewrite (rd_carcs V k f i a Hf Hi). cbn [c_fsa c_src c_dst c_lab1 c_in c_sc]. rewrite (rd_infos k f rows Hk). cbn [i_st i_ns i_soff i_T i_arc].
  pose proof (V_d k f Hf a (rd_In _ _ _ Hi)) as Bd. destruct (st_ids V HV HD k f i a Hf Hi) as (_ & Bs).
  rewrite (proj2 (rd_SS n c' k f rows (src a) Hk Hc' Bs)), (proj1 (rd_SS n c' k f rows (dst a) Hk Hc' Bd)).
  pose proof (Hlab f a (rd_In _ _ _ Hf) (rd_In _ _ _ Hi)) as Bl. replace (lab a + 1 <=? cols) with true by (symmetry; apply Z.leb_le; lia).
  replace (Z.of_nat (S n) - 1) with (Z.of_nat n) by lia. rewrite !(rd_mem k f rows) by (assumption || lia). cbn [fst snd]. reflexivity.
Qed.
Lemma step_ok nf n : zlen nf = Tmax + 1 -> (forall t, 0 <= t <= Tmax -> rd nf t = Some (nft t)) -> Z.of_nat (S n) <= Tmax ->
  do_step ord (g0 nf) (SS n (nft (Z.of_nat n))) (Z.of_nat (S n)) = Some (SS (S n) (nft (Z.of_nat (S n)))).
Proof.
  intros NL NF Ht. unfold do_step. cbn [g0 g_nf g_crs1 g_crs2]. rewrite NF by lia. set (c := nft (Z.of_nat (S n))). pose proof (nft_bound (Z.of_nat (S n))) as Bc. fold c in Bc.
  rewrite crs1_at by lia. rewrite <- (Xk_shape n). change (exsum (map zlen (concat (map (Xk n) VR)))) with (splits_of (concat (map (Xk n) VR))).
  set (XL := map (Xk n) VR). assert (LX : zlen XL = zlen V) by (unfold XL; rewrite zlen_map, zlen_VR; reflexivity).
  assert (E2 : 2 * off1 V c = zlen (concat (firstn (Z.to_nat c) XL))) by (unfold XL; rewrite <- (off1_X n c); reflexivity).
  assert (SPL : concat XL = concat (firstn (Z.to_nat c) XL) ++ concat (skipn (Z.to_nat c) XL)) by (rewrite <- concat_app, firstn_skipn; reflexivity).
  pose proof (zlen_nonneg (concat (skipn (Z.to_nat c) XL))) as NN. pose proof (zlen_nonneg (concat (firstn (Z.to_nat c) XL))) as NN2.
  assert (LE : 2 * off1 V c <= zlen (concat XL)) by (rewrite E2, SPL, zlen_app; lia).
  rewrite rd_splits_off by lia.
  assert (EM : off1 (concat XL) (2 * off1 V c) = zlen (XS n c)).
  { unfold off1 at 1. rewrite E2, SPL. unfold zlen at 2. rewrite Nat2Z.id, firstn_app, firstn_all, Nat.sub_diag, firstn_O, app_nil_r. reflexivity. }
  rewrite EM. rewrite (k2_fill_list (XS n c) (zlen (XS n c) / 2)).
  - rewrite E2. assert (EQ : SS (S n) c = map kmax (concat (firstn (Z.to_nat c) XL))).
    { unfold SS, XL. rewrite concat_map. rewrite !firstn_map, map_map. f_equal. apply map_ext. intros x. symmetry. apply Xk_max. }
    rewrite EQ. replace (zlen (concat (firstn (Z.to_nat c) XL))) with (zlen (map kmax (concat (firstn (Z.to_nat c) XL)))) by apply zlen_map.
    apply GraphProofs.mapM_zrange. intros j y Hy. rewrite rd_map in Hy. destruct (rd (concat (firstn (Z.to_nat c) XL)) j) as [l|] eqn:El; [|discriminate]. injection Hy as <-.
    pose proof (rd_Some_bound _ _ _ El) as Bj.
    assert (El' : rd (concat XL) j = Some l) by (rewrite SPL, rd_app_l by lia; exact El).
    rewrite !rd_splits_off by (rewrite SPL, zlen_app; lia). rewrite (off1_next (concat XL) j l El').
    replace (off1 (concat XL) j + zlen l - off1 (concat XL) j) with (zlen l) by lia.
    rewrite (GraphProofs.mapM_zrange l); [reflexivity|]. intros i x Hi.
    assert (EO : off1 (concat XL) j = off1 (concat (firstn (Z.to_nat c) XL)) j).
    { unfold off1. rewrite SPL, firstn_app. replace (Z.to_nat j - length (concat (firstn (Z.to_nat c) XL)))%nat with 0%nat by (unfold zlen in Bj; lia). now rewrite firstn_O, app_nil_r. }
    rewrite EO. exact (proj1 (rd_concat_off _ j l i x El Hi)).
  - apply Ho.
  - intros g Hg. rewrite zlen_XS in Hg. replace (2 * ao c / 2) with (ao c) in Hg by (rewrite Z.mul_comm, Z.div_mul; lia).
    destruct (carc_inv g c Bc Hg) as (k & f & rows & i & a & Hk & Hkc & Hi & ->). pose proof (proj1 (nft_ok _ k f rows Hk) Hkc) as HTk.
    rewrite (body_ok nf n c (nft (Z.of_nat n)) k f rows i a Hk) by (try assumption; apply (nft_ok _ k f rows Hk); lia).
    eexists. split; [reflexivity|]. pose proof (rd_Some_bound _ _ _ Hi) as Bi. destruct (VR_rd k f rows Hk) as (Hf & _).
    assert (HI : In i (concat (linc f))) by (apply linc_in; [exact (V_d k f Hf)|exact Bi]). apply In_rd in HI as (p & Bp & Hp). rewrite zlen_concat_linc in Bp by exact (V_d k f Hf).
    constructor; [|constructor; [|constructor]]; cbn [fst snd].
    + unfold cin. rewrite (posof_rd _ (linc_NoDup f (V_d k f Hf)) _ _ Hp). rewrite <- Z.add_assoc. rewrite (rd_XS n c k f rows _ Hk Hkc) by lia.
      rewrite rd_app_r by (rewrite zlen_map; lia). rewrite zlen_map. replace (zlen (concat f) + p - zlen (concat f)) with p by lia. rewrite rd_map, Hp. cbn [option_map]. unfold darc. now rewrite Hi.
    + replace (ao k + i + ao k) with (2 * ao k + i) by lia. rewrite (rd_XS n c k f rows _ Hk Hkc) by lia. rewrite rd_app_l by (rewrite zlen_map; lia). rewrite rd_map, Hi. reflexivity.
  - intros j Hj. rewrite zlen_XS in *. replace (2 * ao c / 2) with (ao c) by (rewrite Z.mul_comm, Z.div_mul; lia).
    assert (X : exists k f rows q, rd VR k = Some (f, rows) /\ k < c /\ 0 <= q < 2 * zlen (concat f) /\ j = 2 * ao k + q).
    { rewrite <- (zlen_XS n c) in Hj. rewrite <- concat_map_concat in Hj. destruct (rd_in_bound _ _ Hj) as (y & Hy). apply rd_concat_inv in Hy as (k & l & q & H1 & H2 & H3 & _).
      pose proof (rd_Some_bound _ _ _ H1) as Bk. rewrite zlen_map, zlen_first in Bk by (fold XL; lia). rewrite <- firstn_map, off1_first, off1_XX in H3 by lia.
      rewrite rd_map, rd_first, rd_map in H1 by lia. destruct (rd VR k) as [(f & rows)|] eqn:Ek; [|discriminate]. cbn [option_map] in H1. injection H1 as <-.
      exists k, f, rows, q. repeat split; try assumption; try lia; try apply (rd_Some_bound _ _ _ H2). pose proof (rd_Some_bound _ _ _ H2) as Bq. rewrite (X_concat n k f rows Ek) in Bq.
      rewrite zlen_app, !zlen_map, zlen_concat_linc in Bq by (apply (V_d k); apply (VR_rd k f rows Ek)). lia. }
    destruct X as (k & f & rows & q & Hk & Hkc & Hq & ->). destruct (VR_rd k f rows Hk) as (Hf & _). pose proof (proj1 (nft_ok _ k f rows Hk) Hkc) as HTk.
    assert (BAO : forall i, 0 <= i < zlen (concat f) -> 0 <= ao k + i < ao c).
    { intros i Hi. pose proof (ao_next V k f Hf). pose proof (off1_mono (map all_arcs V) (k + 1) c ltac:(lia)) as M. change (ao (k + 1) <= ao c) in M. assert (0 <= ao k) by apply off1_nonneg. lia. }
    destruct (Z.lt_ge_cases q (zlen (concat f))) as [L|L].
    + destruct (rd_in_bound (concat f) q ltac:(lia)) as (a & Ha). exists (ao k + q). eexists. split; [apply BAO; lia|].
      rewrite (body_ok nf n c (nft (Z.of_nat n)) k f rows q a Hk) by (try assumption; apply (nft_ok _ k f rows Hk); lia). split; [reflexivity|]. cbn. right. left. lia.
    + destruct (rd_in_bound (concat (linc f)) (q - zlen (concat f))) as (i & Hi). { rewrite zlen_concat_linc by exact (V_d k f Hf). lia. }
      pose proof (proj1 (linc_in f (V_d k f Hf) i) (rd_In _ _ _ Hi)) as Bi. destruct (rd_in_bound (concat f) i Bi) as (a & Ha). exists (ao k + i). eexists. split; [apply BAO; lia|].
      rewrite (body_ok nf n c (nft (Z.of_nat n)) k f rows i a Hk) by (try assumption; apply (nft_ok _ k f rows Hk); lia). split; [reflexivity|]. cbn. left. unfold cin. rewrite (posof_rd _ (linc_NoDup f (V_d k f Hf)) _ _ Hi). lia.
Qed.

Definition steps : list (list (option Z)) := map (fun t => SS (Z.to_nat t) (nft t)) (zrange (Tmax + 1)).
Lemma nft0 : nft 0 = zlen V.
Proof.
  pose proof (nft_bound 0). destruct (VR_at (zlen V - 1) ltac:(lia)) as (f & rows & E & _). pose proof (proj2 (nft_ok 0 _ f rows E) (zlen_nonneg rows)). lia.
Qed.
Lemma steps_ok nf : zlen nf = Tmax + 1 -> (forall t, 0 <= t <= Tmax -> rd nf t = Some (nft t)) -> do_steps ord (g0 nf) = Some steps.
Proof.
  intros NL NF. unfold do_steps. rewrite step0_ok. cbn [g0 g_T].
  assert (G : forall n, Z.of_nat n <= Tmax -> foldM (fun steps t => prev <- rd steps (t - 1);; s <- do_step ord (g0 nf) prev t;; Some (steps ++ [s])) (map (fun t => t + 1) (zrange (Z.of_nat n))) [SS 0 (zlen V)] =
    Some (map (fun t => SS (Z.to_nat t) (nft t)) (zrange (Z.of_nat n + 1)))).
  { induction n as [|n IH]; intros Hn'.
    - change (Some [SS 0 (zlen V)] = Some [SS 0 (nft 0)]). now rewrite nft0.
    - replace (Z.of_nat (S n)) with (Z.of_nat n + 1) by lia. rewrite zrange_S, map_app, foldM_app by lia. rewrite IH by lia. cbn [map foldM].
      replace (Z.of_nat n + 1 - 1) with (Z.of_nat n) by lia. rewrite rd_map, rd_zrange by lia. cbn [option_map]. rewrite Nat2Z.id.
      replace (Z.of_nat n + 1) with (Z.of_nat (S n)) at 1 by lia. rewrite step_ok by (assumption || lia).
      rewrite (zrange_S (Z.of_nat n + 1)) by lia. rewrite map_app. cbn [map]. replace (Z.to_nat (Z.of_nat n + 1)) with (S n) by lia. replace (Z.of_nat (S n)) with (Z.of_nat n + 1) by lia. reflexivity. }
  assert (0 <= Tmax) by (unfold Tmax; destruct (rd VR 0); [apply zlen_nonneg|lia]).
  specialize (G (Z.to_nat Tmax) ltac:(lia)). rewrite Z2Nat.id in G by lia. exact G.
Qed.
End Steps.
