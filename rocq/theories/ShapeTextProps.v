(** * C73: the text form of ragged shapes *)
From Coq Require Import ZArith List Lia Bool Arith.
From Coq Require Import ZifyBool.
From Verif Require Import Base RaggedModel RaggedSpec RaggedProofs FsaSpec FsaLemmas PyBase FsaTextModel FsaTextSpec FsaTextProofs FromListModel FromListProofs RaggedOpsModel RaggedOpsSpec RaggedOpsProofs RaggedCatProofs RaggedListProofs RaggedTextModel RaggedTextSpec RaggedTextProofs RaggedTextProps ShapeTextModel ShapeTextSpec.
Import ListNotations.
Open Scope Z_scope.

(** The text of a ragged tensor with 1 for every element *)
Definition conv1 (c : Z) : str := if c =? 120 then [49; 44] else if (c =? 91) || (c =? 93) || cws c then [c] else [64].
Definition conv (s : str) : str := flat_map conv1 s.
Lemma conv_cons c s : conv (c :: s) = conv1 c ++ conv s. Proof. reflexivity. Qed.
Lemma conv_app s t : conv (s ++ t) = conv s ++ conv t. Proof. apply flat_map_app. Qed.
Lemma conv1_ws c : cws c = true -> conv1 c = [c].
Proof. intros H. unfold conv1. destruct (c =? 120) eqn:E; [assert (c = 120) by lia; subst; discriminate|]. rewrite H, orb_true_r. reflexivity. Qed.
Lemma conv_blank w : blank w -> conv w = w.
Proof. induction 1 as [|c w H _ IH]; [reflexivity|]. rewrite conv_cons, IH, conv1_ws by exact H. reflexivity. Qed.
Lemma conv1_nws c : cws c = false -> exists d u, conv1 c = d :: u /\ cws d = false.
Proof.
  intros H. unfold conv1. destruct (c =? 120); [exists 49, [44]; split; reflexivity|]. destruct ((c =? 91) || (c =? 93) || cws c); [exists c, []; auto|exists 64, []; split; reflexivity].
Qed.
Lemma skip_ws_conv s : skip_ws (conv s) = conv (skip_ws s).
Proof.
  induction s as [|c s IH]; [reflexivity|]. rewrite conv_cons. cbn [skip_ws]. destruct (cws c) eqn:E.
  - rewrite conv1_ws by exact E. cbn [app skip_ws]. rewrite E. exact IH.
  - destruct (conv1_nws c E) as (d & u & Ed & Hd). rewrite conv_cons, Ed. cbn [app skip_ws]. now rewrite Hd.
Qed.
Lemma skip_ws_head s c u : skip_ws s = c :: u -> cws c = false /\ (length u < length s)%nat.
Proof.
  induction s as [|d s IH]; intros H; cbn [skip_ws] in H; [discriminate|]. destruct (cws d) eqn:E.
  - destruct (IH H). cbn. split; [auto|lia].
  - injection H as <- <-. cbn. split; [auto|lia].
Qed.
Lemma is_nil_conv s : is_nil (conv s) = is_nil s.
Proof. destruct s as [|c s]; [reflexivity|]. rewrite conv_cons. unfold conv1. destruct (c =? 120); [reflexivity|]. destruct ((c =? 91) || (c =? 93) || cws c); reflexivity. Qed.
Lemma push_0 rss n rss' : push_at rss 0 n = Some rss' -> tl rss' = tl rss.
Proof. unfold push_at. destruct rss as [|r rss]; [discriminate|]. cbn. intros H. injection H as <-. reflexivity. Qed.

(** The loop on s does what the loop for ragged tensors does on conv s. *)
Lemma shape_sim f : forall s cur rss elems rss' elems' r' f2,
  rag_loop f (skip_ws (conv s)) cur rss elems = Some (rss', elems', r') -> (length s < f2)%nat ->
  exists r, shape_loop f2 (skip_ws s) cur rss (zlen elems) = Some (match tl rss' with [] => [[0]] | q => q end, r) /\ r' = conv r.
Proof.
  induction f as [f IH] using lt_wf_ind. intros s cur rss elems rss' elems' r' f2 H Hf. destruct f as [|f]; [discriminate|].
  destruct f2 as [|f2]; [lia|]. rewrite skip_ws_conv in H. destruct (skip_ws s) as [|c u] eqn:Es; [discriminate|].
  destruct (skip_ws_head _ _ _ Es) as (Hc & Hl). rewrite conv_cons in H. cbn [shape_loop]. unfold conv1 in H.
  destruct (c =? 120) eqn:C0.
  { assert (c = 120) by lia. subst c. cbn [Z.eqb Pos.eqb]. cbn [app rag_loop] in H.
    change (49 =? 91) with false in H. change (49 =? 93) with false in H. change (49 =? 44) with false in H. cbv iota in H.
    assert (RT : read_int (open (49 :: 44 :: conv u)) = (1, mkS (44 :: conv u) false false)) by reflexivity.
    rewrite RT in H. change (FsaTextModel.good (mkS (44 :: conv u) false false)) with true in H. cbn [negb orb s_rest] in H.
    destruct (negb (cur =? zlen rss) || (cur <? 2)) eqn:Ck; [discriminate|].
    destruct f as [|f]; [discriminate|]. change (skip_ws (44 :: conv u)) with (44 :: conv u) in H. cbn [rag_loop] in H.
    change (44 =? 91) with false in H. change (44 =? 93) with false in H. change (44 =? 44) with true in H. cbv iota in H.
    destruct (IH f ltac:(lia) u _ _ _ _ _ _ f2 H ltac:(lia)) as (r & E & Er). exists r. split; [|exact Er].
    rewrite zlen_app in E. exact E. }
  destruct (c =? 91) eqn:C1.
  { cbn [orb app] in H. cbn [rag_loop] in H. rewrite C1 in H.
    assert (Q : is_nil elems = (zlen elems =? 0)) by (destruct elems; [reflexivity|rewrite zlen_cons; pose proof (zlen_nonneg elems); cbn [is_nil]; lia]).
    rewrite Q in H. match type of H with context [if ?q then _ else None] => destruct q; [|discriminate] end.
    apply (IH f ltac:(lia) u _ _ _ _ _ _ f2 H ltac:(lia)). }
  destruct (c =? 93) eqn:C2.
  { cbn [orb app] in H. cbn [rag_loop] in H. rewrite C1, C2 in H. destruct (negb (cur - 1 <? 0)) eqn:Ck; [|discriminate].
    match type of H with match ?q with Some _ => _ | None => None end = _ => destruct q as [n|]; [|discriminate] end.
    destruct (push_at rss (cur - 1) n) as [rss1|] eqn:Ep; [|discriminate]. destruct (cur - 1 =? 0) eqn:E0.
    - injection H as <- <- <-. replace (cur - 1 <=? 0) with true by lia. replace (cur - 1) with 0 in Ep by lia. apply push_0 in Ep. rewrite Ep. eauto.
    - replace (cur - 1 <=? 0) with false by lia. apply (IH f ltac:(lia) u _ _ _ _ _ _ f2 H ltac:(lia)). }
  rewrite Hc in H. cbn [orb app] in H. cbn [rag_loop] in H. change (64 =? 91) with false in H. change (64 =? 93) with false in H. change (64 =? 44) with false in H. cbv iota in H.
  assert (RT : read_int (open (64 :: conv u)) = (0, mkS (64 :: conv u) false true)) by reflexivity. rewrite RT in H. discriminate.
Qed.
Lemma shape_of_conv s rss vs : ragged_of_text (conv s) = Some (rss, vs) -> shape_of_text s = Some rss.
Proof.
  unfold ragged_of_text, shape_of_text. destruct (rag_loop (S (length (conv s))) (skip_ws (conv s)) 0 [] []) as [[[rss1 vs1] r1]|] eqn:E; [|discriminate].
  destruct (shape_sim _ _ _ _ _ _ _ _ (S (length s)) E ltac:(lia)) as (r & Q & ->). rewrite zlen_nil in Q. rewrite Q. rewrite skip_ws_conv, is_nil_conv.
  destruct (hd_error rss1) as [top|]; [|discriminate]. destruct (zlen top =? 2); [|discriminate].
  match goal with |- context [zlen vs1 =? ?q] => destruct (zlen vs1 =? q); [|discriminate] end.
  destruct (is_nil (skip_ws r)); [|discriminate]. intros H. injection H as <- _. reflexivity.
Qed.
Lemma spells_conv : (forall v s, shape_spells v s -> match v with PElem x => x = 1 /\ s = [120] | PList _ => spells v (conv s) end) /\
  (forall l s, shape_in l s -> spells_in l (conv s)).
Proof.
  apply (shape_spells_mut (fun v s _ => match v with PElem x => x = 1 /\ s = [120] | PList _ => spells v (conv s) end) (fun l s _ => spells_in l (conv s))).
  - auto.
  - intros l s _ IH. rewrite conv_cons. constructor. exact IH.
  - intros w Hw. rewrite conv_app, conv_blank by exact Hw. apply in_end. now apply blank_gap.
  - intros w v t l s Hw Hv IHv Hs IHs. rewrite !conv_app, conv_blank by exact Hw. apply blank_gap in Hw. destruct v as [x|l'].
    + destruct IHv as (-> & ->). change (conv [120]) with ([49] ++ [44]). rewrite <- (app_assoc [49]).
      apply in_item; [exact Hw| |apply gap_before; [constructor; [now right|constructor]|exact IHs]|reflexivity].
      constructor. split; [reflexivity|split; reflexivity].
    + apply in_item; [exact Hw|exact IHv|exact IHs|exact I].
Qed.

(** Any text of a uniformly nested list of x is read as the shape with these sublists. *)
Theorem C73_shape_read m data s w1 w2 : Forall (unif (S m)) data -> shape_spells (PList data) s -> blank w1 -> blank w2 ->
  exists rss, shape_of_text (w1 ++ s ++ w2) = Some rss /\ tolist rss (flat_map leaves data) = Some data.
Proof.
  intros HU Hs H1 H2. pose proof (proj1 spells_conv _ _ Hs) as Hc. cbv beta iota in Hc.
  destruct (C73_read m data (conv s) w1 w2 HU Hc (blank_gap _ H1) H2) as (rss & E & T).
  exists rss. split; [|exact T]. eapply shape_of_conv. rewrite !conv_app, (conv_blank w1), (conv_blank w2) by assumption. exact E.
Qed.
(** Its number of axes is the depth of the nesting, if there is a sublist at the last level. *)
Theorem C73_shape_axes m data s w1 w2 rss : Forall (unif (S m)) data -> shape_spells (PList data) s -> blank w1 -> blank w2 ->
  last (rows (S m) data) [0] <> [0] -> shape_of_text (w1 ++ s ++ w2) = Some rss -> rss = rows (S m) data.
Proof.
  intros HU Hs H1 H2 HL E. pose proof (proj1 spells_conv _ _ Hs) as Hc. cbv beta iota in Hc.
  destruct (C73_read m data (conv s) w1 w2 HU Hc (blank_gap _ H1) H2) as (rss1 & E1 & _).
  rewrite <- (C73_read_axes m data (conv s) w1 w2 rss1 _ HU Hc (blank_gap _ H1) H2 HL E1).
  assert (K : shape_of_text (w1 ++ s ++ w2) = Some rss1) by (eapply shape_of_conv; rewrite !conv_app, (conv_blank w1), (conv_blank w2) by assumption; exact E1).
  congruence.
Qed.

Lemma shape_in_blank l s : shape_in l s -> shape_in l ([32] ++ s).
Proof. intros H. inversion H; subst; rewrite app_assoc; constructor; auto; constructor; auto. Qed.
Lemma print_shape_items (f : Z -> option str) ds l :
  Forall2 (fun d v => exists x, f d = Some (x ++ [32]) /\ shape_spells v x) ds l ->
  exists parts, mapM f ds = Some parts /\ shape_in l (concat parts ++ [93]).
Proof.
  induction 1 as [|d v ds l (x & E & Hx) H IH].
  - exists []. split; [reflexivity|]. apply (shi_end []). constructor.
  - destruct IH as (parts & E2 & Hp). cbn [mapM]. rewrite E, E2. eexists. split; [reflexivity|]. cbn [concat]. rewrite <- !app_assoc.
    apply (shi_item [] v x l); [constructor|exact Hx|apply shape_in_blank; exact Hp].
Qed.
Lemma print_shape_part_ok rss k : forall b e l, to_list rss (repeat 1 k) b e = Some l ->
  exists p, print_shape_part rss b e = Some p /\ shape_in l (p ++ [93]).
Proof.
  induction rss as [|rs rss IH]; intros b e l H; cbn [to_list print_shape_part] in *; apply mapM_Forall2 in H.
  - destruct (print_shape_items (fun _ => Some [120; 32]) (map (fun i => b + i) (zrange (e - b))) l) as (parts & -> & Hp); [|eauto].
    eapply Forall2_impl; [|exact H]. intros d v Hd. cbn beta in Hd. destruct (rd (repeat 1 k) d) as [z|] eqn:E; [|discriminate]. injection Hd as <-.
    apply rd_In, repeat_spec in E. subst z. exists [120]. split; [reflexivity|constructor].
  - destruct (print_shape_items (fun d => lo <- rd rs d;; hi <- rd rs (d + 1);; p <- print_shape_part rss lo hi;; Some ([91; 32] ++ p ++ [93; 32])) (map (fun i => b + i) (zrange (e - b))) l) as (parts & E & Hp).
    2:{ rewrite E. eauto. }
    eapply Forall2_impl; [|exact H]. intros d v Hd. cbn beta in *. destruct (rd rs d) as [lo|]; [|discriminate]. destruct (rd rs (d + 1)) as [hi|]; [|discriminate].
    destruct (to_list rss (repeat 1 k) lo hi) as [l'|] eqn:E; [|discriminate]. injection Hd as <-. destruct (IH _ _ _ E) as (p & -> & Hp).
    exists (91 :: [32] ++ p ++ [93]). split; [cbn [app]; rewrite <- !app_assoc; reflexivity|]. constructor. now apply shape_in_blank.
Qed.
(** Reading back a printed shape gives a shape with the same sublists. *)
Theorem C73_shape_roundtrip rss k data : tolist rss (repeat 1 k) = Some data ->
  exists s rss', print_shape rss = Some s /\ shape_of_text s = Some rss' /\ tolist rss' (flat_map leaves data) = Some data.
Proof.
  intros H. unfold tolist in H. destruct rss as [|rs rss]; [discriminate|]. cbn [hd_error] in H.
  pose proof (to_list_unif _ _ _ _ _ H) as U. cbn [length] in U.
  destruct (print_shape_part_ok _ _ _ _ _ H) as (p & E & Hp). unfold print_shape. cbn [hd_error]. rewrite E.
  assert (Hs : shape_spells (PList data) (91 :: [32] ++ p ++ [93])).
  { constructor. now apply shape_in_blank. }
  destruct (C73_shape_read (length rss) data _ [] [] U Hs) as (rss' & K1 & K2); [constructor|constructor|].
  rewrite app_nil_r in K1. cbn [app] in K1. eexists _, rss'. split; [reflexivity|]. split; [exact K1|exact K2].
Qed.
(** [ [ [ x x ] [ ] ] [ ] [ [ x ] ] ], and refused: "[ x ]", "[ [ x ] [ [ ] ] ]", "[ [ 1 ] ]", "[ [ x ]" *)
Example C73_shape_ex :
  let rss := [[0; 2; 2; 3]; [0; 2; 2; 3]] in
  (exists data, tolist rss (repeat 1 3) = Some data /\ Forall (unif 2) data /\ last (rows 2 data) [0] <> [0]) /\
  (s <- print_shape rss;; shape_of_text s) = Some rss /\
  shape_of_text [91; 120; 93] = None /\ shape_of_text [91; 91; 120; 93; 91; 91; 93; 93; 93] = None /\
  shape_of_text [91; 91; 49; 93; 93] = None /\ shape_of_text [91; 91; 120; 93] = None.
Proof.
  cbv zeta. split.
  - eexists. split; [reflexivity|]. split; [repeat constructor|vm_compute; congruence].
  - repeat split; vm_compute; reflexivity.
Qed.
Print Assumptions C73_shape_read.
Print Assumptions C73_shape_axes.
Print Assumptions C73_shape_roundtrip.

(** ** Only such texts are read *)
Definition okx (N k : Z) (v : pyval Z) : Prop := unif (Z.to_nat k) v /\ (k = 0 -> 2 <= N).
Fixpoint closes_x (N : Z) (n : nat) (k : Z) (s r : str) : Prop :=
  match n with
  | O => s = r
  | S n' => exists l t s', s = t ++ s' /\ shape_in l t /\ Forall (okx N k) l /\ closes_x N n' (k + 1) s' r
  end.
Lemma shape_sound fuel : forall s n rss k rss' r, shape_loop fuel (skip_ws s) (Z.of_nat n) rss k = Some (rss', r) ->
  Z.of_nat n <= zlen rss -> 0 <= k ->
  exists N, zlen rss <= N /\ (k <> 0 -> N = zlen rss) /\
  match n with
  | O => exists w t l, blank w /\ s = w ++ t ++ r /\ shape_spells (PList l) t /\ 1 <= N /\ Forall (okx N (N - 1)) l
  | S _ => closes_x N n (N - Z.of_nat n) s r
  end.
Proof.
  induction fuel as [|fuel IH]; intros s n rss k rss' r H Hn Hk; [discriminate|]. cbn [shape_loop] in H.
  destruct (skip_ws_split s) as (w & Hw & Es). destruct (skip_ws s) as [|c u] eqn:Ec; [discriminate|].
  destruct (c =? 91) eqn:C1.
  - apply Z.eqb_eq in C1. subst c. destruct (negb ((zlen rss <? Z.of_nat n + 1) && negb (k =? 0))) eqn:Ck; [|discriminate].
    replace (Z.of_nat n + 1) with (Z.of_nat (S n)) in * by lia.
    destruct (IH _ _ _ _ _ _ H) as (N & I1 & I2 & (l & t & s' & Eu & Hl & Fl & Cl)); [rewrite zlen_app, zlen_repeat; lia|lia|].
    rewrite zlen_app, zlen_repeat in I1, I2. exists N. split; [lia|]. split; [lia|].
    assert (OkL : okx N (N - Z.of_nat n) (PList l)).
    { split; [|lia]. replace (Z.to_nat (N - Z.of_nat n)) with (S (Z.to_nat (N - Z.of_nat (S n)))) by lia. cbn [unif].
      eapply Forall_impl; [|exact Fl]. intros v (K & _). exact K. }
    destruct n as [|n].
    + cbn [closes_x] in Cl. subst s'. exists w, (91 :: t), l. split; [exact Hw|]. split; [rewrite Es; cbn [app]; now rewrite Eu|]. split; [now constructor|]. split; [lia|]. exact Fl.
    + destruct Cl as (l1 & t1 & s1 & E1 & Hl1 & Fl1 & Cl). exists (PList l :: l1), (w ++ (91 :: t) ++ t1), s1. split.
      * rewrite Es, Eu, E1. rewrite <- !app_assoc. reflexivity.
      * split; [apply shi_item; auto; now constructor|].
        replace (N - Z.of_nat (S (S n)) + 1) with (N - Z.of_nat (S n)) in * by lia. split; [constructor; auto|exact Cl].
  - destruct (c =? 93) eqn:C2.
    + apply Z.eqb_eq in C2. subst c. destruct (Z.of_nat n - 1 <=? 0) eqn:Cz.
      * destruct (negb (Z.of_nat n - 1 <? 0)) eqn:Ck; [|discriminate]. injection H as _ <-. assert (n = 1%nat) by lia. subst n.
        exists (zlen rss). split; [lia|]. split; [auto|].
        exists [], (w ++ [93]), u. split; [rewrite Es, <- app_assoc; reflexivity|]. split; [now constructor|]. split; [constructor|reflexivity].
      * destruct n as [|n]; [lia|].
        match type of H with match ?q with Some _ => _ | None => None end = _ => destruct q as [q1|]; [|discriminate] end.
        destruct (push_at rss (Z.of_nat (S n) - 1) q1) as [rss1|] eqn:Ep; [|discriminate]. apply push_at_len in Ep.
        replace (Z.of_nat (S n) - 1) with (Z.of_nat n) in H by lia.
        destruct (IH _ _ _ _ _ _ H) as (N & I1 & I2 & I3); [lia|lia|]. rewrite Ep in I1, I2. exists N. split; [exact I1|]. split; [exact I2|].
        destruct n as [|n]; [lia|]. exists [], (w ++ [93]), u. split; [rewrite Es, <- app_assoc; reflexivity|]. split; [now constructor|]. split; [constructor|].
        replace (N - Z.of_nat (S (S n)) + 1) with (N - Z.of_nat (S n)) by lia. exact I3.
    + destruct (c =? 120) eqn:C3; [|discriminate]. apply Z.eqb_eq in C3. subst c.
      destruct (negb (Z.of_nat n =? zlen rss) || (Z.of_nat n <? 2)) eqn:Ck; [discriminate|].
      destruct (IH _ _ _ _ _ _ H) as (N & I1 & I2 & I3); [lia|lia|]. specialize (I2 ltac:(lia)). exists N. split; [lia|]. split; [auto|]. destruct n as [|n]; [lia|].
      destruct I3 as (l1 & t1 & s1 & E1 & Hl1 & Fl1 & Cl). exists (PElem 1 :: l1), (w ++ [120] ++ t1), s1. split.
      { rewrite Es, E1. rewrite <- !app_assoc. reflexivity. }
      split; [apply shi_item; auto; constructor|]. split; [|exact Cl]. constructor; [|exact Fl1]. split; [|lia].
      replace (Z.to_nat (N - Z.of_nat (S n))) with 0%nat by lia. exact I.
Qed.
(** Only texts of uniformly nested lists of x are read. *)
Theorem C73_shape_read_only s rss : shape_of_text s = Some rss ->
  exists m data w1 t w2, s = w1 ++ t ++ w2 /\ blank w1 /\ blank w2 /\ shape_spells (PList data) t /\ Forall (unif (S m)) data.
Proof.
  unfold shape_of_text. destruct (shape_loop (S (length s)) (skip_ws s) 0 [] 0) as [[rss1 r]|] eqn:E; [|discriminate].
  destruct (is_nil (skip_ws r)) eqn:Er; [|discriminate]. intros _.
  destruct (shape_sound _ s 0%nat _ _ _ _ E (Z.le_refl 0) (Z.le_refl 0)) as (N & _ & _ & (w & t & l & Hw & -> & Ht & N1 & HF)).
  destruct (skip_ws_split r) as (w2 & Hw2 & Er2). destruct (skip_ws r); [|discriminate]. rewrite app_nil_r in Er2. subst w2.
  destruct (Z.eq_dec N 1) as [L|L].
  - destruct l as [|v l].
    + exists 0%nat, [], w, t, r. repeat (split; auto).
    + inversion HF; subst. destruct H1 as (_ & K). lia.
  - exists (Z.to_nat (N - 2)), l, w, t, r. repeat (split; auto). eapply Forall_impl; [|exact HF]. intros v (K & _).
    replace (S (Z.to_nat (N - 2))) with (Z.to_nat (N - 1)) by lia. exact K.
Qed.
Print Assumptions C73_shape_read_only.

(** The shape of a nested list (of ones), written to text and read back, is the same shape. *)
Theorem C73_shape_roundtrip_exact m data k : Forall (unif (S m)) data -> last (rows (S m) data) [0] <> [0] -> flat_map leaves data = repeat 1 k ->
  exists s, print_shape (rows (S m) data) = Some s /\ shape_of_text s = Some (rows (S m) data).
Proof.
  intros HU HL HO. pose proof (tolist_rows m data HU) as T. rewrite HO in T. unfold tolist in T. cbn [rows hd_error] in T.
  destruct (print_shape_part_ok _ _ _ _ _ T) as (p & E & Hp). unfold print_shape. cbn [rows hd_error]. rewrite E. eexists. split; [reflexivity|].
  assert (Hs : shape_spells (PList data) (91 :: [32] ++ p ++ [93])) by (constructor; now apply shape_in_blank).
  assert (B : blank []) by constructor. destruct (C73_shape_read m data _ [] [] HU Hs B B) as (rss' & K & _).
  pose proof (C73_shape_axes m data _ [] [] _ HU Hs B B HL K) as Q. rewrite app_nil_r in K. cbn [app] in K. rewrite Q in K. exact K.
Qed.
Print Assumptions C73_shape_roundtrip_exact.
