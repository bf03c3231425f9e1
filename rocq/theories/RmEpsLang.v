(** * Epsilon removal on the host: kept states and language *)
From Coq Require Import ZArith List Lia Bool Sorted.
From Verif Require Import Base RaggedModel RaggedSpec RaggedProofs FsaSpec FsaLemmas OpsModel ScoreSpec ScorePaths ShortestSpec IntersectPaths PropsSpec DetProofs DetLang RmEpsModel RmEpsSpec RmEpsProofs RaggedListProofs.
Import ListNotations.
Open Scope Z_scope.

(** ** The kept states *)
Fixpoint kposl (k : list bool) (o : Z) : list Z :=
  match k with
  | [] => []
  | true :: k' => o :: kposl k' (o + 1)
  | false :: k' => kposl k' (o + 1)
  end.
Lemma exsum_snoc0 l : exsum (l ++ [0]) = exsum l ++ [zsum l].
Proof. unfold exsum. rewrite RaggedListProofs.exsum_from_snoc. do 2 f_equal. lia. Qed.
Lemma rd_exsum_last l : rd (exsum l) (zlen l) = Some (zsum l).
Proof. rewrite rd_exsum by (pose proof (zlen_nonneg l); lia). unfold zlen. rewrite Nat2Z.id, firstn_all. reflexivity. Qed.
Lemma kposl_in k : forall o s, In s (kposl k o) <-> rd k (s - o) = Some true.
Proof.
  induction k as [|b k IH]; intros o s; cbn [kposl].
  - split; [intros []|]. intros H. rewrite rd_nil in H. discriminate.
  - rewrite rd_cons. replace (s - o - 1) with (s - (o + 1)) by lia. pose proof (IH (o + 1) s) as IHs. destruct (s - o =? 0) eqn:E.
    + assert (s = o) by lia. subst s. assert (N : ~ In o (kposl k (o + 1))) by (intros X; apply IH, rd_Some_bound in X; lia). destruct b; cbn [In]; [split; [auto|intros _; now left]|split; [tauto|discriminate]].
    + destruct b; cbn [In]; [|exact IHs]. rewrite <- IHs. split; [intros [X|X]; [lia|exact X]|auto].
Qed.
Lemma kposl_sorted k : forall o, StronglySorted Z.lt (kposl k o).
Proof.
  induction k as [|[] k IH]; intros o; cbn [kposl]; [constructor| |apply IH]. constructor; [apply IH|]. apply Forall_forall. intros x Hx. apply kposl_in, rd_Some_bound in Hx. lia.
Qed.
Lemma sorted_rd l : StronglySorted Z.lt l -> forall i j x y, rd l i = Some x -> rd l j = Some y -> i < j -> x < y.
Proof.
  induction 1 as [|a l H IH HF]; intros i j x y Hx Hy L; [rewrite rd_nil in Hx; discriminate|]. rewrite rd_cons in Hx, Hy. destruct (j =? 0) eqn:E; [destruct (i =? 0) eqn:E'; [lia|apply rd_Some_bound in Hx; lia]|].
  destruct (i =? 0) eqn:E'; [injection Hx as <-; eapply Forall_forall in HF; [exact HF|exact (rd_In _ _ _ Hy)]|]. eapply IH; eauto. lia.
Qed.
Lemma number_ok k : forall c o d s, rd (kposl k o) d = Some s -> rd (number k c) (s - o) = Some (c + d).
Proof.
  induction k as [|[] k IH]; intros c o d s H; cbn [kposl number] in *; [rewrite rd_nil in H; discriminate| |].
  - rewrite rd_cons in *. destruct (d =? 0) eqn:E.
    + injection H as <-. rewrite Z.sub_diag. rewrite Z.eqb_refl. f_equal. apply Z.eqb_eq in E. lia.
    + pose proof (IH (c + 1) (o + 1) _ _ H) as X. pose proof (rd_In _ _ _ H) as Y. apply kposl_in, rd_Some_bound in Y. destruct (s - o =? 0) eqn:E2; [lia|]. replace (s - o - 1) with (s - (o + 1)) by lia. rewrite X. f_equal. lia.
  - rewrite rd_cons. pose proof (IH c (o + 1) _ _ H) as X. pose proof (rd_In _ _ _ H) as Y. apply kposl_in, rd_Some_bound in Y. destruct (s - o =? 0) eqn:E2; [lia|]. replace (s - o - 1) with (s - (o + 1)) by lia. exact X.
Qed.
Lemma number_len k : forall c, zlen (number k c) = zlen k.
Proof. induction k as [|[] k IH]; intros c; cbn [number]; [reflexivity| |]; rewrite !zlen_cons, IH; reflexivity. Qed.
Lemma kposl_rows {X} (P : Z -> X -> Prop) k : forall o (rows : list (list X)), zlen rows = zlen k ->
  (forall i r, rd rows i = Some r -> (rd k i = Some true -> exists x, r = [x] /\ P (o + i) x) /\ (rd k i = Some false -> r = [])) -> Forall2 P (kposl k o) (concat rows).
Proof.
  induction k as [|b k IH]; intros o rows L H.
  - destruct rows; [constructor|]. rewrite zlen_cons, zlen_nil in L. pose proof (zlen_nonneg rows). lia.
  - destruct rows as [|r rows]; [rewrite zlen_cons, zlen_nil in L; pose proof (zlen_nonneg k); lia|]. rewrite !zlen_cons in L.
    assert (R : Forall2 P (kposl k (o + 1)) (concat rows)).
    { apply IH; [lia|]. intros i r' Hr. pose proof (rd_Some_bound _ _ _ Hr). destruct (H (i + 1) r') as (H1 & H2). { rewrite rd_cons. destruct (i + 1 =? 0) eqn:E; [lia|]. replace (i + 1 - 1) with i by lia. exact Hr. }
      rewrite rd_cons in H1, H2. destruct (i + 1 =? 0) eqn:E; [lia|]. replace (i + 1 - 1) with i in H1, H2 by lia. replace (o + 1 + i) with (o + (i + 1)) by lia. auto. }
    destruct (H 0 r eq_refl) as (H1 & H2). cbn [concat kposl]. destruct b.
    + destruct (H1 eq_refl) as (x & -> & Hx). cbn. constructor; [now rewrite Z.add_0_r in Hx|exact R].
    + rewrite (H2 eq_refl). exact R.
Qed.
Lemma Forall2_rd {X Y} (P : X -> Y -> Prop) l m : Forall2 P l m -> zlen l = zlen m /\ forall i x y, rd l i = Some x -> rd m i = Some y -> P x y.
Proof.
  induction 1 as [|x y l m H _ (IH1 & IH2)]; [split; [reflexivity|]; intros i x y Hx _; rewrite rd_nil in Hx; discriminate|]. split; [rewrite !zlen_cons; lia|]. intros i x' y' Hx Hy. rewrite rd_cons in Hx. rewrite (rd_cons y m) in Hy. destruct (i =? 0); [injection Hx as <-; injection Hy as <-; exact H|eauto].
Qed.
Lemma mapM_ex {X Y} (F : X -> option Y) (P : X -> Y -> Prop) l : (forall x, In x l -> exists y, F x = Some y /\ P x y) -> exists ys, mapM F l = Some ys /\ Forall2 P l ys.
Proof.
  induction l as [|x l IH]; intros H; [exists []; split; [reflexivity|constructor]|]. destruct (H x (or_introl eq_refl)) as (y & E & Py). destruct IH as (ys & E2 & P2); [intros; apply H; now right|]. exists (y :: ys). cbn. rewrite E, E2. split; [reflexivity|now constructor].
Qed.

Lemma kstep_ok (L : list arc) n : (forall a, In a L -> 0 <= dst a < n) -> forall k, zlen k = n -> exists k',
  foldM (fun k a => if lab a =? 0 then Some k else wr k (dst a) true) L k = Some k' /\ zlen k' = n /\
  forall s, rd k' s = Some true <-> rd k s = Some true \/ exists a, In a L /\ lab a <> 0 /\ dst a = s.
Proof.
  induction L as [|a L IH]; intros HB k Lk; [exists k; cbn; split; [reflexivity|]; split; [exact Lk|]; intros s; split; [auto|intros [X|(a & [] & _)]; exact X]|]. cbn [foldM].
  assert (HB' : forall b, In b L -> 0 <= dst b < n) by (intros b Hb; apply HB; now right). destruct (lab a =? 0) eqn:El.
  - destruct (IH HB' k Lk) as (k' & E & L' & S). exists k'. split; [exact E|]. split; [exact L'|]. intros s. rewrite S. apply Z.eqb_eq in El. split; (intros [X|(b & Hb & Hl & Hd)]; [now left|right; exists b]); [split; [now right|auto]|]. destruct Hb as [<-|Hb]; [congruence|auto].
  - apply Z.eqb_neq in El. destruct (wr_Some k (dst a) true) as (k1 & W1 & W2 & W3); [specialize (HB a (or_introl eq_refl)); lia|]. rewrite W1. destruct (IH HB' k1 ltac:(lia)) as (k' & E & L' & S). exists k'. split; [exact E|]. split; [exact L'|].
    intros s. rewrite S, W3. destruct (s =? dst a) eqn:Es.
    + apply Z.eqb_eq in Es. split; [intros _; right; exists a; split; [now left|auto]|auto].
    + split; (intros [X|(b & Hb & Hl & Hd)]; [now left|right; exists b]); [split; [now right|auto]|]. destruct Hb as [<-|Hb]; [lia|auto].
Qed.

Definition toarc (o : oarc) : arc := mkArc (o_src o) (o_dst o) (o_lab o) (match o_sc o with Some x => x | None => 0 end).

Section Lang.
Variable f : nfsa.
Hypothesis HV : valid f.
Hypothesis HT : p_topsorted_acyclic f.
Notation A := (all_arcs f).
Notation n := (nstates f).
Notation lb p := (labels (arcs_at f p)).
Notation scp p := (score (arcs_at f p)).

Lemma keep_ok : exists k, keep_states n A = Some k /\ zlen k = n /\ forall s, rd k s = Some true <-> s = 0 \/ s = n - 1 \/ exists a, In a A /\ lab a <> 0 /\ dst a = s.
Proof.
  pose proof (n2 f HV). unfold keep_states. assert (L0 : zlen (repeat false (Z.to_nat n)) = n) by (unfold zlen; rewrite repeat_length; lia).
  destruct (wr_Some (repeat false (Z.to_nat n)) 0 true) as (k0 & W1 & W2 & W3); [lia|]. rewrite W1. destruct (wr_Some k0 (n - 1) true) as (k1 & V1 & V2 & V3); [lia|]. rewrite V1.
  destruct (kstep_ok A n) with (k := k1) as (k & E & L & S); [intros a Ha; destruct HV as (_ & _ & V); apply (V a Ha)|lia|]. exists k. split; [exact E|]. split; [exact L|]. intros s. rewrite S, V3. destruct (s =? n - 1) eqn:E1.
  - split; [intros _; right; left; lia|auto].
  - rewrite W3. destruct (s =? 0) eqn:E0; [split; [intros _; left; lia|auto]|]. split; [intros [X|X]; [apply rd_In, repeat_spec in X; discriminate|auto]|]. intros [X|[X|X]]; [lia|lia|auto].
Qed.

Definition reach (s : Z) : Prop := exists p, apath f 0 p s.
(** ** The result for a list of kept states and rows of arcs *)
Definition Qrow (kl : list Z) (s : Z) (r : list oarc) : Prop :=
  (forall o, In o r -> exists e j a, apath f s e (src a) /\ epsp f e /\ rd A j = Some a /\ lab a <> 0 /\
     rd kl (o_src o) = Some s /\ rd kl (o_dst o) = Some (dst a) /\ o_lab o = lab a /\ o_der o = e ++ [j] /\
     (reach s -> o_sc o = Some (scp e + sc a)) /\ (~ reach s -> o_sc o = None)) /\
  (forall e j a, apath f s e (src a) -> epsp f e -> rd A j = Some a -> lab a <> 0 -> exists o, In o r /\ rd kl (o_dst o) = Some (dst a) /\ o_lab o = lab a /\
     (reach s -> exists y, o_sc o = Some y /\ scp e + sc a <= y)).

Lemma host_ok : exists kl kept, StronglySorted Z.lt kl /\ (forall s, In s kl <-> s = 0 \/ s = n - 1 \/ exists a, In a A /\ lab a <> 0 /\ dst a = s) /\
  Forall2 (Qrow kl) kl kept /\ remove_epsilon (splits_of f) A = (last <- rd (exsum (map zlen kept)) (zlen kept - 1);; Some (firstn (length kept) (exsum (map zlen kept)) ++ [last], concat kept)).
Proof.
  pose proof (n2 f HV) as N2. unfold remove_epsilon. cbv zeta. rewrite zlen_splits_of. replace (zlen f + 1 - 1) with n by (unfold nstates; lia). destruct (n =? 0) eqn:E0; [lia|]. clear E0.
  destruct (forward_ok f HV HT) as (fw & E1 & L1 & F). rewrite E1. destruct keep_ok as (k & E2 & L2 & K). rewrite E2. set (kl := kposl k 0).
  assert (SM : forall d s, rd kl d = Some s -> rd (number k 0) s = Some d). { intros d s H. pose proof (number_ok k 0 0 d s H) as X. now rewrite Z.sub_0_r in X. }
  assert (KI : forall s, In s kl <-> rd k s = Some true). { intros s. unfold kl. rewrite kposl_in, Z.sub_0_r. tauto. }
  assert (MS : forall s d, In s kl -> rd (number k 0) s = Some d -> rd kl d = Some s). { intros s d Hs Hd. apply In_rd in Hs as (d' & _ & X). pose proof (SM _ _ X) as Y. rewrite Y in Hd. injection Hd as <-. exact X. }
  assert (KD : forall a, In a A -> lab a <> 0 -> In (dst a) kl). { intros a Ha Hl. apply KI, K. eauto 6. }
  match goal with |- context [mapM ?G (zrange n)] => destruct (mapM_ex G (fun i r => (rd k i = Some true -> exists x, r = [x] /\ Qrow kl i x) /\ (rd k i = Some false -> r = [])) (zrange n)) as (rows & E3 & R) end.
  { intros i Hi. apply in_zrange in Hi. destruct (rd_in_bound k i ltac:(lia)) as ([] & Hk); rewrite Hk; cbn [negb]; [|exists []; split; [reflexivity|]; split; [discriminate|auto]].
    destruct (rd_in_bound fw i ltac:(lia)) as (f0 & Hf). rewrite Hf. assert (Ik : In i kl) by (apply KI; exact Hk). destruct (In_rd _ _ Ik) as (c & _ & Hc). pose proof (SM _ _ Hc) as Hc2. rewrite Hc2.
    assert (RF : (reach i -> exists x, f0 = Some x) /\ (~ reach i -> f0 = None)).
    { pose proof (F i Hi) as Fi. unfold fin in Fi. rewrite Hf in Fi. split; [intros X; apply Fi in X as (x & X); injection X as ->; eauto|]. intros X. destruct f0 as [x|]; [|reflexivity]. exfalso. apply X, Fi. eauto. }
    destruct (closure_ok f HV HT (number k 0) c i f0 Hi) as (out & E & O1 & O2). { intros j a Ha Hl. destruct (In_rd _ _ (KD a (rd_In _ _ _ Ha) Hl)) as (d & _ & Hd). exists d. now apply SM. }
    rewrite E. exists [out]. split; [reflexivity|]. split; [|discriminate]. intros _. exists out. split; [reflexivity|]. split.
    - intros o Ho. destruct (O1 o Ho) as (e & j & a & X1 & X2 & X3 & X4 & X5 & X6 & X7 & X8 & X9). exists e, j, a. split; [exact X1|]. split; [exact X2|]. split; [exact X3|]. split; [exact X4|]. split; [rewrite X5; exact Hc|]. split; [apply MS; [apply KD; [exact (rd_In _ _ _ X3)|exact X4]|exact X6]|].
      split; [exact X7|]. split; [exact X8|]. rewrite X9. split; intros X; [apply RF in X as (x & ->); cbn; f_equal; lia|]. rewrite (proj2 RF X). reflexivity.
    - intros e j a X1 X2 X3 X4. destruct (O2 e j a X1 X2 X3 X4) as (o & Y1 & Y2 & Y3 & Y4). exists o. split; [exact Y1|]. split; [apply MS; [apply KD; [exact (rd_In _ _ _ X3)|exact X4]|exact Y2]|]. split; [exact Y3|]. intros X. apply RF in X as (x & X). eauto. }
  rewrite E3. exists kl, (concat rows). split; [apply kposl_sorted|]. split; [intros s; rewrite KI; apply K|]. split; [|reflexivity].
  destruct (Forall2_rd _ _ _ R) as (LR & RR). rewrite zlen_zrange in LR by lia. apply kposl_rows; [lia|]. intros i r Hr. pose proof (rd_Some_bound _ _ _ Hr). rewrite Z.add_0_l. apply (RR i i r); [rewrite rd_zrange; destruct (0 <=? i) eqn:?, (i <? n) eqn:?; cbn; auto; lia|exact Hr].
Qed.

Variables (kl : list Z) (kept : list (list oarc)).
Hypothesis KS : StronglySorted Z.lt kl.
Hypothesis KI : forall s, In s kl <-> s = 0 \/ s = n - 1 \/ exists a, In a A /\ lab a <> 0 /\ dst a = s.
Hypothesis KQ : Forall2 (Qrow kl) kl kept.
Notation g := (map (map toarc) kept).
Notation out := (concat kept).
Notation der := (map o_der out).
Notation K := (zlen kl).

Lemma ng : nstates g = K.
Proof. unfold nstates. rewrite zlen_map. symmetry. apply (Forall2_rd _ _ _ KQ). Qed.
Lemma allg : all_arcs g = map toarc out. Proof. unfold all_arcs. now rewrite concat_map. Qed.
Lemma kl_inj i j s : rd kl i = Some s -> rd kl j = Some s -> i = j.
Proof. intros H1 H2. destruct (Z.lt_trichotomy i j) as [L|[L|L]]; [|exact L|]; [pose proof (sorted_rd kl KS _ _ _ _ H1 H2 L)|pose proof (sorted_rd kl KS _ _ _ _ H2 H1 L)]; lia. Qed.
Lemma kl_range s : In s kl -> 0 <= s < n.
Proof. pose proof (n2 f HV). intros H1. apply KI in H1 as [->|[->|(a & Ha & _ & <-)]]; [lia|lia|]. destruct HV as (_ & _ & V). apply (V a Ha). Qed.
Lemma kl_first : rd kl 0 = Some 0.
Proof.
  assert (X : In 0 kl) by (apply KI; auto). apply In_rd in X as (d & _ & Hd). pose proof (rd_Some_bound _ _ _ Hd). destruct (Z.eq_dec d 0) as [->|NE]; [exact Hd|]. destruct (rd_in_bound kl 0 ltac:(lia)) as (x & Hx). pose proof (sorted_rd kl KS 0 d x 0 Hx Hd ltac:(lia)). pose proof (kl_range x (rd_In _ _ _ Hx)). lia.
Qed.
Lemma kl_last : rd kl (K - 1) = Some (n - 1).
Proof.
  assert (X : In (n - 1) kl) by (apply KI; auto). apply In_rd in X as (d & _ & Hd). pose proof (rd_Some_bound _ _ _ Hd). destruct (Z.eq_dec d (K - 1)) as [->|NE]; [exact Hd|]. destruct (rd_in_bound kl (K - 1) ltac:(lia)) as (x & Hx). pose proof (sorted_rd kl KS d (K - 1) _ x Hd Hx ltac:(lia)). pose proof (kl_range x (rd_In _ _ _ Hx)). lia.
Qed.
Lemma K2 : 2 <= K.
Proof. pose proof (n2 f HV). pose proof kl_first as H1. pose proof kl_last as H2. pose proof (rd_Some_bound _ _ _ H1). destruct (Z.eq_dec K 1) as [E|E]; [|lia]. rewrite E in H2. change (1 - 1) with 0 in H2. rewrite H1 in H2. injection H2. lia. Qed.

Lemma row_of c s : rd kl c = Some s -> exists r, rd kept c = Some r /\ Qrow kl s r.
Proof. intros H. destruct (Forall2_rd _ _ _ KQ) as (L & Q). pose proof (rd_Some_bound _ _ _ H). destruct (rd_in_bound kept c ltac:(lia)) as (r & Hr). exists r. split; [exact Hr|]. eapply Q; eauto. Qed.
Lemma of_row c r : rd kept c = Some r -> exists s, rd kl c = Some s /\ Qrow kl s r.
Proof. intros H. destruct (Forall2_rd _ _ _ KQ) as (L & Q). pose proof (rd_Some_bound _ _ _ H). destruct (rd_in_bound kl c ltac:(lia)) as (r' & Hr). exists r'. split; [exact Hr|]. eapply Q; eauto. Qed.

Lemma garc j a : rd (all_arcs g) j = Some a -> exists o s e j' a', rd out j = Some o /\ a = toarc o /\ rd kl (src a) = Some s /\ apath f s e (src a') /\ epsp f e /\ rd A j' = Some a' /\ lab a' <> 0 /\
  lab a = lab a' /\ rd kl (dst a) = Some (dst a') /\ o_der o = e ++ [j'] /\ (reach s -> o_sc o = Some (scp e + sc a')) /\ (~ reach s -> o_sc o = None) /\
  (exists r, rd g (src a) = Some r /\ In a r).
Proof.
  rewrite allg, Base.rd_map. intros H. destruct (rd out j) as [o|] eqn:Eo; [|discriminate]. injection H as <-. exists o.
  pose proof (rd_In _ _ _ Eo) as Io. apply in_concat in Io as (r & Ir & Io). apply In_rd in Ir as (c & _ & Hr). destruct (of_row c r Hr) as (s & Hs & Q1 & Q2). destruct (Q1 o Io) as (e & j' & a' & X1 & X2 & X3 & X4 & X5 & X6 & X7 & X8 & X9 & X10).
  exists s, e, j', a'. change (src (toarc o)) with (o_src o). change (dst (toarc o)) with (o_dst o). change (lab (toarc o)) with (o_lab o). repeat (split; [auto; fail|]). assert (Ec : o_src o = c) by (eapply kl_inj; eauto). rewrite Ec. exists (map toarc r). rewrite Base.rd_map, Hr. split; [reflexivity|]. exact (in_map toarc r o Io).
Qed.
Lemma gall c s e j' a' : rd kl c = Some s -> apath f s e (src a') -> epsp f e -> rd A j' = Some a' -> lab a' <> 0 ->
  exists j a, rd (all_arcs g) j = Some a /\ src a = c /\ lab a = lab a' /\ rd kl (dst a) = Some (dst a') /\ (reach s -> scp e + sc a' <= sc a).
Proof.
  intros Hc H1 H2 H3 H4. destruct (row_of c s Hc) as (r & Hr & Q1 & Q2). destruct (Q2 e j' a' H1 H2 H3 H4) as (o & Io & Y1 & Y2 & Y3). assert (X : In o out) by (apply in_concat; exists r; split; [exact (rd_In _ _ _ Hr)|exact Io]).
  apply In_rd in X as (j & _ & Hj). exists j, (toarc o). rewrite allg, Base.rd_map, Hj. split; [reflexivity|]. unfold toarc; cbn [src dst lab sc]. destruct (Q1 o Io) as (_ & _ & _ & _ & _ & _ & _ & X5 & _). split; [eapply kl_inj; eauto|]. split; [exact Y2|]. split; [exact Y1|]. intros X. destruct (Y3 X) as (y & -> & L). exact L.
Qed.

Lemma no_leave s e t : apath f s e t -> s = n - 1 -> e = [].
Proof. destruct 1 as [|j a e t Ha Hp]; [auto|]. intros E. exfalso. destruct HV as (_ & _ & V). destruct (V a (rd_In _ _ _ Ha)) as (_ & _ & _ & X). contradiction. Qed.

Lemma g_valid : valid g.
Proof.
  split; [|split; [rewrite ng; exact K2|]].
  - intros c r a Hr Ha. rewrite Base.rd_map in Hr. destruct (rd kept c) as [r0|] eqn:Er; [|discriminate]. injection Hr as <-. apply in_map_iff in Ha as (o & <- & Io). destruct (of_row c r0 Er) as (s & Hs & Q1 & _). destruct (Q1 o Io) as (_ & _ & _ & _ & _ & _ & _ & X & _). cbn. eapply kl_inj; eauto.
  - intros a Ha. apply In_rd in Ha as (j & _ & Ha). destruct (garc j a Ha) as (o & s & e & j' & a' & _ & _ & Hs & Hp & _ & Ha' & Hl & El & Hd & _). change (final g) with (nstates g - 1). rewrite ng, El.
    pose proof (rd_Some_bound _ _ _ Hd). destruct HV as (_ & _ & V). destruct (V a' (rd_In _ _ _ Ha')) as (V1 & V2 & V3 & V4). change (final f) with (n - 1) in *. split; [lia|]. split; [exact V2|]. split.
    + rewrite V3. split; intros E; [apply (kl_inj _ _ (n - 1)); [rewrite <- E; exact Hd|exact kl_last]|]. rewrite E, kl_last in Hd. congruence.
    + intros E. rewrite E, kl_last in Hs. injection Hs as Hs. rewrite <- Hs in Hp. pose proof (no_leave _ _ _ Hp eq_refl) as Ee. rewrite Ee in Hp. apply apath_nil in Hp. congruence.
Qed.
Lemma path_up s p t : apath f s p t -> s <= t.
Proof. induction 1 as [s|j a p t Ha Hp IH]; [lia|]. pose proof (HT a (rd_In _ _ _ Ha)). lia. Qed.
Lemma g_top : p_topsorted_acyclic g.
Proof.
  intros a Ha. apply In_rd in Ha as (j & _ & Ha). destruct (garc j a Ha) as (o & s & e & j' & a' & _ & _ & Hs & Hp & _ & Ha' & Hl & El & Hd & _). apply path_up in Hp. pose proof (HT a' (rd_In _ _ _ Ha')).
  destruct (Z.lt_trichotomy (src a) (dst a)) as [L|[L|L]]; [exact L| |]; [rewrite L, Hd in Hs; injection Hs; lia|]. pose proof (sorted_rd kl KS _ _ _ _ Hd Hs L). lia.
Qed.

Notation back q := (concat (map (fun j => match rd der j with Some d => d | None => [] end) q)).
Lemma strip_eps e : epsp f e -> strip (lb e) = [].
Proof. unfold epsp. generalize (lb e). induction l as [|x l IH]; intros H; [reflexivity|]. cbn. rewrite (H x (or_introl eq_refl)). cbn. apply IH. intros y Hy. apply H. now right. Qed.
Lemma strip_one l : l <> 0 -> strip [l] = [l].
Proof. intros H. cbn. destruct (l =? 0) eqn:E; [lia|reflexivity]. Qed.
Lemma fwd c q c' : apath g c q c' -> forall s, rd kl c = Some s -> exists s', rd kl c' = Some s' /\ apath f s (back q) s' /\ strip (lb (back q)) = labels (arcs_at g q) /\ (reach s -> scp (back q) = score (arcs_at g q)).
Proof.
  induction 1 as [c|j a q t Ha Hp IH]; intros s Hs.
  - exists s. split; [exact Hs|]. split; [constructor|]. split; reflexivity.
  - destruct (garc j a Ha) as (o & s1 & e & j' & a' & Ho & Eo & Hs1 & X1 & X2 & X3 & X4 & X5 & X6 & X7 & X8 & _). rewrite Hs in Hs1. injection Hs1 as <-. destruct (IH _ X6) as (s' & I1 & I2 & I3 & I4).
    cbn [map concat]. rewrite Base.rd_map, Ho. cbn [option_map]. rewrite X7. set (b := concat _) in *. exists s'. split; [exact I1|].
    assert (P1 : apath f s (e ++ [j']) (dst a')) by (apply apath_app; exists (src a'); split; [exact X1|apply apath1; eauto]).
    split; [apply apath_app; exists (dst a'); split; [exact P1|exact I2]|]. rewrite !lb_app, !scp_app, !strip_app, (strip_eps e X2), (arcs_at_one f j' a' X3), (arcs_at_cons g j q a Ha), I3. split.
    + cbn [labels map]. rewrite strip_one by exact X4. rewrite <- X5. reflexivity.
    + intros R. rewrite I4; [|destruct R as (p & Hp0); exists (p ++ e ++ [j']); apply apath_app; exists s; split; [exact Hp0|exact P1]]. assert (Sa : sc a = scp e + sc a') by (rewrite Eo; unfold toarc; cbn [sc]; rewrite (X8 R); reflexivity).
      change (score (a :: arcs_at g q)) with (sc a + score (arcs_at g q)). change (score [a']) with (sc a' + 0). lia.
Qed.

Lemma bwd p : forall s t, apath f s p t -> t = n - 1 -> forall s0 e c, rd kl c = Some s0 -> apath f s0 e s -> epsp f e -> reach s0 ->
  exists q, apath g c q (K - 1) /\ labels (arcs_at g q) = strip (lb p) /\ scp e + scp p <= score (arcs_at g q).
Proof.
  intros s t H. induction H as [s|j a p t Ha Hp IH]; intros Et s0 e c Hc He Ee R.
  - subst s. destruct e as [|x e] using rev_ind.
    + apply apath_nil in He. subst s0. exists []. rewrite (kl_inj c (K - 1) (n - 1) Hc kl_last). split; [constructor|]. split; [reflexivity|]. cbn. lia.
    + clear IHe. exfalso. apply apath_app in He as (m & _ & He). apply apath1 in He as (a & Ha & _ & Hd). apply epsp_app in Ee as (_ & Ee). pose proof (proj1 (epsp_one f x a Ha) Ee). destruct HV as (_ & _ & V). destruct (V a (rd_In _ _ _ Ha)) as (_ & _ & V3 & _). apply V3 in Hd. lia.
  - rewrite (arcs_at_cons f j p a Ha). destruct (Z.eq_dec (lab a) 0) as [E0|N0].
    + destruct (IH Et s0 (e ++ [j]) c Hc) as (q & Q1 & Q2 & Q3); [apply apath_app; exists (src a); split; [exact He|apply apath1; eauto]|apply epsp_app; split; [exact Ee|now apply (epsp_one f j a Ha)]|exact R|].
      exists q. split; [exact Q1|]. split; [rewrite Q2; cbn; rewrite E0; reflexivity|]. rewrite scp_app, (arcs_at_one f j a Ha) in Q3. unfold score in *. cbn [map zsum] in *. lia.
    + destruct (gall c s0 e j a Hc He Ee Ha N0) as (j1 & a1 & X1 & X2 & X3 & X4 & X5).
      destruct (IH Et (dst a) [] (dst a1) X4) as (q & Q1 & Q2 & Q3); [constructor|intros l []|destruct R as (p0 & Hp0); exists (p0 ++ e ++ [j]); apply apath_app; exists s0; split; [exact Hp0|apply apath_app; exists (src a); split; [exact He|apply apath1; eauto]]|].
      exists (j1 :: q). split; [rewrite <- X2; constructor; [exact X1|exact Q1]|]. rewrite (arcs_at_cons g j1 q a1 X1). split.
      * change (labels (a1 :: arcs_at g q)) with ([lab a1] ++ labels (arcs_at g q)). change (labels (a :: arcs_at f p)) with ([lab a] ++ labels (arcs_at f p)). rewrite strip_app, strip_one, X3, Q2 by exact N0. reflexivity.
      * specialize (X5 R). change (score (arcs_at f [])) with 0 in Q3. change (score (a1 :: arcs_at g q)) with (sc a1 + score (arcs_at g q)). change (score (a :: arcs_at f p)) with (sc a + scp p). lia.
Qed.

Theorem g_removed : epsilon_removed f g der.
Proof.
  assert (R0 : reach 0) by (exists []; constructor).
  unfold epsilon_removed. cbv zeta. split; [|split; [rewrite allg, !zlen_map; reflexivity|split]].
  - intros a Ha. apply In_rd in Ha as (j & _ & Ha). destruct (garc j a Ha) as (o & s & e & j' & a' & _ & _ & _ & _ & _ & _ & Hl & El & _). congruence.
  - intros q (_ & Hq). rewrite ng in Hq. destruct (fwd _ _ _ Hq 0 kl_first) as (s' & F1 & F2 & F3 & F4). rewrite kl_last in F1. injection F1 as <-. split; [split; [pose proof (n2 f HV); lia|exact F2]|]. split; [exact F3|]. apply F4, R0.
  - intros p (_ & Hp). destruct (bwd p 0 _ Hp eq_refl 0 [] 0 kl_first) as (q & Q1 & Q2 & Q3); [constructor|intros l []|exact R0|]. exists q. split; [split; [rewrite ng; pose proof K2; lia|rewrite ng; exact Q1]|]. split; [exact Q2|]. cbn in Q3. exact Q3.
Qed.

Lemma g_nan k o : rd out k = Some o -> rd (all_arcs g) k = Some (toarc o) /\ (o_sc o = Some (sc (toarc o)) \/ o_sc o = None /\ ~ exists q, apath g 0 q (o_src o)) /\
  (accessible f -> o_sc o = Some (sc (toarc o))).
Proof.
  intros H. assert (X : rd (all_arcs g) k = Some (toarc o)) by (rewrite allg, Base.rd_map, H; reflexivity). split; [exact X|]. destruct (garc k _ X) as (o' & s & e & j' & a' & Ho & _ & Hs & _ & _ & _ & _ & _ & _ & _ & S1 & S2 & _). rewrite H in Ho. injection Ho as <-. cbn [src toarc] in Hs.
  assert (SX : forall x, o_sc o = Some x -> o_sc o = Some (sc (toarc o))) by (intros x Ex; unfold toarc; cbn [sc]; rewrite Ex; reflexivity).
  split.
  - destruct (o_sc o) as [x|] eqn:E; [left; apply (SX x); reflexivity|]. right. split; [reflexivity|]. intros (q & Hq). destruct (fwd _ _ _ Hq 0 kl_first) as (s' & F1 & F2 & _). rewrite Hs in F1. injection F1 as <-. assert (R : reach s) by (exists (back q); exact F2). discriminate (S1 R).
  - intros Acc. eapply SX. apply S1. apply (Acc s). apply kl_range. exact (rd_In _ _ _ Hs).
Qed.

Lemma idx_ok : (last <- rd (exsum (map zlen kept)) (zlen kept - 1);; Some (firstn (length kept) (exsum (map zlen kept)) ++ [last], concat kept)) = Some (splits_of g, out).
Proof.
  destruct (Forall2_rd _ _ _ KQ) as (L & Q). pose proof K2 as KK. destruct (row_of (K - 1) _ kl_last) as (r & Hr & Q1 & _).
  assert (Er : r = []).
  { destruct r as [|o r]; [reflexivity|]. exfalso. destruct (Q1 o (or_introl eq_refl)) as (e & j & a & X1 & _ & X3 & _). pose proof (no_leave _ _ _ X1 eq_refl) as Ee. rewrite Ee in X1. apply apath_nil in X1. destruct HV as (_ & _ & V). destruct (V a (rd_In _ _ _ X3)) as (_ & _ & _ & V4). apply V4. symmetry; exact X1. }
  subst r. assert (EK : exists k', kept = k' ++ [[]]).
  { assert (NE : kept <> []) by (intros ->; rewrite zlen_nil in L; lia). destruct (exists_last NE) as (k' & x & E). exists k'. rewrite E in *. rewrite L, zlen_app in Hr. rewrite rd_app_r in Hr by (change (zlen [x]) with 1; lia). replace (zlen k' + zlen [x] - 1 - zlen k') with 0 in Hr by (change (zlen [x]) with 1; lia). rewrite rd_cons_0 in Hr. congruence. }
  destruct EK as (k' & EK). clear Hr Q1.
  assert (SG : splits_of g = exsum (map zlen kept)). { unfold splits_of. rewrite map_map. f_equal. apply map_ext. intros r. apply zlen_map. }
  rewrite SG. rewrite EK, map_app. cbn [map]. change (zlen (@nil oarc)) with 0.
  assert (EX : exsum (map zlen k' ++ [0]) = exsum (map zlen k') ++ [zsum (map zlen k')]) by apply exsum_snoc0.
  rewrite EX. assert (LX : length (exsum (map zlen k')) = length (k' ++ [[]])) by (pose proof (zlen_exsum (map zlen k')); unfold zlen in *; rewrite map_length in *; rewrite app_length; cbn; lia).
  rewrite rd_app_l by (rewrite zlen_exsum, zlen_map, zlen_app; change (zlen [[]]) with 1; lia).
  rewrite zlen_app. change (zlen [[]]) with 1. replace (zlen k' + 1 - 1) with (zlen (map zlen k')) by (rewrite zlen_map; lia). rewrite rd_exsum_last. rewrite <- LX, firstn_app, Nat.sub_diag, firstn_all, app_nil_r. reflexivity.
Qed.
End Lang.
