(** * Best joint paths of two Levenshtein graphs are best alignments *)
From Coq Require Import ZArith List Lia Bool.
From Coq Require Import ZifyBool.
From Verif Require Import Base RaggedModel RaggedSpec RaggedProofs FsaSpec FsaLemmas GraphModel FstSpec GraphProofs LevProofs GraphProps LevAlignSpec.
Import ListNotations.
Open Scope Z_scope.

Definition colof (z : (arc * (Z * Z)) * (arc * (Z * Z))) : col :=
  mkCol (fst (snd (fst z))) (fst (snd (snd z))) (lab (fst (fst z))) (sc (fst (fst z)) + sc (fst (snd z)) - (snd (snd (fst z)) + snd (snd (snd z)))).

Lemma zip_align cs : exists ns ni, align (strip (map c_ref cs)) (strip (map c_hyp cs)) ns ni /\ ns + ni <= errors cs.
Proof.
  induction cs as [|[r y l s] cs (ns & ni & A & L)]; [exists 0, 0; split; [exact al_nil|unfold errors; cbn [filter]; rewrite zlen_nil; lia]|]. unfold errors in *. cbn [map strip filter c_ref c_hyp] in *. fold (strip (map c_ref cs)) (strip (map c_hyp cs)).
  destruct (r =? 0) eqn:R0; destruct (y =? 0) eqn:Y0; cbn [negb]; destruct (r =? y) eqn:RY; cbn [negb]; try lia; rewrite ?zlen_cons.
  - exists ns, ni. auto.
  - exists ns, (ni + 1). split; [now constructor|lia].
  - exists ns, (ni + 1). split; [now constructor|lia].
  - assert (r = y) by lia. subst. exists ns, ni. split; [now constructor|lia].
  - exists (ns + 1), ni. split; [now constructor|lia].
Qed.

Lemma filter_same {A} (P Q : A -> bool) l : (forall c, In c l -> P c = true -> Q c = true) -> zlen (filter Q l) <= zlen (filter P l) -> forall c, In c l -> Q c = true -> P c = true.
Proof.
  assert (LE : forall l', (forall c, In c l' -> P c = true -> Q c = true) -> zlen (filter P l') <= zlen (filter Q l')).
  { induction l' as [|x l' IH]; intros H; [cbn; lia|]. cbn [filter]. specialize (IH (fun c Hc => H c (or_intror Hc))). specialize (H x (or_introl eq_refl)). destruct (P x); [rewrite H by auto; rewrite !zlen_cons; lia|]. destruct (Q x); rewrite ?zlen_cons; lia. }
  induction l as [|x l IH]; intros H L c Hc0 HQ; [destruct Hc0|destruct Hc0 as [<-|Hc]].
  - cbn [filter] in L. rewrite HQ in L. destruct (P x); auto. rewrite zlen_cons in L. specialize (LE l (fun c Hc => H c (or_intror Hc))). lia.
  - apply IH; auto; [intros; apply H; auto; now right|]. cbn [filter] in L. specialize (H x (or_introl eq_refl)). destruct (P x); [rewrite H in L by auto; rewrite !zlen_cons in L; lia|]. destruct (Q x); rewrite ?zlen_cons in L; lia.
Qed.

Section L.
Variables h d : Z.
Lemma lev_last syms p : (forall a, In a syms -> a <> 0 /\ a <> -1) -> forall s, 0 <= s <= zlen syms -> tpath (concat (lev_nested h d syms)) s p (zlen syms + 1) ->
  exists p', p = p' ++ [fin_arc (zlen syms)] /\ forall b, In b p' -> lab (fst b) <> -1 /\ fst (snd b) <> -1.
Proof.
  intros HS. induction p as [|b p IH]; intros s Hs Hp; destruct (lev_step h d _ _ _ _ Hp eq_refl Hs) as (b' & p' & E & C); [discriminate|]. injection E as <- <-.
  assert (K : forall s', 0 <= s' <= zlen syms -> tpath (concat (lev_nested h d syms)) s' p (zlen syms + 1) -> lab (fst b) <> -1 /\ fst (snd b) <> -1 -> exists q, b :: p = q ++ [fin_arc (zlen syms)] /\ forall b, In b q -> lab (fst b) <> -1 /\ fst (snd b) <> -1).
  { intros s' Hs' Hp' Hb. destruct (IH s' Hs' Hp') as (q & -> & Q). exists (b :: q). split; auto. intros c [<-|Hc]; auto. }
  destruct C as [(-> & C)|[(E & -> & ->)|(c & Hc & L & B & C)]].
  - apply (K s); auto. cbn. lia.
  - subst s. exists []. split; [reflexivity|intros ? []].
  - apply (K (s + 1)); auto; [lia|]. specialize (HS c (rd_In _ _ _ Hc)). destruct B as [->| ->]; cbn; lia.
Qed.

Lemma lev_arc_net syms b : (forall a, In a syms -> a <> 0 /\ a <> -1) -> In b (concat (lev_nested h d syms)) ->
  (lab (fst b) = 0 -> sc (fst b) - snd (snd b) = - h) /\ (lab (fst b) <> 0 -> sc (fst b) - snd (snd b) = 0 /\ fst (snd b) = lab (fst b)).
Proof.
  intros HS Hb. apply lev_in in Hb as (s & Hs & [->|[(_ & ->)|(c & Hc & B)]]); [cbn; lia|cbn; lia|]. specialize (HS c (rd_In _ _ _ Hc)). destruct B as [->| ->]; cbn; lia.
Qed.

Lemma tpath_in {B} (T : list (arc * B)) p : forall s t, tpath T s p t -> forall b, In b p -> In b T.
Proof. induction p as [|x p IH]; intros s t H b Hb; [destruct Hb|]. inversion H; subst. destruct Hb as [<-|Hb]; eauto. Qed.

Lemma best_cols ref hyp p q : 0 < h -> d < 0 -> Forall (fun a => 1 <= a) ref -> Forall (fun a => 1 <= a) hyp ->
  Z.abs (d + h) * (zlen ref + zlen hyp) < 2 * h -> best_joint (lev_nested h d ref) (lev_nested h d hyp) p q ->
  aligns_best (2 * h) ref hyp (map colof (combine p q)).
Proof.
  intros Hh Hd FR FY SM BJ. assert (R1 : forall a, In a ref -> a <> 0 /\ a <> -1) by (intros a Ha; rewrite Forall_forall in FR; specialize (FR a Ha); lia). assert (R2 : forall a, In a hyp -> a <> 0 /\ a <> -1) by (intros a Ha; rewrite Forall_forall in FY; specialize (FY a Ha); lia).
  pose proof (lev_dist h d ref hyp Hh Hd R1 R2 SM p q BJ) as DIST. destruct BJ as (J & _). destruct (lev_pair h d ref hyp ltac:(lia) ltac:(lia) FR FY) as (SP & _). destruct (SP p q J) as (S1 & S2 & _). clear SP.
  destruct J as (J1 & J2 & J3). rewrite zlen_lev in J1, J2. pose proof (zlen_nonneg ref). pose proof (zlen_nonneg hyp).
  replace (zlen ref + 2 - 1) with (zlen ref + 1) in J1 by lia. replace (zlen hyp + 2 - 1) with (zlen hyp + 1) in J2 by lia.
  pose proof (tpath_in _ _ _ _ J1) as P1. pose proof (tpath_in _ _ _ _ J2) as P2.
  destruct (lev_last ref p R1 0 ltac:(lia) J1) as (p' & -> & L1). destruct (lev_last hyp q R2 0 ltac:(lia) J2) as (q' & -> & L2). clear J1 J2.
  unfold ilabels in J3. rewrite !map_app in J3. apply app_inj_tail in J3 as (J3 & _). assert (LEN : length p' = length q') by (apply (f_equal (@length Z)) in J3; now rewrite !map_length in J3).
  assert (CMB : forall (l l' : list (arc * (Z * Z))) x y, length l = length l' -> combine (l ++ [x]) (l' ++ [y]) = combine l l' ++ [(x, y)]).
  { induction l as [|a l IH]; intros [|a' l'] x y E; try discriminate; [reflexivity|]. cbn. now rewrite IH by (cbn in E; lia). }
  rewrite CMB by auto. rewrite map_app. cbn [map colof fst snd fin_arc lab sc]. replace (0 + 0 - (0 + 0)) with 0 by lia. set (body := map colof (combine p' q')). exists body. split; [reflexivity|].
  assert (CR : map c_ref body = aux1 p'). { unfold body, aux1. rewrite map_map. cbn. clear -LEN. revert q' LEN. induction p' as [|a p' IH]; intros [|b q'] E; try discriminate; [reflexivity|]. cbn. f_equal. apply IH. cbn in E. lia. }
  assert (CH : map c_hyp body = aux1 q'). { unfold body, aux1. rewrite map_map. cbn. clear -LEN. revert q' LEN. induction p' as [|a p' IH]; intros [|b q'] E; try discriminate; [reflexivity|]. cbn. f_equal. apply IH. cbn in E. lia. }
  assert (SR : strip (map c_ref body) = ref). { rewrite CR. unfold aux1 in S1. rewrite map_app in S1. unfold strip in S1. rewrite filter_app in S1. apply app_inj_tail in S1. apply S1. }
  assert (SH : strip (map c_hyp body) = hyp). { rewrite CH. unfold aux1 in S2. rewrite map_app in S2. unfold strip in S2. rewrite filter_app in S2. apply app_inj_tail in S2. apply S2. }
  assert (COLS : forall c, In c body -> (c_lab c = 0 -> c_sc c = - (2 * h)) /\ (c_lab c <> 0 -> c_sc c = 0 /\ c_ref c = c_lab c /\ c_hyp c = c_lab c)).
  { intros c Hc. apply in_map_iff in Hc as ((x, y) & <- & Hc). assert (LX : lab (fst x) = lab (fst y)). { clear -J3 Hc. revert q' J3 Hc. induction p' as [|a p' IH]; intros [|b q'] E Hc; cbn in Hc; try contradiction. cbn in E. injection E as E1 E2. destruct Hc as [Hc|Hc]; [injection Hc as -> ->; auto|]. eauto. }
    pose proof (in_combine_l _ _ _ _ Hc) as Hx. pose proof (in_combine_r _ _ _ _ Hc) as Hy. destruct (lev_arc_net ref x R1 (P1 x ltac:(apply in_app_iff; auto))) as (X1 & X2). destruct (lev_arc_net hyp y R2 (P2 y ltac:(apply in_app_iff; auto))) as (Y1 & Y2). cbn. split; intros L; lia. }
  assert (SUM : zsum (map c_sc body) = - (2 * h) * zlen (filter (fun c => c_lab c =? 0) body)).
  { clear -COLS. induction body as [|c body IH]; [cbn [map filter]; rewrite zlen_nil; change (zsum []) with 0; lia|]. cbn [map filter]. change (zsum (c_sc c :: map c_sc body)) with (c_sc c + zsum (map c_sc body)). rewrite IH by (intros; apply COLS; now right). destruct (COLS c (or_introl eq_refl)) as (C1 & C2). destruct (c_lab c =? 0) eqn:E; [rewrite C1, zlen_cons by lia; lia|rewrite (proj1 (C2 ltac:(lia))); lia]. }
  assert (TOT : zsum (map c_sc body) = - (2 * h) * levenshtein ref hyp).
  { rewrite <- DIST. unfold tscore, offs. rewrite !map_app, !zsum_app. cbn [map fin_arc fst snd sc]. change (zsum [0]) with 0. unfold body. rewrite map_map. cbn [c_sc colof]. clear -LEN. revert q' LEN. induction p' as [|a p' IH]; intros [|b q'] E; try discriminate; [reflexivity|]. cbn [combine map].
    cbn [fst snd]. specialize (IH q' ltac:(cbn in E; lia)). unfold zsum in *. cbn [fold_right]. lia. }
  assert (ZL : zlen (filter (fun c => c_lab c =? 0) body) = levenshtein ref hyp) by nia.
  assert (ERR : levenshtein ref hyp <= errors body). { destruct (zip_align body) as (ns & ni & A & L). rewrite SR, SH in A. pose proof (edit_le 1 1 ltac:(lia) ltac:(lia) _ _ _ _ A) as LE. change (edit 1 1 ref hyp) with (levenshtein ref hyp) in LE. lia. }
  assert (SUB : forall c, In c body -> negb (c_ref c =? c_hyp c) = true -> (c_lab c =? 0) = true) by (intros c Hc; destruct (COLS c Hc) as (_ & C2); lia).
  assert (SAME := filter_same (fun c => negb (c_ref c =? c_hyp c)) (fun c => c_lab c =? 0) body SUB ltac:(unfold errors in ERR; lia)). cbn beta in SAME.
  split; [exact SR|]. split; [exact SH|]. split; [|split].
  - intros c Hc. destruct (COLS c Hc) as (C1 & C2). specialize (SAME c Hc). specialize (SUB c Hc). split; intros E; [destruct (Z.eq_dec (c_lab c) 0); [lia|]; destruct (C2 n) as (? & ? & ?); lia|]. split; [lia|apply C1; lia].
  - assert (errors body <= zlen (filter (fun c => c_lab c =? 0) body)); [|lia]. unfold errors. clear -SUB. induction body as [|c body IH]; [cbn; lia|]. cbn [filter]. specialize (IH (fun c Hc => SUB c (or_intror Hc))). specialize (SUB c (or_introl eq_refl)). destruct (negb (c_ref c =? c_hyp c)); [rewrite SUB by auto; rewrite !zlen_cons; lia|]. destruct (c_lab c =? 0); rewrite ?zlen_cons; lia.
  - rewrite map_app, zsum_app, TOT. cbn. lia.
Qed.
End L.
