(** * Proofs about K2FsaFromStream. *)
From Coq Require Import ZArith List Lia Bool.
From Verif Require Import Base RaggedModel RaggedSpec FsaSpec FsaLemmas PyBase FsaTextModel FsaTextSpec FsaTextProofs RaggedOpsProofs.
Import ListNotations.
Open Scope Z_scope.

(** ** Growing an automaton by one arc *)
Definition last_used (g : nfsa) : Prop := g = [] \/ exists g0 row a, g = g0 ++ [row ++ [a]].

Lemma src_ok_pad g n : src_ok g -> src_ok (g ++ repeat [] n).
Proof.
  intros H. induction n as [|n IH]; [simpl; now rewrite app_nil_r|].
  replace (repeat (@nil arc) (S n)) with (repeat (@nil arc) n ++ [[]]).
  - rewrite app_assoc. apply src_ok_app. split; auto. intros a [].
  - symmetry. apply repeat_cons.
Qed.

Lemma concat_repeat_nil {A} n : concat (repeat (@nil A) n) = [].
Proof. induction n; auto. Qed.

Lemma grow g x : src_ok g -> last_used g -> zlen g - 1 <= src x -> 0 <= src x ->
  exists g', src_ok g' /\ concat g' = concat g ++ [x] /\ zlen g' = src x + 1 /\ last_used g'.
Proof.
  intros H HL B1 B2. destruct (Z.eq_dec (zlen g - 1) (src x)) as [E|N].
  - destruct HL as [->|(g0 & row & a & ->)]; [change (zlen (@nil (list arc))) with 0 in E; lia|].
    apply src_ok_app in H. destruct H as [H1 H2]. rewrite zlen_app in E. change (zlen [row ++ [a]]) with 1 in E.
    exists (g0 ++ [(row ++ [a]) ++ [x]]). split; [|split; [|split]].
    + apply src_ok_app. split; auto. intros b Hb. apply in_app_iff in Hb. destruct Hb as [Hb|[<-|[]]]; [auto|lia].
    + rewrite !concat_app. cbn [concat]. rewrite !app_nil_r. rewrite <- !app_assoc. reflexivity.
    + rewrite zlen_app. change (zlen [(row ++ [a]) ++ [x]]) with 1. lia.
    + right. eauto.
  - assert (Z0 : zlen g + Z.of_nat (Z.to_nat (src x - zlen g)) = src x) by (pose proof (zlen_nonneg g); lia).
    exists ((g ++ repeat [] (Z.to_nat (src x - zlen g))) ++ [[x]]). split; [|split; [|split]].
    + apply src_ok_app. split; [now apply src_ok_pad|]. intros b [<-|[]]. rewrite zlen_app, zlen_repeat. lia.
    + rewrite !concat_app, concat_repeat_nil, app_nil_r. reflexivity.
    + rewrite !zlen_app, zlen_repeat. change (zlen [[x]]) with 1. lia.
    + right. exists (g ++ repeat [] (Z.to_nat (src x - zlen g))), [], x. reflexivity.
Qed.

Lemma splits_pad A n s : 0 <= n -> n <= s -> (forall a, In a A -> src a < n) ->
  map (cnt A) (zrange n) ++ repeat (zlen A) (Z.to_nat (s - n)) = map (cnt A) (zrange s).
Proof.
  intros H1 H2 H. replace s with (n + (s - n)) at 2 by lia. rewrite zrange_app by lia. rewrite map_app, map_map. f_equal.
  apply list_ext_rd.
  - rewrite zlen_repeat, zlen_map, zlen_zrange; lia.
  - intros i B. rewrite zlen_repeat in B. rewrite rd_repeat by lia. rewrite rd_map, rd_zrange by lia. cbn [option_map].
    f_equal. symmetry. apply cnt_all. intros a Ha. apply H in Ha. lia.
Qed.

Lemma rs_step A x n : 0 <= n -> n - 1 <= src x -> 0 <= src x -> (forall a, In a A -> src a < n) ->
  map (cnt A) (zrange n) ++ repeat (zlen A) (Z.to_nat (src x + 1 - n)) = map (cnt (A ++ [x])) (zrange (src x + 1)).
Proof.
  intros H1 H2 H3 H. rewrite splits_pad by (auto; lia). apply map_ext_in. intros q Hq. apply in_zrange in Hq.
  rewrite cnt_app, (cnt_none [x]); [lia|]. intros a [<-|[]]. lia.
Qed.

(** a printed field *)
Definition pfield (v : Z) : str := print_int v ++ [32].

Lemma print_int_head v r : exists c u, print_int v ++ r = c :: u /\ cws c = false.
Proof.
  pose proof (print_int_nonempty v) as N. pose proof (print_int_no_ws v) as W. destruct (print_int v) as [|c u]; [congruence|].
  exists c, (u ++ r). split; auto. inversion W; subst. unfold is_ws in H1. unfold cws.
  repeat (apply orb_false_iff in H1; destruct H1 as [H1 ?]). lia.
Qed.

Lemma read_print_int w v r : Forall (fun c => cws c = true) w -> in32 v = true ->
  read_int (open (w ++ print_int v ++ 32 :: r)) = (v, open (32 :: r)).
Proof. intros Hw Hv. now rewrite (read_int_tok w (print_int v) v (32 :: r)) by (auto using print_int_tok; reflexivity). Qed.

Section K2.
  Variable wsf : bool.
  Variable fl : str -> option Z * str.
  Variable dbl : str -> option (option Z) * str.
  Notation k2_line := (k2_line wsf fl dbl).
  Notation k2_lines := (k2_lines wsf fl dbl).

  Lemma read_auxs_length n : forall s l s', read_auxs dbl n s = Some (l, s') -> length l = n.
  Proof.
    induction n as [|n IH]; intros s l s' H; cbn [read_auxs] in H; [injection H as <- _; auto|].
    destruct (read_double dbl s) as [v s1]. destruct v as [a|]; [|discriminate].
    destruct (read_auxs dbl n s1) as [[l1 s2]|] eqn:E; [|discriminate]. injection H as <- _. simpl. f_equal. eauto.
  Qed.

  Lemma read_rags_length n : forall s l s', read_rags wsf n s = Some (l, s') -> length l = n.
  Proof.
    induction n as [|n IH]; intros s l s' H; cbn [read_rags] in H; [injection H as <- _; auto|].
    destruct (peek (ws wsf s)) as [p s2]. destruct (match p with Some 91 => true | _ => false end); [|discriminate].
    destruct (read_char s2) as [x s3]. destruct (read_list _ _ _) as [l5 s5]. destruct (read_char s5) as [y s6].
    destruct (read_rags wsf n s6) as [[l1 s7]|] eqn:E; [|discriminate]. injection H as <- _. simpl. f_equal. eauto.
  Qed.

  (** every line accepted is blank, the final state, or an arc *)
  Lemma k2_line_inv na nr line k k' : k2_line na nr line k = Some k' ->
    k' = k \/
    (k_final k = -1 /\ exists q, 0 <= q /\ k' = mkK (k_rs k) (k_arcs k) (k_aux k) (k_rag k) (Z.max (k_max k) q) q) \/
    (k_final k = -1 /\ exists s d l score aux rags, 0 <= s /\ 0 <= d /\ length aux = na /\ length rags = nr /\
       (k_arcs k = [] \/ zlen (k_rs k) - 1 <= s) /\
       k' = mkK (k_rs k ++ repeat (zlen (k_arcs k)) (Z.to_nat (s + 1 - zlen (k_rs k))))
                (k_arcs k ++ [mkArc s d l score]) (k_aux k ++ aux) (add_rags (k_rag k) rags)
                (Z.max (k_max k) (Z.max s d)) (k_final k)).
  Proof.
    unfold FsaTextModel.k2_line. cbv zeta. intros H.
    destruct (s_eof (ws_unless_eof wsf (open line))); [injection H as <-; auto|].
    destruct (k_final k =? -1) eqn:EF; [|discriminate]. apply Z.eqb_eq in EF. right.
    destruct (read_int (ws_unless_eof wsf (open line))) as [s s2].
    destruct (s_eof (ws_unless_eof wsf s2)).
    - destruct (negb (s_fail (ws_unless_eof wsf s2)) && (0 <=? s)) eqn:E; [|discriminate].
      apply andb_true_iff in E. destruct E as [_ E]. injection H as <-. left. split; auto. exists s. split; [lia|auto].
    - destruct (read_int (ws_unless_eof wsf s2)) as [d s4]. destruct (read_int s4) as [l s5].
      destruct ((0 <=? s) && (0 <=? d)) eqn:E; [|discriminate]. apply andb_true_iff in E.
      destruct (read_auxs dbl na s5) as [[aux s6]|] eqn:EA; [|discriminate]. cbn [fst snd] in H.
      destruct (read_rags wsf nr s6) as [[rags s7]|] eqn:ER; [|discriminate]. cbn [fst snd] in H.
      set (q := if s_eof (ws wsf s7) then _ else _) in H. destruct q as [score s9].
      destruct (s_eof s9 && negb (s_fail s9)); [|discriminate].
      destruct (is_nil (k_arcs k) || (zlen (k_rs k) - 1 <=? s)) eqn:EO; [|discriminate].
      injection H as <-. right. split; auto. exists s, d, l, score, aux, rags.
      apply read_auxs_length in EA. apply read_rags_length in ER.
      repeat (split; [first [lia | assumption]|]). split; [|reflexivity].
      apply orb_true_iff in EO. destruct EO as [EO|EO]; [left|right; lia].
      destruct (k_arcs k); [auto|discriminate].
  Qed.

  (** what holds of the vectors after any number of lines *)
  Definition rag_ok (n : Z) (x : list Z * list Z) : Prop :=
    exists L : list (list Z), zlen L = n /\ fst x = splits_of L /\ snd x = concat L.
  Definition kinv (na nr : nat) (k : k2st) : Prop :=
    (exists g, src_ok g /\ last_used g /\ concat g = k_arcs k /\ k_rs k = map (cnt (k_arcs k)) (zrange (zlen g)) /\
               zlen g <= k_max k + 1) /\
    (forall a, In a (k_arcs k) -> 0 <= dst a <= k_max k) /\
    -1 <= k_max k /\
    zlen (k_aux k) = zlen (k_arcs k) * Z.of_nat na /\
    length (k_rag k) = nr /\ Forall (rag_ok (zlen (k_arcs k))) (k_rag k).

  Lemma kinv_step na nr line k k' : kinv na nr k -> k2_line na nr line k = Some k' -> kinv na nr k'.
  Proof.
    intros ((g & G1 & G2 & G3 & G4 & G5) & D & M & A & R1 & R2) H. apply k2_line_inv in H.
    destruct H as [->|[(_ & q & Hq & ->)|(_ & s & d & l & score & aux & rags & Hs & Hd & La & Lr & Ho & ->)]].
    - split; [eauto 8|auto].
    - split; [|cbn [k_arcs k_max k_aux k_rag k_rs]; repeat split; auto; try lia; intros a0 Ha0; specialize (D a0 Ha0); lia].
      exists g. cbn [k_arcs k_max k_rs]. repeat split; auto; lia.
    - assert (Lg : zlen (k_rs k) = zlen g) by (rewrite G4, zlen_map, zlen_zrange; auto; apply zlen_nonneg).
      assert (B : zlen g - 1 <= s).
      { destruct Ho as [Ho|Ho]; [|lia]. rewrite Ho in G3. destruct G2 as [->|(g0 & row & a & ->)].
        - change (zlen (@nil (list arc))) with 0. lia.
        - rewrite concat_app in G3. cbn [concat] in G3. rewrite app_nil_r, app_assoc in G3. now destruct (concat g0 ++ row). }
      destruct (grow g (mkArc s d l score) G1 G2 B Hs) as (g' & G1' & G2' & G3' & G4'). cbn [src] in G3'.
      split; [exists g'|]; cbn [k_arcs k_max k_aux k_rag k_rs].
      + split; [auto|]. split; [auto|]. split; [rewrite G2', G3; reflexivity|]. split; [|lia].
        rewrite Lg, G4, G3'. apply (rs_step (k_arcs k) (mkArc s d l score) (zlen g)); cbn [src]; auto; [apply zlen_nonneg|].
        intros a Ha. rewrite <- G3 in Ha. apply src_ok_bound in Ha; auto. lia.
      + split; [|split; [lia|split; [|split]]].
        * intros a Ha. apply in_app_iff in Ha. destruct Ha as [Ha|[<-|[]]]; [apply D in Ha; lia|cbn [dst]; lia].
        * rewrite !zlen_app, A. change (zlen [mkArc s d l score]) with 1. unfold zlen at 2. rewrite La. lia.
        * unfold add_rags. rewrite map_length, combine_length. lia.
        * unfold add_rags. apply Forall_forall. intros x Hx. apply in_map_iff in Hx. destruct Hx as ([[rs vs] ll] & <- & Hx).
          pose proof (in_combine_l _ _ _ _ Hx) as Hx1. rewrite Forall_forall in R2. destruct (R2 _ Hx1) as (L & L1 & L2 & L3).
          cbn [fst snd] in L2, L3. subst rs vs. exists (L ++ [ll]). rewrite !zlen_app. cbn [fst snd].
          change (zlen [ll]) with 1. change (zlen [mkArc s d l score]) with 1. split; [lia|].
          rewrite splits_of_snoc, concat_app. cbn [concat]. rewrite app_nil_r. auto.
  Qed.

  Lemma kinv_lines na nr ls : forall k k', kinv na nr k -> k2_lines na nr ls k = Some k' -> kinv na nr k'.
  Proof.
    induction ls as [|l ls IH]; intros k k' I H; cbn [FsaTextModel.k2_lines] in H; [injection H as <-; auto|].
    destruct (k2_line na nr l k) as [k1|] eqn:E; [|discriminate]. eapply IH; [|exact H]. eapply kinv_step; eauto.
  Qed.

  Lemma kinv_init na nr : kinv na nr (mkK [] [] [] (repeat ([0], []) nr) (-1) (-1)).
  Proof.
    split; cbn [k_arcs k_max k_aux k_rag k_rs].
    - exists []. split; [|split; [now left|split; [reflexivity|split; [reflexivity|change (zlen (@nil (list arc))) with 0; lia]]]].
      intros i st a Hi. now rewrite rd_nil in Hi.
    - split; [intros a []|]. split; [lia|]. split; [reflexivity|]. split; [apply repeat_length|].
      apply Forall_forall. intros x Hx. apply repeat_spec in Hx. subst x. exists []. repeat split.
  Qed.

  (** ** Reading a printed line *)
  Lemma ws_sp r : (match r with c :: _ => cws c = false | [] => False end) -> ws wsf (open (32 :: r)) = open r.
  Proof. intros H. change (32 :: r) with ([32] ++ r). rewrite ws_open by (auto using sp1; destruct r; auto). destruct r; [tauto|reflexivity]. Qed.

  Lemma read_auxs_print auxs tl : Forall (fun v => dbl_tok dbl (print_int v) v) auxs ->
    read_auxs dbl (length auxs) (open (32 :: concat (map pfield auxs) ++ tl)) = Some (auxs, open (32 :: tl)).
  Proof.
    induction 1 as [|v auxs H F IH]; [reflexivity|]. cbn [length read_auxs map concat].
    unfold pfield at 1. rewrite <- !app_assoc. change (32 :: print_int v ++ [32] ++ concat (map pfield auxs) ++ tl)
      with ([32] ++ print_int v ++ 32 :: concat (map pfield auxs) ++ tl).
    assert (Hh : exists c u, print_int v = c :: u /\ cws c = false)
      by (destruct (print_int_head v []) as (c & u & E & Hc); rewrite app_nil_r in E; eauto).
    rewrite (read_double_tok dbl [32] (print_int v) v) by (auto using sp1; reflexivity).
    change (mkS (32 :: concat (map pfield auxs) ++ tl) (is_nil (32 :: concat (map pfield auxs) ++ tl)) false)
      with (open (32 :: concat (map pfield auxs) ++ tl)). rewrite IH. reflexivity.
  Qed.

  Definition empty_list : str := [91; 32; 93; 32].
  Lemma read_rags_empty n tl : read_rags wsf n (open (32 :: concat (repeat empty_list n) ++ tl)) = Some (repeat [] n, open (32 :: tl)) .
  Proof.
    induction n as [|n IH]; [reflexivity|]. cbn [repeat concat]. rewrite <- app_assoc.
    set (t := concat (repeat empty_list n) ++ tl) in *.
    change (32 :: empty_list ++ t) with (32 :: 91 :: 32 :: 93 :: 32 :: t).
    cbn [read_rags]. rewrite ws_sp by reflexivity.
    change (peek (open (91 :: 32 :: 93 :: 32 :: t))) with (Some 91, open (91 :: 32 :: 93 :: 32 :: t)). cbv iota beta.
    change (read_char (open (91 :: 32 :: 93 :: 32 :: t))) with (Some 91, open (32 :: 93 :: 32 :: t)). cbv iota beta.
    rewrite ws_sp by reflexivity.
    change (read_list (S (length (s_rest (open (93 :: 32 :: t))))) (open (93 :: 32 :: t)) []) with ([] : list Z, open (93 :: 32 :: t)). cbv iota beta.
    change (read_char (open (93 :: 32 :: t))) with (Some 93, open (32 :: t)). cbv iota beta.
    rewrite IH. reflexivity.
  Qed.

  Lemma k2_line_arc auxs nr k s d l t v :
    in32 s = true -> in32 d = true -> in32 l = true -> 0 <= s -> 0 <= d ->
    Forall (fun v => dbl_tok dbl (print_int v) v) auxs -> fl_tok fl t v -> k_final k = -1 ->
    k_arcs k = [] \/ zlen (k_rs k) - 1 <= s ->
    k2_line (length auxs) nr (pfield s ++ pfield d ++ pfield l ++ concat (map pfield auxs) ++ concat (repeat empty_list nr) ++ t) k =
    Some (mkK (k_rs k ++ repeat (zlen (k_arcs k)) (Z.to_nat (s + 1 - zlen (k_rs k))))
              (k_arcs k ++ [mkArc s d l v]) (k_aux k ++ auxs) (add_rags (k_rag k) (repeat [] nr))
              (Z.max (k_max k) (Z.max s d)) (k_final k)).
  Proof.
    intros Is Id Il Hs Hd Ha Ht Hf Ho. unfold FsaTextModel.k2_line. cbv zeta.
    set (T := concat (map pfield auxs) ++ concat (repeat empty_list nr) ++ t).
    replace (pfield s ++ pfield d ++ pfield l ++ T) with (print_int s ++ 32 :: print_int d ++ 32 :: print_int l ++ 32 :: T)
      by (unfold pfield; rewrite <- !app_assoc; reflexivity).
    set (L3 := print_int l ++ 32 :: T). set (L2 := print_int d ++ 32 :: L3).
    assert (E1 : ws_unless_eof wsf (open (print_int s ++ 32 :: L2)) = open (print_int s ++ 32 :: L2)).
    { unfold ws_unless_eof. cbn [open s_eof]. destruct (print_int_head s (32 :: L2)) as (c & u & -> & Hc).
      change (c :: u) with ([] ++ c :: u) at 1. now rewrite ws_open by auto. }
    rewrite E1. cbn [s_eof open]. rewrite Hf, Z.eqb_refl.
    change (open (print_int s ++ 32 :: L2)) with (open ([] ++ print_int s ++ 32 :: L2)). rewrite read_print_int by auto.
    assert (E2 : ws_unless_eof wsf (open (32 :: L2)) = open L2).
    { unfold ws_unless_eof. cbn [open s_eof]. apply ws_sp. destruct (print_int_head d (32 :: L3)) as (c & u & E & Hc). unfold L2. now rewrite E. }
    rewrite E2. cbn [s_eof open].
    change (open L2) with (open ([] ++ L2)). unfold L2. rewrite read_print_int by auto.
    change (open (32 :: L3)) with (open ([32] ++ L3)). unfold L3. rewrite read_print_int by (auto using sp1).
    replace ((0 <=? s) && (0 <=? d)) with true by (symmetry; apply andb_true_iff; lia). cbv iota.
    unfold T. rewrite read_auxs_print by auto. cbn [fst snd]. rewrite read_rags_empty. cbn [fst snd].
    destruct Ht as ((c & u & -> & Hc) & Ht). rewrite ws_sp by auto. cbn [s_eof open].
    assert (E3 : read_float fl (open (c :: u)) = (v, mkS [] true false)).
    { change (open (c :: u)) with (open ([] ++ c :: u)). rewrite <- (app_nil_r (c :: u)) at 1.
      rewrite (read_float_tok fl [] (c :: u) v []); simpl; auto. split; eauto. }
    change (mkS (c :: u) false false) with (open (c :: u)). rewrite E3. cbn [ws_unless_eof s_eof s_fail negb andb]. cbv iota.
    replace (is_nil (k_arcs k) || (zlen (k_rs k) - 1 <=? s)) with true; [reflexivity|].
    symmetry. apply orb_true_iff. destruct Ho as [->|Ho]; [now left|right; lia].
  Qed.

  Lemma k2_line_final na nr k q : in32 q = true -> 0 <= q -> k_final k = -1 ->
    k2_line na nr (print_int q) k = Some (mkK (k_rs k) (k_arcs k) (k_aux k) (k_rag k) (Z.max (k_max k) q) q).
  Proof.
    intros Iq Hq Hf. unfold FsaTextModel.k2_line. cbv zeta.
    assert (E1 : ws_unless_eof wsf (open (print_int q)) = open (print_int q)).
    { unfold ws_unless_eof. cbn [open s_eof]. destruct (print_int_head q []) as (c & u & E & Hc). rewrite app_nil_r in E. rewrite E.
      change (c :: u) with ([] ++ c :: u) at 1. now rewrite ws_open by auto. }
    rewrite E1. cbn [s_eof open]. rewrite Hf, Z.eqb_refl.
    rewrite <- (app_nil_r (print_int q)). change (open (print_int q ++ [])) with (open ([] ++ print_int q ++ [])).
    rewrite (read_int_tok [] (print_int q) q []) by (simpl; auto using print_int_tok).
    cbn [is_nil ws_unless_eof s_eof s_fail negb andb]. replace (0 <=? q) with true by lia. reflexivity.
  Qed.

  Lemma k2_line_blank na nr k : k2_line na nr [] k = Some k.
  Proof. reflexivity. Qed.

  Lemma k2_lines_app na nr l1 : forall l2 k, k2_lines na nr (l1 ++ l2) k = (k' <- k2_lines na nr l1 k;; k2_lines na nr l2 k').
  Proof.
    induction l1 as [|l l1 IH]; intros l2 k; [reflexivity|]. cbn [app FsaTextModel.k2_lines].
    destruct (k2_line na nr l k); auto.
  Qed.
End K2.
