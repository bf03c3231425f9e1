(** * FormatOutput for all streams *)
From Coq Require Import ZArith List Lia Bool Permutation Sorted.
From Coq Require Import ZifyBool ZifyNat.
From Verif Require Import Base RaggedModel RaggedSpec RaggedProofs FsaSpec FsaLemmas RaggedOpsModel OpsModel RaggedOpsProofs RaggedListProofs ScoreSpec ShortestSpec IDenseModel IDenseSpec IDensePaths
  RnntDecModel RnntDecSpec RnntDecList RnntDecGroup RnntDecArith RnntDecStep RnntDecSession RnntDecLattice.
From Verif Require DetInv IPrunedOut IPrunedPath IDenseInit.
Import ListNotations.
Open Scope Z_scope.

Lemma in_path f q : forall s e j, apath f s q e -> In j q -> 0 <= j < zlen (all_arcs f).
Proof.
  induction q as [|k q IH]; intros s e j Hq Hj; [easy|]. apply ap_cons_inv in Hq as (a & Ha & _ & Hr). destruct Hj as [<-|Hj]; [eapply rd_Some_bound; eauto|eauto].
Qed.
Lemma is_lattice_ext f V h b ms mc net partial T g am am' : (forall i, 0 <= i < zlen (all_arcs g) -> am i = am' i) ->
  is_lattice f V h b ms mc net partial T g am -> is_lattice f V h b ms mc net partial T g am'.
Proof.
  intros E (A & B & C). assert (M : forall q, successful g q -> map am' q = map am q). { intros q (_ & Hq). apply map_ext_in. intros j Hj. symmetry. apply E. eapply in_path; eauto. }
  split; [exact A|]. split.
  - intros q Hq. rewrite (M q Hq). apply B. exact Hq.
  - intros U p Zp G HE. destruct (C U p Zp G HE) as (q & ((j & Hq) & Mq) & UQ). assert (M' : forall q, (exists j, successful g (q ++ [j])) -> map am' q = map am q). { intros q' (j' & Hj'). apply M in Hj'. rewrite !map_app in Hj'. cbn [map] in Hj'. now apply app_inj_tail in Hj' as (-> & _). }
    exists q. split; [split; [eauto|rewrite M' by eauto; exact Mq]|]. intros q' (Hq' & Mq'). apply UQ. split; [exact Hq'|]. rewrite <- M'; assumption.
Qed.

Lemma snoc_rd {A} (l : list A) : 1 <= zlen l -> exists y, rd l (zlen l - 1) = Some y /\ l = removelast l ++ [y].
Proof.
  intros Hl. assert (N : l <> []) by (intros ->; discriminate Hl || (rewrite zlen_nil in Hl; lia)). destruct (exists_last N) as (l' & y & ->). exists y. rewrite removelast_last. split; [|reflexivity]. rewrite zlen_app, zlen_cons, zlen_nil. rewrite rd_app_r by lia. replace (zlen l' + (1 + 0) - 1 - zlen l') with 0 by lia. apply rd_cons_0.
Qed.
Lemma off1_pad {A} m (C : list (list A)) t : 0 <= t -> off1 (repeat [] m ++ C) (Z.of_nat m + t) = off1 C t.
Proof.
  intros Ht. unfold off1. rewrite firstn_app, repeat_length. rewrite firstn_all2 by (rewrite repeat_length; lia). replace (Z.to_nat (Z.of_nat m + t) - m)%nat with (Z.to_nat t) by lia. rewrite concat_app. replace (concat (repeat (@nil A) m)) with (@nil A); [reflexivity|]. clear. induction m; cbn; congruence.
Qed.
Lemma cols_eq fs partial y : 1 <= zlen fs -> rd fs (zlen fs - 1) = Some y -> map (@concat (list ainf)) (removelast fs ++ [final_frame partial y]) = cols fs partial.
Proof.
  intros HT Hy. destruct (snoc_rd fs HT) as (y' & Hy' & E). assert (y' = y) as -> by congruence. unfold cols. rewrite E at 2. rewrite imap_app, map_app. assert (Z1 : zlen fs = zlen (removelast fs) + 1) by (rewrite E at 1; rewrite zlen_app, zlen_cons, zlen_nil; lia). f_equal.
  - rewrite (imap_ext _ (fun _ fr => concat fr)); [now rewrite IPrunedOut.imap_map|]. intros i x Hi. apply rd_Some_bound in Hi. replace (0 + i =? zlen fs - 1) with false by lia. reflexivity.
  - cbn [imap map]. replace (0 + zlen (removelast fs) =? zlen fs - 1) with true by lia. f_equal. unfold final_frame, keepf, hasf. rewrite Hy. rewrite concat_map. reflexivity.
Qed.

Section Str.
Context (f : nfsa) (c : rcfg) (net : Z -> list Z -> list Z).
Hypothesis Hf : valid f.
Hypothesis HV : 1 <= r_vocab c.
Hypothesis Hh : 1 <= r_hist c.
Hypothesis Hlab : forall a, In a (all_arcs f) -> lab a < r_vocab c.
Context (fs : list frame) (H : list (list (list (Z * Z)))) (partial : bool).
Notation T := (zlen fs).
Hypothesis HT : 1 <= T.
Hypothesis HL : zlen H = T + 1.
Hypothesis H0 : rd H 0 = Some [[(0, 0)]].
Hypothesis HO : forall t st, rd H t = Some st -> okS f c net t st.
Hypothesis HS : forall t fr st st', rd fs t = Some fr -> rd H t = Some st -> rd H (t + 1) = Some st' -> stepR f c net t (concat st) (concat fr) (concat st').
Notation CC := (cols fs partial).

Lemma stream_lattice_ok m : stream_lattice partial (flat f) (repeat [] m ++ fs) = Some (lat fs partial).
Proof.
  destruct (snoc_rd fs HT) as (y & Hy & Efs). set (all0 := removelast fs ++ [final_frame partial y]). assert (Zr : zlen (@repeat frame [] m) = Z.of_nat m) by (unfold zlen; now rewrite repeat_length).
  pose proof (cols_eq fs partial y HT Hy) as EC. fold all0 in EC. assert (Z0 : zlen all0 = T) by (rewrite <- (zlen_map (@concat (list ainf))), EC; apply zcols).
  unfold stream_lattice. rewrite zlen_app, Zr. rewrite rd_app_r by lia. rewrite Zr. replace (Z.of_nat m + T - 1 - Z.of_nat m) with (T - 1) by lia. rewrite Hy. rewrite removelast_app by (intros X; rewrite X in HT; rewrite zlen_nil in HT; lia). rewrite <- app_assoc. fold all0. set (all := repeat [] m ++ all0).
  assert (Za : zlen all = Z.of_nat m + T) by (unfold all; rewrite zlen_app, Zr, Z0; reflexivity).
  assert (Eo : exsum (map (fun f : frame => zlen (concat f)) all) = splits_of (repeat [] m ++ CC)).
  { rewrite <- (map_map (@concat (list ainf)) zlen). unfold all. rewrite map_app, EC, IPrunedOut.map_rep. reflexivity. }
  rewrite Eo. rewrite <- Za.
  set (G := fun t (fr : frame) => imap (fun j row => map (oa fs partial (t - Z.of_nat m) j) row) 0 (concat fr)).
  rewrite (IPrunedOut.mapM_zr _ G).
  - f_equal. unfold lat, W. f_equal. unfold all. rewrite imap_app, concat_app, Zr. replace (concat (imap G 0 (repeat [] m))) with (@nil (list (arc * Z))).
    + cbn [app]. f_equal. rewrite <- EC. rewrite Z.add_0_l. assert (K : forall (l : list frame) o, imap G (Z.of_nat m + o) l = imap (fun t (col : list (list ainf)) => imap (fun j row => map (oa fs partial t j) row) 0 col) o (map (@concat (list ainf)) l)).
      { clear. induction l as [|x l IH]; intros o; [reflexivity|]. cbn [imap map]. f_equal; [unfold G; now replace (Z.of_nat m + o - Z.of_nat m) with o by lia|]. rewrite <- IH. f_equal. lia. }
      rewrite <- K. f_equal. lia.
    + assert (GN : forall t, G t [] = []) by reflexivity. clear -GN. revert GN. generalize 0 G. induction m as [|k IH]; intros o G' GN; [reflexivity|]. cbn [repeat imap concat]. rewrite GN. cbn [app]. apply IH, GN.
  - intros t fr Ht. pose proof (rd_Some_bound _ _ _ Ht) as Bt. rewrite Ht. assert (Zc : zlen (@repeat (list (list ainf)) [] m ++ CC) = zlen all) by (rewrite zlen_app, zcols, Za; unfold zlen at 1; rewrite repeat_length; reflexivity).
    rewrite !rd_splits_off by lia. unfold G.
    destruct (Z_lt_ge_dec t (Z.of_nat m)) as [L|L]. { unfold all in Ht. rewrite rd_app_l in Ht by lia. apply rd_In, repeat_spec in Ht. subst fr. reflexivity. }
    unfold all in Ht. rewrite rd_app_r in Ht by lia. rewrite Zr in Ht. set (u := t - Z.of_nat m) in *. assert (Hc : rd CC u = Some (concat fr)) by (rewrite <- EC, rd_map, Ht; reflexivity).
    replace t with (Z.of_nat m + u) by (unfold u; lia). rewrite <- Z.add_assoc, !off1_pad by (unfold u; lia).
    apply IPrunedOut.mapM_zr. intros j row Hj. rewrite Hj. destruct (stt_of_col f c net fs H partial HL HO HS _ _ _ _ Hc Hj) as (v & x & frow & S). rewrite (mapM_Some_map _ (oa fs partial u j)); [reflexivity|]. intros a Ha. rewrite Za. unfold oa. destruct (Z.eqb_spec u (T - 1)) as [E|E].
    { replace (Z.of_nat m + u =? Z.of_nat m + T - 1) with true by lia. replace (u + 1) with T by lia. reflexivity. }
    replace (Z.of_nat m + u =? Z.of_nat m + T - 1) with false by lia. destruct (row_frow fs H partial _ _ _ _ _ _ _ S Ha) as (Hy' & _). destruct (stt_arc f c net fs H partial HL HO HS _ _ _ _ _ _ _ S Hy') as (st' & v' & x' & _ & LL & _).
    assert (EL : (if (x_arc a =? -1) || (x_lab a =? -1) then Some 0 else b <- rd (arcs (flat f)) (x_arc a);; Some (lab b)) = Some (ol a)).
    { unfold ol. destruct LL as [(-> & -> & _)|(b & B1 & _ & -> & _)]; [reflexivity|]. pose proof (rd_Some_bound _ _ _ B1). replace (x_arc a =? -1) with false by lia. cbn [orb]. destruct (lab b =? -1); [reflexivity|]. change (arcs (flat f)) with (all_arcs f). now rewrite B1. }
    rewrite EL. reflexivity.
Qed.
End Str.

Section Prefix.
Context (F : Z -> nfsa) (c : rcfg) (net : Z -> Z -> list Z -> list Z).
Lemma hist_prefix k fs H m : hist F c net k fs H -> 0 <= m <= zlen fs -> hist F c net k (firstn (Z.to_nat m) fs) (firstn (Z.to_nat (m + 1)) H).
Proof.
  intros [A B C D] Hm. assert (Z1 : zlen (firstn (Z.to_nat m) fs) = m) by (unfold zlen in *; rewrite firstn_length; lia). assert (Z2 : zlen (firstn (Z.to_nat (m + 1)) H) = m + 1) by (unfold zlen in *; rewrite firstn_length; lia).
  assert (R : forall t st, rd (firstn (Z.to_nat (m + 1)) H) t = Some st -> rd H t = Some st) by (intros t st E; pose proof (rd_Some_bound _ _ _ E); rewrite IDenseInit.rd_first in E by lia; exact E). split.
  - lia.
  - rewrite IDenseInit.rd_first by lia. exact B.
  - intros t st E. apply C. auto.
  - intros t fr st st' E1 E2 E3. apply (D t); auto. pose proof (rd_Some_bound _ _ _ E1). rewrite IDenseInit.rd_first in E1 by lia. exact E1.
Qed.
End Prefix.

Section Fmt.
Context (F : Z -> nfsa) (c : rcfg) (net : Z -> Z -> list Z -> list Z) (partial : bool).
Hypothesis HV : 1 <= r_vocab c.
Hypothesis Hh : 1 <= r_hist c.
Context (ss : list stream) (nums : list Z).
Hypothesis Zn : zlen nums = zlen ss.
Hypothesis Hss : forall i s nf, rd ss i = Some s -> rd nums i = Some nf -> 1 <= nf <= zlen (s_frames s) /\ exists k, gok F c k /\ sinv F c net k s.
Definition cutf (p : stream * Z) : list frame := firstn (Z.to_nat (snd p)) (s_frames (fst p)).
Definition LL : list (list (list (arc * Z))) := map (fun p => lat (cutf p) partial) (combine ss nums).
Definition gsL : list nfsa := map (map (map fst)) LL.
Lemma map_fst_combine : map fst (combine ss nums) = ss.
Proof.
  assert (E : length nums = length ss) by (unfold zlen in Zn; lia). clear Zn Hss. revert nums E. induction ss as [|s l IH]; intros [|x nums'] E; try discriminate; [reflexivity|]. cbn. f_equal. apply IH. cbn in E. lia.
Qed.
Lemma rd_comb i p : rd (combine ss nums) i = Some p -> rd ss i = Some (fst p) /\ rd nums i = Some (snd p).
Proof.
  intros E. assert (El : length nums = length ss) by (unfold zlen in Zn; lia). assert (map snd (combine ss nums) = nums) as E2. { clear -El. revert nums El. induction ss as [|s l IH]; intros [|x nums'] E; try discriminate; [reflexivity|]. cbn. f_equal. apply IH. cbn in E. lia. }
  split; [rewrite <- map_fst_combine|rewrite <- E2 at 1]; rewrite rd_map, E; reflexivity.
Qed.
Lemma comb_ok i p : rd (combine ss nums) i = Some p -> zlen (cutf p) = snd p /\ 1 <= snd p <= zlen (s_frames (fst p)) /\ exists k H, s_graph (fst p) = flat (F k) /\ gok F c k /\ hist F c net k (cutf p) H.
Proof.
  intros E. destruct (rd_comb _ _ E) as (E1 & E2). destruct (Hss _ _ _ E1 E2) as (B & k & G & (S1 & H & S2 & _)). split; [unfold cutf, zlen in *; rewrite firstn_length; lia|]. split; [exact B|]. exists k, (firstn (Z.to_nat (snd p + 1)) H). split; [exact S1|]. split; [exact G|]. apply hist_prefix; [exact S2|lia].
Qed.
Lemma format_ok : format_output partial ss nums = Some (flat_vec gsL, map snd (concat (concat LL))).
Proof.
  unfold format_output, gather. rewrite Zn, Z.eqb_refl. rewrite (mapM_Some_map _ cutf).
  2:{ intros p Hp. apply In_rd in Hp as (i & _ & Hp). destruct (comb_ok _ _ Hp) as (_ & B & _). replace (snd p <=? zlen (s_frames (fst p))) with true by lia. reflexivity. }
  set (TT := fold_right Z.max 0 (map zlen (map cutf (combine ss nums)))). rewrite map_map. rewrite <- map_fst_combine at 1. rewrite IPrunedOut.combine_maps. rewrite mapM_map.
  rewrite (mapM_Some_map _ (fun p => lat (cutf p) partial)).
  - cbn [fst snd]. fold LL. unfold flat_vec, gsL. f_equal. f_equal. f_equal.
    + unfold splits_of. rewrite map_map. f_equal. apply map_ext. intros l. now rewrite zlen_map.
    + unfold splits_of. rewrite <- concat_map, map_map. f_equal. apply map_ext. intros l. now rewrite zlen_map.
    + rewrite <- concat_map, <- concat_map. reflexivity.
  - intros p Hp. apply In_rd in Hp as (i & _ & Hp). destruct (comb_ok _ _ Hp) as (Zc & B & k & H & S1 & (G1 & G2) & [A1 A2 A3 A4]). cbn [fst snd]. rewrite S1. eapply (stream_lattice_ok (F k) c (net k)); eauto. lia.
Qed.
Lemma lattices_ok : zlen gsL = zlen ss /\ zlen (map snd (concat (concat LL))) = zlen (concat (concat gsL)) /\ forall i s nf g k, rd ss i = Some s -> rd nums i = Some nf -> rd gsL i = Some g -> gok F c k -> sinv F c net k s ->
  is_lattice (F k) (r_vocab c) (r_hist c) (r_beam c) (r_maxs c) (r_maxc c) (net k) partial nf g (fun j => at0 (map snd (concat (concat LL))) (arcs_before gsL i + j)).
Proof.
  split; [unfold gsL, LL; rewrite !zlen_map; rewrite <- map_fst_combine at 2; now rewrite zlen_map|]. split; [unfold gsL; rewrite zlen_map, <- !concat_map, zlen_map; reflexivity|].
  intros i s nf g k Hs Hn Hg (G1 & G2) (S1 & H & S2 & _). unfold gsL, LL in Hg. rewrite !rd_map in Hg. destruct (rd (combine ss nums) i) as [p|] eqn:Ep; [|discriminate]. cbn [option_map] in Hg. injection Hg as Eg. destruct (rd_comb _ _ Ep) as (E1 & E2). assert (fst p = s) as Es by congruence. assert (snd p = nf) as En by congruence.
  destruct (comb_ok _ _ Ep) as (Zc & B & _). pose proof (hist_prefix F c net k _ _ nf S2 ltac:(rewrite <- En, <- Es; lia)) as [A1 A2 A3 A4]. assert (EC : cutf p = firstn (Z.to_nat nf) (s_frames s)) by (unfold cutf; now rewrite Es, En). rewrite <- EC in *. rewrite <- En at 1. rewrite <- Zc. rewrite <- Eg.
  eapply is_lattice_ext; [|apply (lattice_ok (F k) c (net k) G1 HV Hh G2 (cutf p) _ partial ltac:(lia) A1 A2 A3 A4)].
  intros j Hj. unfold lam, at0. rewrite rd_map. unfold lg in Hj. unfold all_arcs in Hj. rewrite <- concat_map, zlen_map in Hj. destruct (rd_in_bound _ _ Hj) as (o & Ho). rewrite Ho.
  assert (HL : rd LL i = Some (lat (cutf p) partial)) by (unfold LL; rewrite rd_map, Ep; reflexivity).
  assert (EA : arcs_before gsL i = off1 (map (@concat (arc * Z)) LL) i). { unfold arcs_before, off1, gsL. rewrite firstn_map, map_map. rewrite firstn_map. unfold all_arcs. rewrite (map_ext _ (fun l => map fst (concat l))) by (intros l; now rewrite concat_map). rewrite <- (map_map (@concat (arc * Z)) (map fst)), <- concat_map, zlen_map. reflexivity. }
  rewrite EA. replace (concat (concat LL)) with (concat (map (@concat (arc * Z)) LL)) by (clear; induction LL as [|l ll IH]; cbn; [reflexivity|now rewrite IH, concat_app]).
  destruct (rd_concat_off (map (@concat (arc * Z)) LL) i (concat (lat (cutf p) partial)) j o) as (X & _); [rewrite rd_map, HL; reflexivity|exact Ho|]. rewrite X. reflexivity.
Qed.
End Fmt.
