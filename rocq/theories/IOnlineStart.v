(** * A batch of streams: how their frames are put together *)
From Coq Require Import ZArith List Lia Bool QArith Permutation Lqa.
From Coq Require Import ZifyBool ZifyNat.
From Verif Require Import Base RaggedModel RaggedSpec RaggedProofs FsaSpec FsaLemmas RaggedOpsModel OpsModel RaggedOpsProofs ConnectProofs ScoreSpec ScorePaths IDenseModel IDenseSpec IPrunedModel IPrunedNest IPrunedCut IPrunedMerge IPrunedFwd IPrunedCol IPrunedInv IPrunedPrune IPrunedAlive IPrunedRun IPrunedSpec IPrunedOut IPrunedOne IPrunedAll IDevModel IOnlineModel IOnlineSpec IOnlineCol IOnlinePr IOnlineFin IOnlineBatch.
Import ListNotations.
Open Scope Z_scope.

Lemma map_const {X Y} (y : Y) (l : list X) : map (fun _ => y) l = repeat y (length l).
Proof. induction l; cbn; congruence. Qed.
Lemma ids_imap {X} (ll : list (list X)) i : concat (imap (fun k q => map (fun _ => k) q) i ll) = ids_from i ll.
Proof. revert i. induction ll as [|l ll IH]; intros i; cbn; [reflexivity|]. now rewrite IH, map_const. Qed.
Lemma frame_isA N : isA (frame_of N) N.
Proof. split; [split|..]; unfold frame_of, rows; cbn; try reflexivity; unfold ids_of; now rewrite ids_imap. Qed.

Lemma rd_repeat_in {X} (x : X) d i : 0 <= i < Z.of_nat d -> rd (repeat x d) i = Some x.
Proof. intros H. pose proof (rd_pad_l x d [] i H) as E. now rewrite app_nil_r in E. Qed.
Lemma filter_pad {X} d (H : list (list X)) : (forall q, In q H -> q <> []) -> filter nonempty (repeat [] d ++ H) = H.
Proof.
  intros HH. induction d as [|d IH]; cbn; [|exact IH]. induction H as [|q H IH]; cbn; [reflexivity|]. destruct q; [exfalso; now apply (HH []); [left|]|]. cbn. f_equal. apply IH. intros q1 Hq. apply HH. now right.
Qed.
Lemma fold_max_le_in (l : list Z) x : In x l -> x <= fold_right Z.max 0 l.
Proof. induction l as [|y l IH]; cbn; [easy|]. intros [->|H]; [lia|]. specialize (IH H). lia. Qed.

Definition bareC (col : list nst) : list nst := map (fun x => (fst x, [])) col.

Section Start.
Context (f : nfsa) (cols stride sb ob mina maxa : Z) (partial : bool).
Hypothesis Vf : valid f.
Hypothesis Lf : forall a, In a (all_arcs f) -> lab a < cols - 1.
Hypothesis Hcs : cols <= stride.
Hypothesis Hsb : 0 < sb.
Hypothesis Hob : 0 < ob.
Hypothesis Hmm : 0 <= mina < maxa.
Notation sinv := (sinv f cols stride sb ob mina maxa partial).
Notation binv := (binv f cols stride sb ob mina maxa partial).

(** what a stream is after the frames [real] *)
Definition stok (real : frames) (st : stream) : Prop :=
  exists d ini lastc, st_cols st = repeat [] d ++ ini ++ [lastc] /\ sinv real (ini ++ [bareC lastc]) (zlen real) (st_beam st).

Lemma stok_new c : c_sbeam c = sb -> stok [] (new_stream c).
Proof.
  intros E. exists O, [], [(mkS 0 (Some 0) None, [mkA 0 None 0 None])]. split; [reflexivity|]. cbn [new_stream st_beam]. rewrite E. change (zlen (@nil (list (option Z)))) with 0. apply (sinv_start f cols stride sb ob mina maxa partial Vf Lf Hsb Hmm). apply Qle_refl.
Qed.

Definition hcols (st : stream) := filter nonempty (st_cols st).
Lemma stok_cols real st : stok real st -> exists ini lastc, hcols st = ini ++ [lastc] /\ zlen ini = zlen real /\ sinv real (ini ++ [bareC lastc]) (zlen real) (st_beam st).
Proof.
  intros (d & ini & lastc & E & SI). exists ini, lastc. pose proof (si_len _ _ _ _ _ _ _ _ _ _ _ _ SI) as ZL. rewrite zlen_app, zlen_cons, zlen_nil in ZL. split; [|split; [lia|exact SI]]. unfold hcols. rewrite E. apply filter_pad. intros q Hq.
  apply in_app_or in Hq as [Hq|[<-|[]]].
  - apply In_rd in Hq as (i & Bi & Hi). apply (sinv_ne _ _ _ _ _ _ _ _ _ _ _ _ SI i). rewrite rd_app_l by lia. exact Hi.
  - intros ->. apply (sinv_ne _ _ _ _ _ _ _ _ _ _ _ _ SI (zlen ini) (bareC [])); [|reflexivity]. rewrite rd_app_r by lia. rewrite Z.sub_diag. apply rd_cons_0.
Qed.

Context (seqs : list frames) (real : Z -> frames) (sts : list stream) (h : hmap).
Hypothesis Hn : 0 < zlen seqs.
Hypothesis Zs : zlen sts = zlen seqs.
Hypothesis HS : forall k st, rd sts k = Some st -> stok (real k) st.
Hypothesis Hh : forall q, hfind h q = None.
Notation S0 := (stack_streams sts).
Notation T0 := (zlen S0 - 1).
Notation L := (fold_right Z.max 0 (map zlen (map hcols sts))).

Lemma zlen_stack : zlen S0 = L.
Proof. unfold stack_streams. fold hcols. rewrite zlen_map, zlen_zrange; [reflexivity|]. generalize (map zlen (map hcols sts)). intros l. induction l as [|y l IH]; cbn; lia. Qed.
Lemma stack_bound k : 0 <= k < zlen seqs -> zlen (real k) <= T0.
Proof.
  intros Hk. destruct (rd_in_bound sts k) as (st & Hst); [lia|]. destruct (stok_cols _ _ (HS _ _ Hst)) as (ini & lastc & E & Z1 & _). rewrite zlen_stack.
  assert (X : In (zlen (hcols st)) (map zlen (map hcols sts))) by (rewrite map_map; apply in_map_iff; exists st; eauto using rd_In). apply fold_max_le_in in X. rewrite E, zlen_app, zlen_cons, zlen_nil in X. lia.
Qed.
Lemma stack_col k st : rd sts k = Some st -> map (colk k) S0 = repeat [] (Z.to_nat (L - zlen (hcols st))) ++ hcols st.
Proof.
  intros Hst. assert (X : zlen (hcols st) <= L) by (apply fold_max_le_in; rewrite map_map; apply in_map_iff; exists st; eauto using rd_In).
  pose proof (zlen_nonneg (hcols st)) as Z1. assert (Zrep : forall d, zlen (repeat (@nil nst) d) = Z.of_nat d) by (intros; unfold zlen; now rewrite repeat_length). apply list_ext_rd; [rewrite zlen_map, zlen_stack, zlen_app, Zrep; lia|]. intros i Hi. rewrite zlen_map, zlen_stack in Hi.
  rewrite rd_map. unfold stack_streams at 1. cbv zeta. change (map (fun s => filter nonempty (st_cols s)) sts) with (map hcols sts). rewrite rd_map, rd_zrange by lia. cbn [option_map]. unfold colk. rewrite !rd_map, Hst. cbn [option_map].
  destruct (Z_lt_le_dec i (L - zlen (hcols st))).
  - rewrite rd_pad_l by lia. destruct (rd (hcols st) (i - (L - zlen (hcols st)))) eqn:E; [apply rd_Some_bound in E; lia|reflexivity].
  - destruct (rd_in_bound (hcols st) (i - (L - zlen (hcols st)))) as (q & Hq); [lia|]. rewrite Hq. rewrite <- Hq. rewrite <- (rd_pad [] (Z.to_nat (L - zlen (hcols st))) (hcols st) (i - (L - zlen (hcols st)))) by lia. f_equal. lia.
Qed.
Lemma stack_width N : In N S0 -> zlen N = zlen seqs.
Proof. intros HN. unfold stack_streams in HN. apply in_map_iff in HN as (i & <- & _). rewrite !zlen_map. exact Zs. Qed.

Lemma start_batch chunk : 0 <= chunk -> exists Ns, binv seqs real chunk T0 (fun k => zlen (real k)) 0 (map frame_of S0) Ns (map st_beam sts) h.
Proof.
  intros Hc. assert (HT : 0 <= T0) by (pose proof (stack_bound 0 ltac:(lia)); pose proof (zlen_nonneg (real 0)); lia).
  destruct (rd_last S0) as (NL & HNL & ES); [intros E; rewrite E, zlen_nil in HT; lia|]. exists (removelast S0 ++ [map bareC NL]).
  assert (Zr : zlen (removelast S0) = T0) by (rewrite zlen_removelast; lia).
  assert (cases : forall i N, rd (removelast S0 ++ [map bareC NL]) i = Some N -> (i < T0 /\ rd S0 i = Some N) \/ (i = T0 /\ N = map bareC NL)).
  { intros i N HN. pose proof (rd_Some_bound _ _ _ HN) as B. rewrite zlen_app, zlen_cons, zlen_nil, Zr in B. rewrite rd_app, Zr in HN. destruct (Z.ltb_spec i T0); [left; rewrite rd_removelast in HN by lia; auto|right]. assert (i = T0) as -> by lia. rewrite Z.sub_diag, rd_cons_0 in HN. injection HN as <-. auto. }
  split.
  - lia.
  - rewrite zlen_map. lia.
  - rewrite zlen_app, zlen_cons, zlen_nil. lia.
  - intros i g N Hg HN. rewrite rd_map in Hg. destruct (cases i N HN) as [(D & E)|(-> & ->)].
    + rewrite E in Hg. injection Hg as <-. pose proof (frame_isA N) as X. split; [apply X|auto].
    + rewrite HNL in Hg. injection Hg as <-. split; [|lia]. destruct (frame_isA NL) as [[A1 A2 A3] _ _ _].
      assert (Em : map zlen (map bareC NL) = map zlen NL) by (rewrite map_map; apply map_ext; intros; unfold bareC; now rewrite zlen_map). destruct (IDevCore.same_sizes _ _ Em) as (Es & Ei). split; [now rewrite A1, Es|now rewrite A2, Ei|]. rewrite A3, !concat_map, !map_map. f_equal. apply map_ext. intros q. unfold bareC. rewrite map_map. apply map_ext. reflexivity.
  - intros N HN. apply in_app_or in HN as [HN|[<-|[]]]; [apply stack_width; rewrite ES; apply in_or_app; now left|]. rewrite zlen_map. apply stack_width. eauto using rd_In.
  - exact Hh.
  - rewrite zlen_map. exact Zs.
  - intros k beam Hb. rewrite rd_map in Hb. destruct (rd sts k) as [st|] eqn:Hst; [|discriminate]. injection Hb as <-. destruct (stok_cols _ _ (HS _ _ Hst)) as (ini & lastc & E & Z1 & SI). pose proof (stack_col k st Hst) as SC. rewrite E in SC. rewrite zlen_app, zlen_cons, zlen_nil, Z1, <- zlen_stack in SC. replace (zlen S0 - (zlen (real k) + (1 + 0))) with (T0 - zlen (real k)) in SC by lia.
    assert (SC2 : map (colk k) (removelast S0) ++ [colk k NL] = (repeat [] (Z.to_nat (T0 - zlen (real k))) ++ ini) ++ [lastc]) by (rewrite <- app_assoc, <- SC; rewrite ES at 2; rewrite map_app; reflexivity). apply app_inj_tail in SC2 as (SC2 & SL).
    exists (ini ++ [bareC lastc]). split; [|split].
    + rewrite map_app, SC2, <- app_assoc. f_equal. f_equal. cbn [map]. f_equal. rewrite <- SL. unfold colk. rewrite rd_map. destruct (rd NL k); reflexivity.
    + unfold upto. cbn [Z.to_nat firstn]. rewrite app_nil_r. exact SI.
    + intros col x Hc' Hx. rewrite zlen_app, zlen_cons, zlen_nil in Hc'. rewrite rd_app_r in Hc' by lia. replace (zlen ini + (1 + 0) - 1 - zlen ini) with 0 in Hc' by lia. rewrite rd_cons_0 in Hc'. injection Hc' as <-. unfold bareC in Hx. apply in_map_iff in Hx as (x0 & <- & _). reflexivity.
Qed.
End Start.
