(** * The states of the next frame: the hash part of PropagateForward *)
From Coq Require Import ZArith List Lia Bool QArith Permutation.
From Coq Require Import ZifyBool ZifyNat.
From Verif Require Import Base RaggedModel RaggedSpec RaggedProofs FsaSpec FsaLemmas RaggedOpsModel OpsModel RaggedOpsProofs ConnectProofs IDenseModel IPrunedModel IPrunedNest IPrunedCut.
From Verif Require GraphProofs RmDevRagged RmDevMap EpsLoopProofs IDenseInit IDenseOut IDensePaths IDevCore IDevStep UniqueProps ComposeProps PropsProps ExtractProofs.
Import ListNotations.
Open Scope Z_scope.
Notation ole := IDensePaths.ole.

Lemma hfind_hdel h key key' : hfind (hdel h key) key' = if key =? key' then None else hfind h key'.
Proof.
  induction h as [|[k v] h IH]; cbn; [destruct (key =? key'); reflexivity|]. destruct (k =? key) eqn:E; cbn [negb hfind]; fold (hdel h key).
  - rewrite IH. destruct (key =? key') eqn:E'; [reflexivity|]. destruct (k =? key') eqn:E''; [lia|reflexivity].
  - destruct (k =? key') eqn:E''; [destruct (key =? key') eqn:E'; [lia|reflexivity]|exact IH].
Qed.
Lemma kmax_ext l l' : (forall x, In x l <-> In x l') -> kmax l = kmax l'.
Proof.
  intros H. assert (G : forall l l', (forall x, In x l -> In x l') -> ole (kmax l) (kmax l')).
  { intros a b Hab. destruct (kmax a) as [x|] eqn:E; [|exact I]. apply IDensePaths.kmax_in in E. apply Hab in E. now apply IDensePaths.kmax_ge in E. }
  pose proof (G l l' (fun x Hx => proj1 (H x) Hx)) as A. pose proof (G l' l (fun x Hx => proj2 (H x) Hx)) as B.
  destruct (kmax l), (kmax l'); cbn in A, B; try contradiction; try reflexivity. f_equal. lia.
Qed.
Lemma kmax_snoc l x : kmax (l ++ [x]) = omax (kmax l) x.
Proof. unfold kmax. now rewrite fold_left_app. Qed.

Section Merge.
Context (ord : Z -> list Z) (Ho : fair ord) (CAs : list (list ainfo)) (key : Z -> Z -> Z) (cuts : list (option Z * Q)).
Hypothesis Hcuts : zlen cuts = zlen CAs.
Hypothesis Hinj : forall k k' CA CA' a a', rd CAs k = Some CA -> rd CAs k' = Some CA' -> In a CA -> In a' CA' ->
  key k (i_dst a) = key k' (i_dst a') -> k = k' /\ i_dst a = i_dst a'.

Let arcs := concat CAs.
Let ks := ids_of CAs.
Let N := zlen arcs.
Definition kk (i : Z) : Z := match rd ks i with Some k => k | None => 0 end.
Definition aa (i : Z) : ainfo := match rd arcs i with Some a => a | None => mkA 0 None 0 None end.
Definition cc (i : Z) : option Z * Q := match rd cuts (kk i) with Some x => x | None => (None, 0%Q) end.
Definition Kk (i : Z) : Z := key (kk i) (i_dst (aa i)).
Definition ab (i : Z) : bool := above (i_end (aa i)) (cc i).

Lemma N0 : 0 <= N. Proof. apply zlen_nonneg. Qed.
Lemma at_i i : 0 <= i < N -> rd arcs i = Some (aa i) /\ rd ks i = Some (kk i) /\ exists CA, rd CAs (kk i) = Some CA /\ In (aa i) CA /\ 0 <= kk i < zlen CAs.
Proof.
  intros Hi. unfold aa, kk. destruct (rd_in_bound arcs i Hi) as (a & Ha). rewrite Ha. split; [reflexivity|].
  apply rd_concat_inv in Ha as (k & l & j & H1 & H2 & H3 & H4). unfold ks. rewrite H4. split; [reflexivity|]. exists l. split; [exact H1|]. split; [eapply rd_In; eauto|eapply rd_Some_bound; eauto].
Qed.
Lemma Kk_inj i j : 0 <= i < N -> 0 <= j < N -> Kk i = Kk j -> kk i = kk j /\ i_dst (aa i) = i_dst (aa j).
Proof.
  intros Hi Hj E. destruct (at_i _ Hi) as (_ & _ & CA & A1 & A2 & _). destruct (at_i _ Hj) as (_ & _ & CA' & B1 & B2 & _). exact (Hinj _ _ _ _ _ _ A1 B1 A2 B2 E).
Qed.

Lemma keys_list : mapM (fun i => k <- rd ks i;; a <- rd arcs i;; Some (key k (i_dst a))) (zrange N) = Some (map Kk (zrange N)).
Proof. apply mapM_Some_map. intros i Hi. apply in_zrange in Hi. destruct (at_i i Hi) as (-> & -> & _). reflexivity. Qed.
Lemma rd_keys i : 0 <= i < N -> rd (map Kk (zrange N)) i = Some (Kk i).
Proof. intros Hi. rewrite rd_map, rd_zrange by auto. reflexivity. Qed.

Definition cand := map (fun i => if ab i then Some (0, 0, Kk i) else None) (zrange N).
Lemma cand_list : mapM (fun i => k <- rd ks i;; a <- rd arcs i;; cut <- rd cuts k;; q <- rd (map Kk (zrange N)) i;;
                         Some (if above (i_end a) cut then Some (0, 0, q) else None)) (zrange N) = Some cand.
Proof.
  apply mapM_Some_map. intros i Hi. apply in_zrange in Hi. rewrite rd_keys by auto. destruct (at_i i Hi) as (-> & -> & CA & _ & _ & B).
  unfold ab, cc. destruct (rd_in_bound cuts (kk i)) as (x & ->); [lia|]. reflexivity.
Qed.

Context (h0 : hmap) (H0 : forall q, hfind h0 q = None).

Section Won.
Context (h1 : hmap) (won : list Z).
Hypothesis W0 : forall i, In i won -> 0 <= i < N /\ ab i = true.
Hypothesis W1 : forall i j, In i won -> In j won -> Kk i = Kk j -> i = j.
Hypothesis W2 : forall q, hfind h1 q <> None -> exists i, In i won /\ Kk i = q.
Hypothesis W3 : forall i, 0 <= i < N -> ab i = true -> hfind h1 (Kk i) <> None.

Definition mem (i : Z) : bool := existsb (Z.eqb i) won.
Lemma mem_in i : mem i = true <-> In i won.
Proof. unfold mem. rewrite existsb_exists. split; [intros (x & Hx & E); now replace i with x by lia|]. intros H. exists i. split; [auto|lia]. Qed.
Definition keep := map mem (zrange N).
Definition o2n := old2new keep.
Definition pos (i : Z) : Z := cnt (firstn (Z.to_nat i) keep).
Definition W := filter mem (zrange N).
Lemma zlen_keep : zlen keep = N. Proof. unfold keep. rewrite zlen_map, zlen_zrange; auto using N0. Qed.
Lemma rd_o2n i : 0 <= i <= N -> rd o2n i = Some (pos i).
Proof. intros H. unfold o2n. rewrite rd_old2new by (rewrite zlen_keep; auto). reflexivity. Qed.
Lemma pos_next i : 0 <= i < N -> pos (i + 1) = pos i + b2z (mem i).
Proof.
  intros H. unfold pos. assert (E : rd keep i = Some (mem i)) by (unfold keep; rewrite rd_map, rd_zrange by auto; reflexivity).
  replace (Z.to_nat (i + 1)) with (S (Z.to_nat i)) by lia. unfold rd in E. destruct (i <? 0) eqn:?; [lia|].
  rewrite (firstn_snoc _ _ _ E). unfold cnt. rewrite map_app, zsum_app. cbn. unfold zsum. cbn. lia.
Qed.
Lemma W_kept : W = kept_from 0 keep.
Proof. unfold W, keep. rewrite ExtractProofs.kept_from_zrange; auto using N0. Qed.
Lemma W_pos w : In w won -> rd W (pos w) = Some w.
Proof.
  intros H. rewrite W_kept. unfold pos, cnt. rewrite (rd_kept_from keep 0 w); [now rewrite Z.add_0_l|].
  unfold keep. rewrite rd_map, rd_zrange by (apply (W0 _ H)). cbn. f_equal. now apply mem_in.
Qed.
Lemma W_inv j w : rd W j = Some w -> In w won /\ pos w = j.
Proof.
  intros H. rewrite W_kept in H. apply rd_kept_from_inv in H as (i & -> & H1 & H2). rewrite Z.add_0_l. unfold keep in H1. rewrite rd_map in H1.
  destruct (rd (zrange N) i) as [i'|] eqn:E; [|discriminate]. pose proof (rd_Some_bound _ _ _ E) as B. rewrite zlen_zrange in B by apply N0. rewrite rd_zrange in E by auto. injection E as <-.
  cbn in H1. injection H1 as H1. apply mem_in in H1. split; [exact H1|exact H2].
Qed.
Lemma zlen_W : rd o2n N = Some (zlen W).
Proof.
  rewrite rd_o2n by (pose proof N0; lia). f_equal. unfold pos. rewrite firstn_all2 by (pose proof zlen_keep as E; unfold zlen in E; lia).
  rewrite W_kept, zlen_kept_from. reflexivity.
Qed.

(** the new states *)
Definition st (w : Z) : sinfo := mkS (i_dst (aa w)) (kmax (map (fun i => i_end (aa i)) (filter (fun i => Kk i =? Kk w) (zrange N)))) None.
Definition LLi : list (list Z) := imap (fun k CA => map (fun j => off1 CAs k + j) (zrange (zlen CA))) 0 CAs.
Lemma LLi_sizes : map zlen LLi = map zlen CAs.
Proof. unfold LLi. rewrite map_imap. rewrite <- (imap_const zlen CAs 0). apply imap_ext. intros. now rewrite zlen_map, zlen_zrange by apply zlen_nonneg. Qed.
Lemma LLi_concat : concat LLi = zrange N.
Proof.
  assert (ZL : zlen (concat LLi) = N) by (rewrite <- zsum_zlen_concat, LLi_sizes, zsum_zlen_concat; reflexivity).
  apply list_ext_rd; [rewrite zlen_zrange by apply N0; exact ZL|]. intros i Hi. rewrite rd_zrange by lia. destruct (rd_in_bound _ _ Hi) as (x & Hx). rewrite Hx. f_equal.
  apply rd_concat_inv in Hx as (k & l & j & E1 & E2 & E3 & _). rewrite (IDenseInit.off1_same _ _ k LLi_sizes) in E3. unfold LLi in E1. rewrite rd_imap in E1.
  destruct (rd CAs k) as [CA|] eqn:Ek; [|discriminate]. cbn in E1. injection E1 as <-. rewrite rd_map in E2. pose proof (rd_Some_bound CAs k CA Ek).
  destruct (rd (zrange (zlen CA)) j) as [j'|] eqn:Ej; [|discriminate]. pose proof (rd_Some_bound _ _ _ Ej) as B. rewrite zlen_zrange in B by apply zlen_nonneg. rewrite rd_zrange in Ej by auto.
  injection Ej as <-. rewrite Z.add_0_l in E2. cbn in E2. injection E2 as <-. lia.
Qed.
Definition NS : list (list sinfo) := map (fun l => map st (filter mem l)) LLi.
Lemma NS_concat : concat NS = map st W.
Proof. unfold NS, W. rewrite <- LLi_concat, IDenseOut.filter_concat, concat_map, map_map. reflexivity. Qed.
Lemma NS_ids : ids_of NS = map kk W.
Proof.
  pose proof (RmDevRagged.n2o_ids mem LLi) as E. rewrite LLi_concat in E. fold keep in E. rewrite <- W_kept in E.
  assert (E1 : ids_of LLi = ks) by (apply IDevCore.same_sizes; apply LLi_sizes). rewrite E1 in E.
  assert (E2 : ids_of NS = ids_of (map (filter mem) LLi)) by (apply IDevCore.same_sizes; unfold NS; rewrite !map_map; apply map_ext; intros; now rewrite zlen_map).
  rewrite E2. assert (E3 : mapM (rd ks) W = Some (map kk W)).
  { apply mapM_Some_map. intros i Hi. unfold W in Hi. apply filter_In in Hi as (Hi & _). apply in_zrange in Hi. apply (at_i i Hi). }
  congruence.
Qed.
Lemma zlen_NS : zlen NS = zlen CAs.
Proof. unfold NS, LLi. now rewrite zlen_map, zlen_imap. Qed.
Lemma NS_at w : In w won -> exists NSk, rd NS (kk w) = Some NSk /\ rd NSk (pos w - off1 NS (kk w)) = Some (st w) /\ 0 <= pos w - off1 NS (kk w) /\ pos w < zlen (concat NS).
Proof.
  intros H. pose proof (W_pos w H) as E. assert (E1 : rd (concat NS) (pos w) = Some (st w)) by (rewrite NS_concat, rd_map, E; reflexivity).
  assert (E2 : rd (ids_of NS) (pos w) = Some (kk w)) by (rewrite NS_ids, rd_map, E; reflexivity). pose proof (rd_Some_bound _ _ _ E1) as BW.
  apply rd_concat_inv in E1 as (r & l & j & A1 & A2 & A3 & A4). rewrite E2 in A4. injection A4 as A4. subst r. exists l. split; [exact A1|]. pose proof (rd_Some_bound _ _ _ A2).
  replace (pos w - off1 NS (kk w)) with j by lia. split; [exact A2|lia].
Qed.
Lemma NS_inv k NSk j s : rd NS k = Some NSk -> rd NSk j = Some s -> exists w, In w won /\ kk w = k /\ s = st w /\ pos w = off1 NS k + j.
Proof.
  intros E1 E2. destruct (rd_concat_off _ _ _ _ _ E1 E2) as (A1 & A2). rewrite NS_concat, rd_map in A1. destruct (rd W (off1 NS k + j)) as [w|] eqn:E; [|discriminate]. injection A1 as <-.
  rewrite NS_ids, rd_map, E in A2. injection A2 as <-. destruct (W_inv _ _ E) as (B1 & B2). eauto.
Qed.

Lemma fill_ok : k2_fill (zlen (concat NS)) (ord N) (fun i =>
      k <- rd ks i;; x <- rd o2n i;; y <- rd o2n (i + 1);; Some (if x <? y then [(x, k)] else [])) = Some (ids_of NS).
Proof.
  replace (zlen (concat NS)) with (zlen (ids_of NS)) by (unfold ids_of; now rewrite zlen_ids_from).
  apply (k2_fill_list_fun _ N _ _ (fun i => if mem i then [(pos i, kk i)] else [])); [apply Ho| | |].
  - intros i Hi. destruct (at_i i Hi) as (_ & -> & _). rewrite !rd_o2n, pos_next by lia. destruct (mem i); cbn [b2z]; [replace (pos i <? pos i + 1) with true by lia|replace (pos i <? pos i + 0) with false by lia]; reflexivity.
  - intros i w Hi Hw. destruct (mem i) eqn:E; [|easy]. destruct Hw as [<-|[]]. cbn. apply mem_in in E. rewrite NS_ids, rd_map, (W_pos _ E). reflexivity.
  - intros j Hj. rewrite NS_ids, zlen_map in Hj. destruct (rd_in_bound _ _ Hj) as (w & Hw). destruct (W_inv _ _ Hw) as (B1 & B2). exists w. split; [apply W0, B1|].
    apply mem_in in B1. rewrite B1. left. exact B2.
Qed.

(** lambda_modify_state_map *)
Definition set_hash (h : hmap) (i : Z) : option hmap :=
      key <- rd (map Kk (zrange N)) i;; x <- rd o2n i;; y <- rd o2n (i + 1);;
      if x <? y then check (match hfind h key with Some _ => true | None => false end);; Some (hset h key x)
      else Some h.
Lemma hash_ok : exists h2, foldM set_hash (ord N) h1 = Some h2 /\
  (forall q, hfind h2 q <> None -> exists i, In i won /\ Kk i = q) /\ (forall w, In w won -> hfind h2 (Kk w) = Some (pos w)).
Proof.
  assert (G : forall l h, (forall i, In i l -> 0 <= i < N) -> (forall q, hfind h q <> None -> exists i, In i won /\ Kk i = q) -> (forall w, In w won -> hfind h (Kk w) <> None) ->
    exists h2, foldM set_hash l h = Some h2 /\ (forall q, hfind h2 q <> None -> exists i, In i won /\ Kk i = q) /\
      (forall w, In w won -> In w l \/ hfind h (Kk w) = Some (pos w) -> hfind h2 (Kk w) = Some (pos w))).
  { induction l as [|i l IH]; intros h Hl H1 H2.
    - exists h. split; [reflexivity|]. split; [exact H1|]. intros w _ [[]|E]. exact E.
    - assert (Bi : 0 <= i < N) by (apply Hl, in_eq). cbn [foldM]. unfold set_hash at 1. rewrite rd_keys, !rd_o2n, pos_next by lia.
      assert (Hl' : forall j, In j l -> 0 <= j < N) by (intros; apply Hl; auto using in_cons). destruct (mem i) eqn:Em; cbn [b2z].
      + replace (pos i <? pos i + 1) with true by lia. pose proof (proj1 (mem_in i) Em) as Wi. destruct (hfind h (Kk i)) eqn:Eh; [|now destruct (H2 i Wi)]. cbn.
        destruct (IH (hset h (Kk i) (pos i)) Hl') as (h2 & E & P1 & P2).
        * intros q Hq. rewrite IDevStep.hfind_hset in Hq. destruct (Kk i =? q) eqn:Eq; [exists i; split; [exact Wi|lia]|auto].
        * intros w Hw. rewrite IDevStep.hfind_hset. destruct (Kk i =? Kk w); [discriminate|auto].
        * exists h2. split; [exact E|]. split; [exact P1|]. intros w Hw Hc. apply P2; [exact Hw|]. destruct (Z.eq_dec i w) as [->|Hne]; [right; rewrite IDevStep.hfind_hset; now rewrite Z.eqb_refl|].
          destruct Hc as [[Hc|Hc]|Hc]; [congruence|now left|right]. rewrite IDevStep.hfind_hset. destruct (Kk i =? Kk w) eqn:Eq; [|exact Hc]. exfalso. apply Hne. apply W1; auto. lia.
      + replace (pos i <? pos i + 0) with false by lia. destruct (IH h Hl' H1 H2) as (h2 & E & P1 & P2). exists h2. split; [exact E|]. split; [exact P1|].
        intros w Hw [[Hc|Hc]|Hc]; apply P2; auto. subst. apply mem_in in Hw. congruence. }
  destruct (G (ord N) h1) as (h2 & E & P1 & P2).
  - intros i Hi. now apply (in_sched N (ord N)) in Hi.
  - exact W2.
  - intros w Hw. destruct (W0 _ Hw). auto.
  - exists h2. split; [exact E|]. split; [exact P1|]. intros w Hw. apply P2; auto. left. apply (in_sched N); [apply Ho|]. apply (W0 _ Hw).
Qed.

Section H2.
Context (h2 : hmap) (P1 : forall q, hfind h2 q <> None -> exists i, In i won /\ Kk i = q) (P2 : forall w, In w won -> hfind h2 (Kk w) = Some (pos w)).

Definition dd (i : Z) : Z * Z := match hfind h2 (Kk i) with None => (-1, -1) | Some j => (j, j - off1 NS (kk i)) end.
Lemma dests_ok : mapM (fun i =>
      k <- rd ks i;; q <- rd (map Kk (zrange N)) i;;
      match hfind h2 q with
      | None => Some (-1, -1)
      | Some j => x <- rd (splits_of NS) k;; Some (j, j - x)
      end) (zrange N) = Some (map dd (zrange N)).
Proof.
  apply mapM_Some_map. intros i Hi. apply in_zrange in Hi. rewrite rd_keys by auto. destruct (at_i i Hi) as (_ & -> & CA & _ & _ & B). unfold dd.
  destruct (hfind h2 (Kk i)); [|reflexivity]. rewrite rd_splits_off by (rewrite zlen_NS; lia). reflexivity.
Qed.
Lemma dd_cases i : 0 <= i < N -> (hfind h2 (Kk i) = None /\ dd i = (-1, -1) /\ ab i = false /\ (forall w, In w won -> Kk w <> Kk i)) \/
  exists w, In w won /\ Kk w = Kk i /\ kk w = kk i /\ i_dst (aa w) = i_dst (aa i) /\ dd i = (pos w, pos w - off1 NS (kk w)).
Proof.
  intros Hi. unfold dd. destruct (hfind h2 (Kk i)) as [j|] eqn:E.
  - right. destruct (P1 (Kk i)) as (w & Hw & Ew); [congruence|]. exists w. split; [exact Hw|]. split; [exact Ew|]. destruct (Kk_inj w i) as (E1 & E2); [apply W0, Hw|exact Hi|exact Ew|].
    split; [exact E1|]. split; [exact E2|]. rewrite <- Ew, (P2 _ Hw) in E. injection E as <-. now rewrite E1.
  - left. split; [reflexivity|]. split; [reflexivity|]. split.
    + destruct (ab i) eqn:Ea; [|reflexivity]. exfalso. destruct (W2 (Kk i)) as (w & Hw & Ew); [now apply W3|]. rewrite <- Ew, (P2 _ Hw) in E. discriminate.
    + intros w Hw Ew. rewrite <- Ew, (P2 _ Hw) in E. discriminate.
Qed.

(** lambda_set_arcs_and_states *)
Definition stp (done : list Z) (w : Z) : sinfo :=
  mkS (if existsb (fun i => Kk i =? Kk w) done then i_dst (aa w) else -1) (kmax (map (fun i => i_end (aa i)) (filter (fun i => Kk i =? Kk w) done))) None.
Lemma states_ok : foldM (fun s i => set_state arcs (map dd (zrange N)) i s) (ord N) (repeat (mkS (-1) None None) (Z.to_nat (zlen (concat NS)))) = Some (concat NS).
Proof.
  assert (G : forall l done sts, (forall i, In i l -> 0 <= i < N) -> zlen sts = zlen W -> (forall w, In w won -> rd sts (pos w) = Some (stp done w)) ->
    exists sts', foldM (fun s i => set_state arcs (map dd (zrange N)) i s) l sts = Some sts' /\ zlen sts' = zlen W /\ forall w, In w won -> rd sts' (pos w) = Some (stp (done ++ l) w)).
  { induction l as [|i l IH]; intros done sts Hl Z1 Hs.
    - exists sts. rewrite app_nil_r. auto.
    - assert (Bi : 0 <= i < N) by (apply Hl, in_eq). assert (Hl' : forall j, In j l -> 0 <= j < N) by (intros; apply Hl; auto using in_cons).
      cbn [foldM]. unfold set_state at 1. destruct (at_i i Bi) as (-> & _ & _). rewrite rd_map, rd_zrange by auto. cbn [option_map].
      replace (done ++ i :: l) with ((done ++ [i]) ++ l) by (rewrite <- app_assoc; reflexivity).
      destruct (dd_cases i Bi) as [(D1 & D2 & D3 & D4)|(w & D1 & D2 & D3 & D4 & D5)].
      + rewrite D2. cbn [snd]. change (-1 <? 0) with true. cbv iota. apply IH; auto. intros w Hw. rewrite (Hs _ Hw). f_equal. unfold stp. rewrite existsb_app, filter_app. cbn.
        replace (Kk i =? Kk w) with false by (specialize (D4 _ Hw); lia). cbn. now rewrite orb_false_r, app_nil_r.
      + rewrite D5. cbn [fst snd]. destruct (NS_at w D1) as (NSk & _ & _ & B1 & _). replace (pos w - off1 NS (kk w) <? 0) with false by lia. rewrite (Hs _ D1).
        destruct (wr_Some sts (pos w) (mkS (i_dst (aa i)) (omax (s_f (stp done w)) (i_end (aa i))) (s_b (stp done w)))) as (sts1 & E1 & E2 & E3).
        { pose proof (W_pos _ D1) as E. apply rd_Some_bound in E. lia. }
        rewrite E1. apply IH; auto; [lia|]. intros w' Hw'. rewrite E3. unfold stp. rewrite existsb_app, filter_app. cbn [existsb filter]. rewrite orb_false_r.
        destruct (pos w' =? pos w) eqn:Ep.
        * assert (w' = w) as ->. { assert (Some w' = Some w); [|congruence]. rewrite <- (W_pos _ Hw'), <- (W_pos _ D1). f_equal. lia. }
          replace (Kk i =? Kk w) with true by lia. rewrite orb_true_r, map_app. cbn [map]. rewrite kmax_snoc. rewrite <- D4. reflexivity.
        * assert (w' <> w) by (intros ->; lia). replace (Kk i =? Kk w') with false by (destruct (Kk i =? Kk w') eqn:Ee; [exfalso; apply H; apply W1; auto; lia|reflexivity]).
          rewrite orb_false_r, app_nil_r. apply Hs, Hw'. }
  assert (ZNS : zlen (concat NS) = zlen W) by (rewrite NS_concat; apply zlen_map).
  destruct (G (ord N) [] (repeat (mkS (-1) None None) (Z.to_nat (zlen (concat NS))))) as (sts & E1 & E2 & E3).
  - intros i Hi. now apply (in_sched N (ord N)) in Hi.
  - rewrite zlen_repeat. pose proof (zlen_nonneg (concat NS)). lia.
  - intros w Hw. pose proof (W_pos _ Hw) as E. apply rd_Some_bound in E. rewrite rd_repeat by lia. reflexivity.
  - rewrite E1. f_equal. apply list_ext_rd; [lia|]. intros j Hj. rewrite E2 in Hj. destruct (rd_in_bound _ _ Hj) as (w & Hw). destruct (W_inv _ _ Hw) as (B1 & B2). subst j.
    rewrite (E3 _ B1), NS_concat, rd_map, Hw. cbn [option_map app]. f_equal. unfold stp, st. f_equal.
    + destruct (existsb (fun i => Kk i =? Kk w) (ord N)) eqn:Ex; [reflexivity|]. exfalso. assert (X : existsb (fun i => Kk i =? Kk w) (ord N) = true); [|congruence].
      apply existsb_exists. exists w. split; [apply (in_sched N); [apply Ho|apply W0, B1]|lia].
    + apply kmax_ext. intros x. rewrite !in_map_iff. split; intros (i & <- & Hi); exists i; (split; [reflexivity|]); apply filter_In in Hi as (A & B); apply filter_In; (split; [|exact B]).
      * apply (in_sched N) in A; [|apply Ho]. now apply in_zrange.
      * apply (in_sched N); [apply Ho|]. now apply in_zrange.
Qed.

Definition arcs' : list ainfo := map (fun i => mkA (i_arc (aa i)) (i_ll (aa i)) (snd (dd i)) (i_end (aa i))) (zrange N).
Lemma arcs_ok : mapM (fun i => a <- rd arcs i;; d <- rd (map dd (zrange N)) i;; Some (mkA (i_arc a) (i_ll a) (snd d) (i_end a))) (zrange N) = Some arcs'.
Proof. apply mapM_Some_map. intros i Hi. apply in_zrange in Hi. destruct (at_i i Hi) as (-> & _). rewrite rd_map, rd_zrange by auto. reflexivity. Qed.

(** lambda_reset_state_map *)
Lemma reset_ok : exists h3, foldM (fun h j => s <- rd (concat NS) j;; k <- rd (ids_of NS) j;; Some (hdel h (key k (s_a s)))) (ord (zlen (concat NS))) h2 = Some h3 /\ forall q, hfind h3 q = None.
Proof.
  assert (ZNS : zlen (concat NS) = zlen W) by (rewrite NS_concat; apply zlen_map).
  assert (G : forall l h, (forall j, In j l -> 0 <= j < zlen W) -> exists h3, foldM (fun h j => s <- rd (concat NS) j;; k <- rd (ids_of NS) j;; Some (hdel h (key k (s_a s)))) l h = Some h3 /\
     forall q, hfind h3 q <> None -> hfind h q <> None /\ forall j w, In j l -> rd W j = Some w -> Kk w <> q).
  { induction l as [|j l IH]; intros h Hl; [exists h; split; [reflexivity|]; intros q Hq; split; [exact Hq|easy]|].
    cbn [foldM]. destruct (rd_in_bound W j) as (w & Hw); [apply Hl, in_eq|]. rewrite NS_concat, NS_ids, !rd_map, Hw. cbn [option_map]. rewrite <- NS_concat, <- NS_ids.
    cbn [s_a st]. fold (Kk w). destruct (IH (hdel h (Kk w))) as (h3 & E & Q); [intros; apply Hl; auto using in_cons|]. exists h3. split; [exact E|]. intros q Hq. destruct (Q q Hq) as (Q1 & Q2).
    rewrite hfind_hdel in Q1. destruct (Kk w =? q) eqn:Eq; [congruence|]. split; [exact Q1|]. intros j' w' [<-|Hj'] Hw'; [rewrite Hw in Hw'; injection Hw' as <-; lia|eauto]. }
  destruct (G (ord (zlen (concat NS))) h2) as (h3 & E & Q).
  - intros j Hj. apply (in_sched (zlen (concat NS))) in Hj; [lia|apply Ho].
  - exists h3. split; [exact E|]. intros q. destruct (hfind h3 q) eqn:Eq; [|reflexivity]. exfalso. destruct (Q q) as (Q1 & Q2); [congruence|]. destruct (P1 q Q1) as (w & Hw & Ew).
    apply (Q2 (pos w) w); auto using W_pos. apply (in_sched (zlen (concat NS))); [apply Ho|]. destruct (NS_at w Hw) as (_ & _ & _ & B1 & B2). pose proof (W_pos _ Hw) as B3. apply rd_Some_bound in B3. lia.
Qed.
End H2.
End Won.

(** what comes out *)
Record merged (NS : list (list sinfo)) (arcs' : list ainfo) : Prop := {
  mg_len : zlen NS = zlen CAs;
  mg_arcs : zlen arcs' = N;
  mg_arc : forall i a k, rd arcs i = Some a -> rd ks i = Some k -> exists d NSk cut, rd NS k = Some NSk /\ rd cuts k = Some cut /\ rd arcs' i = Some (setd a d) /\
     ((d = -1 /\ above (i_end a) cut = false) \/ (0 <= d /\ exists s, rd NSk d = Some s /\ s_a s = i_dst a /\ ole (i_end a) (s_f s)));
  mg_st : forall k NSk j s, rd NS k = Some NSk -> rd NSk j = Some s -> s_b s = None /\
     (exists i a cut, rd ks i = Some k /\ rd arcs i = Some a /\ rd cuts k = Some cut /\ i_dst a = s_a s /\ above (i_end a) cut = true) /\
     (exists i a, rd ks i = Some k /\ rd arcs i = Some a /\ i_dst a = s_a s /\ i_end a = s_f s);
  mg_nd : forall k NSk, rd NS k = Some NSk -> NoDup (map s_a NSk) }.

Lemma merge_ok : exists h1 won NS arcs' h2 dests h3,
  IDevModel.insert_all cand (ord N) h0 [] = Some (h1, won) /\
  (let keep := map (fun i => existsb (Z.eqb i) won) (zrange N) in let o2n := old2new keep in
   rd o2n N = Some (zlen (concat NS)) /\
   k2_fill (zlen (concat NS)) (ord N) (fun i => k <- rd ks i;; x <- rd o2n i;; y <- rd o2n (i + 1);; Some (if x <? y then [(x, k)] else [])) = Some (ids_of NS) /\
   foldM (fun h i =>
      key <- rd (map Kk (zrange N)) i;; x <- rd o2n i;; y <- rd o2n (i + 1);;
      if x <? y then check (match hfind h key with Some _ => true | None => false end);; Some (hset h key x)
      else Some h) (ord N) h1 = Some h2 /\
   mapM (fun i => k <- rd ks i;; q <- rd (map Kk (zrange N)) i;;
      match hfind h2 q with
      | None => Some (-1, -1)
      | Some j => x <- rd (splits_of NS) k;; Some (j, j - x)
      end) (zrange N) = Some dests /\
   foldM (fun s i => set_state arcs dests i s) (ord N) (repeat (mkS (-1) None None) (Z.to_nat (zlen (concat NS)))) = Some (concat NS) /\
   mapM (fun i => a <- rd arcs i;; d <- rd dests i;; Some (mkA (i_arc a) (i_ll a) (snd d) (i_end a))) (zrange N) = Some arcs' /\
   foldM (fun h j => s <- rd (concat NS) j;; k <- rd (ids_of NS) j;; Some (hdel h (key k (s_a s)))) (ord (zlen (concat NS))) h2 = Some h3) /\
  (forall q, hfind h3 q = None) /\ merged NS arcs'.
Proof.
  assert (ZC : zlen cand = N) by (unfold cand; rewrite zlen_map, zlen_zrange; auto using N0).
  assert (KF : forall i, 0 <= i < N -> IDevStep.Kf cand i = if ab i then Some (Kk i) else None).
  { intros i Hi. unfold IDevStep.Kf, cand. rewrite rd_map, rd_zrange by auto. cbn. destruct (ab i); reflexivity. }
  assert (OB : forall i, In i (ord N) -> 0 <= i < N) by (intros i Hi; now apply (in_sched N (ord N)) in Hi).
  destruct (IDevStep.insert_all_ok cand (ord N) h0 []) as (won & h1 & E & A1 & A2 & A3 & A4 & A5); [intros i Hi; rewrite ZC; auto|]. rewrite app_nil_r in E.
  assert (W0 : forall i, In i won -> 0 <= i < N /\ ab i = true).
  { intros i Hi. destruct (A1 i Hi) as (B & q & B1 & _). apply OB in B. split; [exact B|]. rewrite KF in B1 by auto. destruct (ab i); [reflexivity|discriminate]. }
  assert (W1 : forall i j, In i won -> In j won -> Kk i = Kk j -> i = j).
  { intros i j Hi Hj Ek. destruct (W0 i Hi) as (B1 & B2). destruct (W0 j Hj) as (B3 & B4). apply A2; auto. rewrite !KF, B2, B4, Ek by auto. reflexivity. }
  assert (W2 : forall q, hfind h1 q <> None -> exists i, In i won /\ Kk i = q).
  { intros q Hq. destruct (A4 q Hq) as [X|(i & Hi & Ei)]; [rewrite H0 in X; congruence|]. exists i. split; [exact Hi|]. destruct (W0 i Hi) as (B1 & B2). rewrite KF, B2 in Ei by auto. congruence. }
  assert (W3 : forall i, 0 <= i < N -> ab i = true -> hfind h1 (Kk i) <> None).
  { intros i Hi Ha. apply (A5 i); [apply (in_sched N); [apply Ho|exact Hi]|]. now rewrite KF, Ha by auto. }
  destruct (hash_ok h1 won W0 W1 W2 W3) as (h2 & E2 & P1 & P2).
  destruct (reset_ok h1 won W0 W1 W2 W3 h2 P1 P2) as (h3 & E3 & P3).
  exists h1, won, (NS won), (arcs' won h2), h2, (map (dd won h2) (zrange N)), h3. split; [exact E|]. split; [|split; [exact P3|]].
  - cbv zeta. split; [rewrite (NS_concat h1 won W0 W1 W2 W3), zlen_map; exact (zlen_W h1 won W0 W1 W2 W3)|]. split; [exact (fill_ok h1 won W0 W1 W2 W3)|]. split; [exact E2|]. split; [exact (dests_ok h1 won W0 W1 W2 W3 h2 P1 P2)|].
    split; [exact (states_ok h1 won W0 W1 W2 W3 h2 P1 P2)|]. split; [apply arcs_ok|exact E3].
  - split.
    + apply zlen_NS.
    + unfold arcs'. rewrite zlen_map, zlen_zrange; auto using N0.
    + intros i a k Ha Hk. pose proof (rd_Some_bound _ _ _ Ha) as Bi. destruct (at_i i Bi) as (Ea & Ek & CA & _ & _ & Bk). rewrite Ha in Ea. rewrite Hk in Ek. injection Ea as ->. injection Ek as ->.
      destruct (rd_in_bound (NS won) (kk i)) as (NSk & HNS); [rewrite zlen_NS; lia|]. destruct (rd_in_bound cuts (kk i)) as (cut & Hcut); [lia|]. exists (snd (dd won h2 i)), NSk, cut.
      split; [exact HNS|]. split; [exact Hcut|]. split; [unfold arcs'; rewrite rd_map, rd_zrange by auto; reflexivity|].
      destruct (dd_cases h1 won W0 W2 W3 h2 P1 P2 i Bi) as [(D1 & D2 & D3 & D4)|(w & D1 & D2 & D3 & D4 & D5)].
      * left. rewrite D2. split; [reflexivity|]. unfold ab, cc in D3. rewrite Hcut in D3. exact D3.
      * right. rewrite D5. cbn [snd]. destruct (NS_at h1 won W0 W1 W2 W3 w D1) as (NSk' & G1 & G2 & G3 & G4). split; [exact G3|]. rewrite D3, HNS in G1. injection G1 as <-. exists (st w).
        split; [exact G2|]. split; [exact D4|]. cbn. apply IDensePaths.kmax_ge. apply in_map_iff. exists i. split; [reflexivity|]. apply filter_In. split; [now apply in_zrange|lia].
    + intros k NSk j s Hk Hj. destruct (NS_inv h1 won W0 W1 W2 W3 _ _ _ _ Hk Hj) as (w & Hw & <- & -> & _). destruct (W0 w Hw) as (Bw & Aw). destruct (at_i w Bw) as (Ea & Ek & CA & _ & _ & Bk). split; [reflexivity|].
      destruct (rd_in_bound cuts (kk w)) as (cut & Hcut); [lia|]. split.
      * exists w, (aa w), cut. repeat split; auto. unfold ab, cc in Aw. rewrite Hcut in Aw. exact Aw.
      * cbn. destruct (kmax (map (fun i => i_end (aa i)) (filter (fun i => Kk i =? Kk w) (zrange N)))) as [x|] eqn:Ex.
        -- apply IDensePaths.kmax_in in Ex. apply in_map_iff in Ex as (i & Ei & Hi). apply filter_In in Hi as (Hi & Eq). apply in_zrange in Hi. destruct (at_i i Hi) as (Ea' & Ek' & _).
           destruct (Kk_inj i w Hi Bw) as (X1 & X2); [lia|]. exists i, (aa i). rewrite X1 in Ek'. auto.
        -- exists w, (aa w). repeat split; auto. apply kmax_none in Ex. rewrite Forall_forall in Ex. apply Ex. apply in_map_iff. exists w. split; [reflexivity|]. apply filter_In. split; [now apply in_zrange|lia].
    + intros k NSk Hk. apply NoDup_nth_error. intros i j Hi E'. assert (Bi : 0 <= Z.of_nat i < zlen NSk) by (rewrite map_length in Hi; unfold zlen; lia).
      destruct (rd_in_bound _ _ Bi) as (s & Hs). rewrite nth_error_map in E'. pose proof Hs as Hs'. rewrite rd_nth in Hs'. rewrite Hs' in E'. cbn in E'. rewrite nth_error_map in E'.
      destruct (nth_error NSk j) as [s'|] eqn:Es'; [|discriminate]. rewrite <- rd_nth in Es'. cbn in E'. injection E' as E'.
      destruct (NS_inv h1 won W0 W1 W2 W3 _ _ _ _ Hk Hs) as (w & Hw & Kw & -> & Pw). destruct (NS_inv h1 won W0 W1 W2 W3 _ _ _ _ Hk Es') as (w' & Hw' & Kw' & -> & Pw').
      assert (w = w'); [|subst; lia]. apply W1; auto. unfold Kk. rewrite Kw, Kw'. cbn in E'. now rewrite E'.
Qed.
End Merge.
