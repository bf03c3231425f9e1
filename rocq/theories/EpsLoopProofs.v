From Coq Require Import ZArith List Lia Bool Permutation.
From Coq Require Import ZifyBool ZifyNat.
From Verif Require Import Base RaggedModel RaggedSpec RaggedProofs FsaSpec FsaLemmas FsaOpsModel FsaOpsProofs.
Import ListNotations.
Open Scope Z_scope.

Definition add_loops (f : nfsa) : nfsa :=
  imap (fun i st => if i + 1 <? nstates f then mkArc i i 0 0 :: st else st) 0 f.

Lemma zlen_add_loops f : zlen (add_loops f) = zlen f.
Proof. apply zlen_imap. Qed.

Lemma rd_add_loops f r st : rd f r = Some st ->
  rd (add_loops f) r = Some (if r + 1 <? zlen f then mkArc r r 0 0 :: st else st).
Proof. intros H. unfold add_loops. rewrite rd_imap, H. replace (0 + r) with r by lia. reflexivity. Qed.

Lemma off1_add_loops f r : 0 <= r <= zlen f -> off1 (add_loops f) r = off1 f r + Z.min r (zlen f - 1) \/ zlen f = 0.
Proof.
  intros H. replace r with (Z.of_nat (Z.to_nat r)) in * by lia. revert H.
  generalize (Z.to_nat r) as d. induction d as [|d IH]; intros H.
  - change (Z.of_nat 0) with 0. unfold off1. change (Z.to_nat 0) with 0%nat. cbn [firstn concat].
    change (zlen (@nil arc)) with 0. pose proof (zlen_nonneg f). lia.
  - destruct (rd_in_bound f (Z.of_nat d)) as (st & Hst); [lia|].
    destruct IH as [IH|IH]; [lia| |lia]. left.
    replace (Z.of_nat (S d)) with (Z.of_nat d + 1) by lia.
    rewrite (off1_next f _ st Hst), (off1_next (add_loops f) _ _ (rd_add_loops f _ st Hst)).
    rewrite IH. destruct (Z.of_nat d + 1 <? zlen f) eqn:E; [rewrite zlen_cons|]; lia.
Qed.

Lemma off1_add_loops_lt f r : 0 <= r < zlen f -> off1 (add_loops f) r = off1 f r + r.
Proof. intros H. destruct (off1_add_loops f r); lia. Qed.

Lemma off1_all {A} (ll : list (list A)) : off1 ll (zlen ll) = zlen (concat ll).
Proof. unfold off1. rewrite firstn_all2; auto. unfold zlen; lia. Qed.

Lemma zlen_concat_add_loops f : zlen (concat (add_loops f)) = zlen (concat f) + Z.max 0 (zlen f - 1).
Proof.
  pose proof (zlen_nonneg f). destruct (off1_add_loops f (zlen f)) as [E|E]; [lia| |].
  - rewrite <- (zlen_add_loops f) in E at 1. rewrite !off1_all in E.
    destruct f as [|st f']; [reflexivity|]. rewrite zlen_cons in *. pose proof (zlen_nonneg f'). lia.
  - destruct f as [|st f']; [reflexivity|]. rewrite zlen_cons in E. pose proof (zlen_nonneg f'). lia.
Qed.


Definition vec_ok (fs : list nfsa) : Prop :=
  Forall (fun f => src_ok f /\ forall a, In a (all_arcs f) -> src a <> final f) fs.

(** number of non-empty FSAs before k *)
Definition nne (fs : list nfsa) (k : Z) : Z :=
  zsum (map (fun f : nfsa => b2z (0 <? zlen f)) (firstn (Z.to_nat k) fs)).

Lemma nne_next fs k f : rd fs k = Some f -> nne fs (k + 1) = nne fs k + b2z (0 <? zlen f).
Proof.
  intros H. pose proof (rd_Some_bound _ _ _ H). unfold nne.
  replace (Z.to_nat (k + 1)) with (S (Z.to_nat k)) by lia.
  rewrite (firstn_snoc fs (Z.to_nat k) f); [rewrite map_app, zsum_app; simpl; lia|].
  unfold rd in H. now replace (k <? 0) with false in H by lia.
Qed.

Lemma fsa_nonempty_eq fs : fsa_nonempty (splits_of fs) = map (fun f : nfsa => b2z (0 <? zlen f)) fs.
Proof.
  unfold fsa_nonempty. rewrite zlen_splits_of. replace (zlen fs + 1 - 1) with (zlen fs) by lia.
  pose proof (zlen_nonneg fs). apply list_ext_rd.
  { rewrite !zlen_map, zlen_zrange; lia. }
  intros k Hk. rewrite zlen_map, zlen_zrange in Hk by lia.
  rewrite !rd_map, rd_zrange by lia. simpl. destruct (rd_in_bound fs k Hk) as (f & Hf). rewrite Hf. simpl.
  rewrite !rd_splits_off by lia. rewrite (off1_next fs k f Hf). do 2 f_equal.
  apply eq_true_iff_eq. lia.
Qed.

Lemma rd_fmod fs k : 0 <= k <= zlen fs ->
  rd (exsum (fsa_nonempty (splits_of fs))) k = Some (nne fs k).
Proof.
  intros H. rewrite fsa_nonempty_eq, rd_exsum by (rewrite zlen_map; auto).
  unfold nne. now rewrite firstn_map.
Qed.

Lemma off1_map_add fs k : 0 <= k <= zlen fs -> off1 (map add_loops fs) k = off1 fs k.
Proof.
  intros H. unfold off1. rewrite firstn_map. generalize (firstn (Z.to_nat k) fs). clear.
  induction l; simpl; auto. now rewrite !zlen_app, zlen_add_loops, IHl.
Qed.

Lemma off1_arcs_add fs k : 0 <= k <= zlen fs ->
  off1 (map (@concat arc) (map add_loops fs)) k =
  off1 (map (@concat arc) fs) k + off1 fs k - nne fs k.
Proof.
  intros H. replace k with (Z.of_nat (Z.to_nat k)) in * by lia. revert H.
  generalize (Z.to_nat k) as d. induction d as [|d IH]; intros H.
  - unfold off1, nne. change (Z.of_nat 0) with 0. change (Z.to_nat 0) with 0%nat. reflexivity.
  - destruct (rd_in_bound fs (Z.of_nat d)) as (f & Hf); [lia|]. specialize (IH ltac:(lia)).
    replace (Z.of_nat (S d)) with (Z.of_nat d + 1) by lia.
    rewrite (off1_next (map (@concat arc) (map add_loops fs)) _ (concat (add_loops f))) by (rewrite !rd_map, Hf; auto).
    rewrite (off1_next (map (@concat arc) fs) _ (concat f)) by (rewrite !rd_map, Hf; auto).
    rewrite (off1_next fs _ f Hf), (nne_next fs _ f Hf), zlen_concat_add_loops, IH.
    pose proof (zlen_nonneg f). destruct (0 <? zlen f) eqn:E; simpl b2z; lia.
Qed.


Lemma off1_map2 {A B} (g : A -> B) ll k : off1 (map (map g) ll) k = off1 ll k.
Proof. unfold off1. rewrite firstn_map, <- concat_map. apply zlen_map. Qed.

Lemma ids_from_map2 {A B} (g : A -> B) ll : forall r, ids_from r (map (map g) ll) = ids_from r ll.
Proof. induction ll; intros; simpl; auto. now rewrite map_length, IHll. Qed.

Lemma splits_of_map2 {A B} (g : A -> B) ll : splits_of (map (map g) ll) = splits_of ll.
Proof. unfold splits_of. now rewrite map_zlen_map. Qed.

(** If every element of row r carries r, the carried values are the row ids. *)
Lemma rows_carry_ids {A} (g : A -> Z) ll :
  (forall r l x, rd ll r = Some l -> In x l -> g x = r) -> map g (concat ll) = ids_of ll.
Proof.
  intros H. apply list_ext_rd.
  - unfold ids_of. now rewrite zlen_map, zlen_ids_from.
  - intros i Hi. rewrite zlen_map in Hi. destruct (rd_in_bound _ _ Hi) as (x & Hx).
    destruct (rd_concat_inv _ _ _ Hx) as (r & l & j & H1 & H2 & H3 & H4).
    rewrite rd_map, Hx, H4. simpl. f_equal. eapply H; eauto. eapply rd_In; eauto.
Qed.

Section V.
  Variable fs : list nfsa.
  Hypothesis OK : vec_ok fs.

  Lemma vok_rd k f : rd fs k = Some f -> src_ok f /\ forall a, In a (all_arcs f) -> src a <> final f.
  Proof. intros H. apply rd_In in H. unfold vec_ok in OK. rewrite Forall_forall in OK. auto. Qed.

  Definition fs' := map add_loops fs.

  (** position in the output of arc j of state r of FSA k *)
  Lemma new_pos k f r st : rd fs k = Some f -> rd f r = Some st ->
    off1 (concat fs') (off1 fs k + r) = off1 (concat fs) (off1 fs k + r) + (off1 fs k + r) - nne fs k.
  Proof.
    intros Hk Hr. pose proof (rd_Some_bound _ _ _ Hk). pose proof (rd_Some_bound _ _ _ Hr).
    rewrite (off1_concat fs k f r) by (auto; lia).
    rewrite <- (off1_map_add fs k) by lia. fold fs'.
    assert (Hk' : rd fs' k = Some (add_loops f)) by (unfold fs'; rewrite rd_map, Hk; auto).
    rewrite (off1_concat fs' k (add_loops f) r) by (rewrite ?zlen_add_loops; auto; lia).
    rewrite <- !off1_map_concat. unfold fs' at 1. rewrite off1_arcs_add by lia.
    rewrite off1_add_loops_lt by lia. unfold fs'. rewrite off1_map_add by lia. lia.
  Qed.

  Lemma state_arcs_final k f r st : rd fs k = Some f -> rd f r = Some st -> r + 1 = zlen f -> st = [].
  Proof.
    intros Hk Hr E. destruct (vok_rd k f Hk) as (Hs & Hf). destruct st as [|a st]; auto.
    exfalso. apply (Hf a).
    - apply in_concat. exists (a :: st). split; [eapply rd_In; eauto|now left].
    - rewrite (Hs r (a :: st) a Hr); [unfold final; lia|now left].
  Qed.


  Local Notation T := (arc * Z * Z)%type.
  Definition tri (k : Z) (f : nfsa) (r : Z) (st : list arc) : list T :=
    (if r + 1 <? zlen f then [(mkArc r r 0 0, off1 fs k + r, -1)] else []) ++
    imap (fun j a => (a, off1 fs k + r, off1 (concat fs) (off1 fs k + r) + j)) 0 st.
  Definition LT : list (list (list T)) := imap (fun k f => imap (tri k f) 0 f) 0 fs.
  Definition garc (t : T) : arc := fst (fst t).

  Lemma LT_arcs : map (map (map garc)) LT = fs'.
  Proof.
    unfold LT, fs'. rewrite map_imap. rewrite <- (imap_const add_loops fs 0).
    apply imap_ext. intros k f _. rewrite map_imap. unfold add_loops. apply imap_ext.
    intros r st _. unfold tri, nstates. rewrite map_app, map_imap. unfold garc. cbn [fst].
    rewrite imap_const, map_id. replace (0 + r) with r by lia.
    destruct (r + 1 <? zlen f); reflexivity.
  Qed.

  Lemma concat_LT_arcs : map (map garc) (concat LT) = concat fs'.
  Proof. rewrite concat_map. now rewrite LT_arcs. Qed.

  Lemma concat2_LT_arcs : map garc (concat (concat LT)) = concat (concat fs').
  Proof. rewrite concat_map. now rewrite concat_LT_arcs. Qed.

  Lemma off1_LT k : 0 <= k <= zlen fs -> off1 LT k = off1 fs k.
  Proof.
    intros H. transitivity (off1 fs' k).
    - unfold off1. rewrite <- LT_arcs, firstn_map, <- concat_map. now rewrite zlen_map.
    - now apply off1_map_add.
  Qed.

  Lemma rd_LT k f : rd fs k = Some f -> rd LT k = Some (imap (tri k f) 0 f).
  Proof. intros H. unfold LT. rewrite rd_imap, H. simpl. now replace (0 + k) with k by lia. Qed.

  Lemma rd_LT_row k f r st : rd fs k = Some f -> rd f r = Some st ->
    rd (concat LT) (off1 fs k + r) = Some (tri k f r st).
  Proof.
    intros Hk Hr. pose proof (rd_Some_bound _ _ _ Hk). rewrite <- off1_LT by lia.
    eapply rd_concat_off; [apply rd_LT; eauto|]. rewrite rd_imap, Hr. simpl. now replace (0 + r) with r by lia.
  Qed.

  Lemma rd_LT_elem k f r st j t : rd fs k = Some f -> rd f r = Some st -> rd (tri k f r st) j = Some t ->
    rd (concat (concat LT)) (off1 (concat fs) (off1 fs k + r) + (off1 fs k + r) - nne fs k + j) = Some t.
  Proof.
    intros Hk Hr Hj. rewrite <- (new_pos k f r st Hk Hr).
    rewrite <- concat_LT_arcs, off1_map2. eapply rd_concat_off; eauto. now apply rd_LT_row.
  Qed.

  Lemma zlen_LT : zlen (concat (concat LT)) = zlen (concat (concat fs)) + zlen (concat fs) - nne fs (zlen fs).
  Proof.
    rewrite <- (zlen_map garc), concat2_LT_arcs. unfold fs'. pose proof (zlen_nonneg fs).
    rewrite <- concat_map_concat. rewrite <- (off1_all (map (@concat arc) (map add_loops fs))).
    rewrite !zlen_map. rewrite off1_arcs_add by lia. rewrite off1_all.
    rewrite <- (zlen_map (@concat arc) fs) at 1. rewrite off1_all, concat_map_concat. lia.
  Qed.

  Lemma LT_inv i t : rd (concat (concat LT)) i = Some t -> exists k f r st j,
    rd fs k = Some f /\ rd f r = Some st /\ rd (tri k f r st) j = Some t /\
    i = off1 (concat fs) (off1 fs k + r) + (off1 fs k + r) - nne fs k + j /\
    rd (ids_of (concat LT)) i = Some (off1 fs k + r).
  Proof.
    intros H. destruct (rd_concat_inv _ _ _ H) as (s & row & j & H1 & H2 & H3 & H4).
    destruct (rd_concat_inv _ _ _ H1) as (k & F & r & K1 & K2 & K3 & K4).
    unfold LT in K1. rewrite rd_imap in K1. destruct (rd fs k) as [f|] eqn:Ef; [|discriminate].
    injection K1 as <-. rewrite rd_imap in K2. destruct (rd f r) as [st|] eqn:Er; [|discriminate].
    injection K2 as <-. replace (0 + k) with k in * by lia. replace (0 + r) with r in * by lia.
    pose proof (rd_Some_bound _ _ _ Ef). rewrite off1_LT in K3 by lia. subst s.
    exists k, f, r, st, j. repeat split; auto.
    rewrite H3. rewrite <- (new_pos k f r st) by auto. rewrite <- concat_LT_arcs, off1_map2. auto.
  Qed.

  (** every state of the vector *)
  Lemma state_inv s : 0 <= s < zlen (concat fs) -> exists k f r st,
    rd fs k = Some f /\ rd f r = Some st /\ s = off1 fs k + r /\ rd (ids_of fs) s = Some k.
  Proof.
    intros H. destruct (rd_in_bound _ _ H) as (st & Hst).
    destruct (rd_concat_inv _ _ _ Hst) as (k & f & r & K1 & K2 & K3 & K4). exists k, f, r, st. auto.
  Qed.

  Lemma add_eps_vec_eq sched1 sched2 :
    is_sched (zlen (concat (concat fs)) + zlen (concat fs)) sched1 ->
    is_sched (zlen (concat fs)) sched2 ->
    exists rids m, add_eps_loops_vec sched1 sched2 (flat_vec fs) =
      Some (mkVOut (flat_vec fs') rids m) /\
      (concat fs <> [] -> rids = ids_of (concat fs') /\ m = map snd (concat (concat LT))).
  Proof.
    intros Hs1 Hs2. unfold add_eps_loops_vec.
    change (v_rs1 (flat_vec fs)) with (splits_of fs).
    change (v_rs2 (flat_vec fs)) with (splits_of (concat fs)).
    change (v_arcs (flat_vec fs)) with (concat (concat fs)).
    rewrite zlen_splits_of. replace (zlen (concat fs) + 1 - 1) with (zlen (concat fs)) by lia.
    pose proof (zlen_nonneg (concat fs)) as ZS. pose proof (zlen_nonneg (concat (concat fs))) as ZA.
    pose proof (zlen_nonneg fs) as ZF.
    assert (SP : splits_of fs = splits_of fs').
    { unfold fs', splits_of. rewrite map_map. f_equal. apply map_ext. intros; now rewrite zlen_add_loops. }
    destruct (zlen (concat fs) =? 0) eqn:E0.
    { exists [], []. split.
      - do 2 f_equal. unfold flat_vec. rewrite <- SP.
        assert (C : concat fs = []) by (apply zlen_0_nil; lia).
        assert (C' : concat fs' = []).
        { assert (L : zlen (concat fs') = 0).
          { rewrite <- concat_LT_arcs, zlen_map.
            rewrite <- (off1_all LT). unfold LT. rewrite zlen_imap. fold LT.
            rewrite off1_LT by lia. rewrite off1_all. lia. }
          now apply zlen_0_nil. }
        rewrite C, C'. reflexivity.
      - intros Hne. exfalso. apply Hne, zlen_0_nil. lia. }
    rewrite zlen_exsum, fsa_nonempty_eq, zlen_map, <- fsa_nonempty_eq.
    rewrite rd_fmod by lia. rewrite !row_ids_of_splits.
    replace (zlen fs + 1 - 1) with (zlen fs) by lia.
    rewrite <- zlen_LT.
    rewrite (k2_fill_list (concat (concat LT)) (zlen (concat (concat fs)) + zlen (concat fs))); auto.
    - assert (LRS : zlen (splits_of (concat fs')) = zlen (concat fs) + 1).
      { rewrite zlen_splits_of. rewrite <- concat_LT_arcs, zlen_map.
        rewrite <- (off1_all LT). unfold LT. rewrite zlen_imap. fold LT. rewrite off1_LT by lia.
        rewrite off1_all. lia. }
      rewrite <- LRS.
      rewrite (k2_fill_list (splits_of (concat fs')) (zlen (concat fs))); auto.
      + eexists _, _. split; [|intros _; split; [|reflexivity]].
        * unfold flat_vec. rewrite <- SP. do 3 f_equal. apply concat2_LT_arcs.
        * rewrite (rows_carry_ids (fun t : T => snd (fst t))).
          -- unfold ids_of. rewrite <- concat_LT_arcs. symmetry. apply ids_from_map2.
          -- intros s row t Hs Ht. destruct (rd_concat_inv _ _ _ Hs) as (k & F & r & K1 & K2 & K3 & K4).
             unfold LT in K1. rewrite rd_imap in K1. destruct (rd fs k) as [f|] eqn:Ef; [|discriminate].
             injection K1 as <-. rewrite rd_imap in K2. destruct (rd f r) as [st|] eqn:Er; [|discriminate].
             injection K2 as <-. replace (0 + k) with k in * by lia. replace (0 + r) with r in * by lia.
             pose proof (rd_Some_bound _ _ _ Ef). rewrite off1_LT in K3 by lia. subst s.
             unfold tri in Ht. apply in_app_or in Ht as [Ht|Ht].
             ++ destruct (r + 1 <? zlen f); [destruct Ht as [<-|[]]; reflexivity|destruct Ht].
             ++ apply In_rd in Ht as (j & _ & Hj). rewrite rd_imap in Hj.
                destruct (rd st j); [|discriminate]. injection Hj as <-. reflexivity.
      + intros s Hs. destruct (state_inv s Hs) as (k & f & r & st & K1 & K2 & K3 & K4).
        pose proof (rd_Some_bound _ _ _ K1). pose proof (rd_Some_bound _ _ _ K2).
        unfold epsv_rs_body. change (v_rs1 (flat_vec fs)) with (splits_of fs).
        change (v_rs2 (flat_vec fs)) with (splits_of (concat fs)).
        rewrite zlen_splits_of. replace (zlen (concat fs) + 1 - 1) with (zlen (concat fs)) by lia.
        rewrite K4. rewrite rd_fmod by lia. rewrite !rd_splits_off by lia.
        rewrite (off1_next fs k f K1).
        eexists; split; [reflexivity|].
        assert (NP : off1 (concat fs') s = off1 (concat fs) s + s - nne fs k).
        { subst s. now apply (new_pos k f r st). }
        constructor; [cbn [fst snd]; rewrite rd_splits_off by (rewrite zlen_splits_of in LRS; lia); now rewrite NP|].
        destruct (s + 1 <? off1 fs k + zlen f) eqn:E1; [constructor|].
        destruct (s + 1 =? zlen (concat fs)) eqn:E2; [|constructor].
        repeat constructor. cbn [fst snd].
        rewrite rd_splits_off by (rewrite zlen_splits_of in LRS; lia). f_equal.
        rewrite <- NP. replace (zlen (concat fs)) with (s + 1) by lia.
        assert (Hst : st = []) by (apply (state_arcs_final k f r); auto; lia).
        assert (R' : rd (concat fs') s = Some []).
        { rewrite <- concat_LT_arcs, rd_map. subst s. rewrite (rd_LT_row k f r st) by auto.
          simpl. unfold tri. replace (r + 1 <? zlen f) with false by lia. subst st. reflexivity. }
        rewrite (off1_next _ _ _ R'). change (zlen (@nil arc)) with 0. lia.
      + intros j Hj. rewrite LRS in Hj.
        set (s := Z.min j (zlen (concat fs) - 1)).
        destruct (state_inv s) as (k & f & r & st & K1 & K2 & K3 & K4); [lia|].
        pose proof (rd_Some_bound _ _ _ K1). pose proof (rd_Some_bound _ _ _ K2).
        exists s. unfold epsv_rs_body. change (v_rs1 (flat_vec fs)) with (splits_of fs).
        change (v_rs2 (flat_vec fs)) with (splits_of (concat fs)).
        rewrite zlen_splits_of. replace (zlen (concat fs) + 1 - 1) with (zlen (concat fs)) by lia.
        rewrite K4. rewrite rd_fmod by lia. rewrite !rd_splits_off by lia.
        rewrite (off1_next fs k f K1).
        eexists; split; [lia|split; [reflexivity|]].
        destruct (Z.eq_dec j (zlen (concat fs))) as [Ej|Ej]; [|left; simpl; lia].
        right. replace (s + 1 <? off1 fs k + zlen f) with false.
        * replace (s + 1 =? zlen (concat fs)) with true by lia. simpl. lia.
        * symmetry. rewrite <- (off1_next fs k f K1). pose proof (off1_bound fs (k + 1)). lia.
    - intros i Hi. unfold seq_body. destruct (i <? zlen (concat (concat fs))) eqn:Ei.
      + destruct (rd_in_bound (concat (concat fs)) i) as (a & Ha); [lia|].
        destruct (rd_concat3 fs i a Ha) as (k & f & r & st & j & H1 & H2 & H3 & H4 & H5 & H6).
        pose proof (rd_Some_bound _ _ _ H1). pose proof (rd_Some_bound _ _ _ H2). pose proof (rd_Some_bound _ _ _ H3).
        unfold epsv_copy_body. rewrite H4, H5. rewrite rd_fmod by lia.
        change (v_arcs (flat_vec fs)) with (concat (concat fs)). rewrite Ha.
        eexists; split; [reflexivity|]. repeat constructor. cbn [fst snd].
        assert (E : i = off1 (concat fs) (off1 fs k + r) + j).
        { rewrite (off1_concat fs k f r), <- off1_map_concat by (auto; lia). lia. }
        assert (NF : r + 1 < zlen f).
        { destruct (Z.eq_dec (r + 1) (zlen f)) as [E'|]; [|lia].
          rewrite (state_arcs_final k f r st H1 H2 E') in H3. now rewrite rd_nil in H3. }
        rewrite <- (rd_LT_elem k f r st (1 + j) (a, off1 fs k + r, i)); auto.
        * f_equal. lia.
        * unfold tri. replace (r + 1 <? zlen f) with true by lia. cbn [app].
          rewrite rd_cons. replace (1 + j =? 0) with false by lia. replace (1 + j - 1) with j by lia.
          rewrite rd_imap, H3. simpl. do 2 f_equal. lia.
      + set (s := i - zlen (concat (concat fs))).
        destruct (state_inv s) as (k & f & r & st & K1 & K2 & K3 & K4); [lia|].
        pose proof (rd_Some_bound _ _ _ K1). pose proof (rd_Some_bound _ _ _ K2).
        unfold epsv_loop_body. change (v_rs1 (flat_vec fs)) with (splits_of fs).
        change (v_rs2 (flat_vec fs)) with (splits_of (concat fs)).
        rewrite K4. rewrite rd_fmod by lia. rewrite !rd_splits_off by lia.
        rewrite (off1_next fs k f K1). eexists; split; [reflexivity|].
        destruct (s + 1 <? off1 fs k + zlen f) eqn:E1; repeat constructor. cbn [fst snd].
        rewrite <- (rd_LT_elem k f r st 0 (mkArc (s - off1 fs k) (s - off1 fs k) 0 0, s, -1)); auto.
        * f_equal. rewrite <- K3. lia.
        * unfold tri. replace (r + 1 <? zlen f) with true by lia. cbn [app]. rewrite rd_cons_0.
          rewrite K3. now replace (off1 fs k + r - off1 fs k) with r by lia.
    - intros p Hp. destruct (rd_in_bound _ _ Hp) as (t & Ht).
      destruct (LT_inv p t Ht) as (k & f & r & st & j & K1 & K2 & K3 & K4 & K5).
      pose proof (rd_Some_bound _ _ _ K1). pose proof (rd_Some_bound _ _ _ K2).
      pose proof (rd_Some_bound _ _ _ K3).
      assert (SB : 0 <= off1 fs k + r < zlen (concat fs)).
      { pose proof (off1_nonneg fs k). pose proof (off1_bound fs (k + 1)).
        rewrite (off1_next fs k f K1) in *. lia. }
      assert (SI : rd (ids_of fs) (off1 fs k + r) = Some k) by (eapply rd_concat_off; eauto).
      unfold tri in K3. rewrite rd_app in K3.
      destruct (j <? zlen (if r + 1 <? zlen f then [(mkArc r r 0 0, off1 fs k + r, -1)] else [])) eqn:Ej.
      + destruct (r + 1 <? zlen f) eqn:Er; [|change (zlen (@nil (arc * Z * Z))) with 0 in Ej; lia].
        change (zlen [_]) with 1 in Ej. assert (j = 0) by lia. subst j.
        exists (zlen (concat (concat fs)) + (off1 fs k + r)). unfold seq_body.
        replace (_ <? _) with false by lia.
        unfold epsv_loop_body. change (v_rs1 (flat_vec fs)) with (splits_of fs).
        change (v_rs2 (flat_vec fs)) with (splits_of (concat fs)).
        replace (zlen (concat (concat fs)) + (off1 fs k + r) - zlen (concat (concat fs))) with (off1 fs k + r) by lia.
        rewrite SI. rewrite rd_fmod by lia. rewrite !rd_splits_off by lia.
        rewrite (off1_next fs k f K1). eexists; split; [lia|split; [reflexivity|]].
        replace (off1 fs k + r + 1 <? off1 fs k + zlen f) with true by lia. simpl. lia.
      + rewrite rd_imap in K3. set (j' := j - _) in K3. destruct (rd st j') as [a|] eqn:Ea; [|discriminate].
        assert (NF : r + 1 < zlen f).
        { destruct (Z.eq_dec (r + 1) (zlen f)) as [E'|]; [|lia].
          rewrite (state_arcs_final k f r st K1 K2 E') in Ea. now rewrite rd_nil in Ea. }
        assert (Hj' : j' = j - 1).
        { unfold j'. replace (r + 1 <? zlen f) with true by lia. reflexivity. }
        assert (ROW : rd (concat fs) (off1 fs k + r) = Some st) by (eapply rd_concat_off; eauto).
        destruct (rd_concat_off (concat fs) (off1 fs k + r) st j' a ROW Ea) as [A1 A2].
        exists (off1 (concat fs) (off1 fs k + r) + j'). pose proof (rd_Some_bound _ _ _ A1).
        unfold seq_body. replace (_ <? _) with true by lia. unfold epsv_copy_body.
        rewrite A2, SI. rewrite rd_fmod by lia.
        change (v_arcs (flat_vec fs)) with (concat (concat fs)). rewrite A1.
        eexists; split; [lia|split; [reflexivity|]]. simpl. left. lia.
  Qed.

  (** The arc map: -1 exactly on the added loops, otherwise the same arc. *)
  Lemma add_eps_vec_map i t : rd (concat (concat LT)) i = Some t ->
    (snd t = -1 /\ exists s, 0 <= s /\ garc t = mkArc s s 0 0) \/
    rd (concat (concat fs)) (snd t) = Some (garc t).
  Proof.
    intros H. destruct (LT_inv i t H) as (k & f & r & st & j & K1 & K2 & K3 & K4 & K5).
    pose proof (rd_Some_bound _ _ _ K2).
    apply rd_In in K3. unfold tri in K3. apply in_app_or in K3 as [K3|K3].
    - left. destruct (r + 1 <? zlen f); [|destruct K3]. destruct K3 as [<-|[]]. simpl.
      split; auto. exists r. split; [lia|reflexivity].
    - right. apply In_rd in K3 as (j' & _ & Hj). rewrite rd_imap in Hj.
      destruct (rd st j') as [a|] eqn:Ea; [|discriminate]. injection Hj as <-. simpl.
      eapply rd_concat_off; eauto. eapply rd_concat_off; eauto.
  Qed.
End V.

(** ** Language of [add_loops] *)
Lemma add_loops_in f a : In a (all_arcs (add_loops f)) <->
  In a (all_arcs f) \/ exists r, 0 <= r < final f /\ a = mkArc r r 0 0.
Proof.
  unfold all_arcs. rewrite !in_concat. split.
  - intros (st' & Hst' & Ha). apply In_rd in Hst' as (r & Hr & E).
    unfold add_loops in E. rewrite rd_imap in E. destruct (rd f r) as [st|] eqn:Er; [|discriminate].
    injection E as <-. pose proof (rd_Some_bound _ _ _ Er). replace (0 + r) with r in Ha by lia.
    destruct (r + 1 <? nstates f) eqn:E1.
    + destruct Ha as [<-|Ha].
      * right. exists r. unfold final, nstates in *. split; [lia|auto].
      * left. exists st. split; auto. eapply rd_In; eauto.
    + left. exists st. split; auto. eapply rd_In; eauto.
  - intros [(st & Hst & Ha)|(r & Hr & ->)].
    + apply In_rd in Hst as (r & Hr & E). exists (if r + 1 <? zlen f then mkArc r r 0 0 :: st else st).
      split; [eapply rd_In, rd_add_loops; eauto|]. destruct (r + 1 <? zlen f); [right|]; auto.
    + unfold final in Hr. destruct (rd_in_bound f r) as (st & Hst); [lia|].
      exists (mkArc r r 0 0 :: st). split; [|now left]. eapply rd_In. rewrite (rd_add_loops f r st Hst).
      replace (r + 1 <? zlen f) with true by lia. reflexivity.
Qed.

Lemma final_add_loops f : final (add_loops f) = final f.
Proof. unfold final. now rewrite zlen_add_loops. Qed.

Lemma add_loops_path f p : forall s t, path (all_arcs (add_loops f)) s p t ->
  exists p0, path (all_arcs f) s p0 t /\ strip (labels p0) = strip (labels p) /\ score p0 = score p.
Proof.
  induction p as [|a p IH]; intros s t Hp.
  - apply path_inv in Hp as [(_ & ->)|(a & p' & E & _)]; [|discriminate].
    exists []. repeat split. constructor.
  - apply path_inv in Hp as [(E & _)|(a' & p' & E & Ha & Es & Hp)]; [discriminate|]. injection E as <- <-.
    destruct (IH _ _ Hp) as (p0 & P1 & P2 & P3).
    apply add_loops_in in Ha as [Ha|(r & Hr & ->)].
    + exists (a :: p0). repeat split.
      * apply path_step; auto.
      * change (labels (a :: p0)) with ([lab a] ++ labels p0). change (labels (a :: p)) with ([lab a] ++ labels p).
        now rewrite !strip_app, P2.
      * now rewrite !score_cons, P3.
    + simpl in *. exists p0. subst r. repeat split; auto.
Qed.

Lemma add_loops_language f w s : accepts_str (add_loops f) w s <-> accepts_str f w s.
Proof.
  unfold accepts_str. rewrite final_add_loops. split; intros (p & P1 & P2 & P3).
  - destruct (add_loops_path f p _ _ P1) as (p0 & Q1 & Q2 & Q3). exists p0.
    repeat split; auto; congruence.
  - exists p. repeat split; auto. eapply path_incl; [|exact P1]. intros. apply add_loops_in; auto.
Qed.

Lemma add_loops_valid f : valid f -> valid (add_loops f).
Proof.
  intros (Hs & Hn & Hv). unfold valid, nstates in *. rewrite zlen_add_loops, final_add_loops.
  split; [|split; [auto|]].
  - intros i st a Hi Ha. unfold add_loops in Hi. rewrite rd_imap in Hi.
    destruct (rd f i) as [st0|] eqn:E; [|discriminate]. injection Hi as <-.
    replace (0 + i) with i in Ha by lia.
    destruct (i + 1 <? nstates f); [destruct Ha as [<-|Ha]; [reflexivity|]|]; eapply Hs; eauto.
  - intros a Ha. apply add_loops_in in Ha as [Ha|(r & Hr & ->)]; [now apply Hv|].
    unfold final in *. simpl. lia.
Qed.
