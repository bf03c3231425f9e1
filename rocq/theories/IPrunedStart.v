(** * The constructor and the first frame *)
From Coq Require Import ZArith List Lia Bool QArith Permutation.
From Coq Require Import ZifyBool ZifyNat.
From Verif Require Import Base RaggedModel RaggedSpec RaggedProofs FsaSpec FsaLemmas RaggedOpsModel OpsModel RaggedOpsProofs ConnectProofs ScoreSpec ScorePaths IDenseModel IDenseSpec IDevModel IPrunedModel IPrunedNest IPrunedCut IPrunedMerge IPrunedFwd IPrunedCol IPrunedInv IPrunedPrune IPrunedAlive IPrunedRun.
From Verif Require Import IDensePaths.
Import ListNotations.
Open Scope Z_scope.

Lemma map_ids {A B} (R : list (list A)) (g : A -> B) (h : Z -> B) : (forall k r x, rd R k = Some r -> In x r -> g x = h k) -> map g (concat R) = map h (ids_of R).
Proof.
  intros H. apply map_rel; [unfold ids_of; now rewrite zlen_ids_from|]. intros i x y Hx Hy. apply rd_concat_inv in Hx as (r & l & j & E1 & E2 & _ & E3). rewrite Hy in E3. injection E3 as ->. eapply H; eauto using rd_In.
Qed.
Lemma off1_total {A} (R : list (list A)) : off1 R (zlen R) = zlen (concat R).
Proof. unfold off1. rewrite firstn_all2 by (unfold zlen; lia). reflexivity. Qed.

Section Start.
Context (V : list nfsa) (seqs : list frames) (cols stride : Z) (c : cfg) (SU : setup V seqs cols stride c).
Hypothesis Hn : 1 <= zlen seqs.
Hypothesis Hsh : zlen V = 1 -> c_astride c = 0.
Hypothesis Hsb : 0 < c_sbeam c.
Hypothesis RH : forall k, 0 <= k < zlen seqs -> 0 < zlen (rw seqs k) /\ (forall t, 0 <= t < zlen (rw seqs k) - 1 -> frame (rw seqs k) t (-1) = None) /\
  (forall l, l <> -1 -> frame (rw seqs k) (zlen (rw seqs k) - 1) l = None).
Notation n := (zlen seqs).
Definition row0 (k : Z) : list nst := match gr V c k with [] => [] | _ => [(mkS (vb V c k) (Some 0) None, [])] end.
Definition N0 : nframe := map row0 (zrange n).

Lemma rd_N0 k r : rd N0 k = Some r -> 0 <= k < n /\ r = row0 k.
Proof. unfold N0. intros H. pose proof (rd_Some_bound _ _ _ H) as B. rewrite zlen_map, zlen_zrange in B by apply zlen_nonneg. rewrite rd_map, rd_zrange in H by lia. injection H as <-. auto. Qed.
Lemma zlen_N0 : zlen N0 = n. Proof. unfold N0. rewrite zlen_map, zlen_zrange by apply zlen_nonneg. reflexivity. Qed.
Lemma zlen_row0 k : zlen (row0 k) = b2z (0 <? zlen (gr V c k)).
Proof. unfold row0. destruct (gr V c k) as [|l g]; [reflexivity|]. rewrite zlen_cons. pose proof (zlen_nonneg g). replace (0 <? 1 + zlen g) with true by lia. reflexivity. Qed.

Lemma initial_ok : exists f, initial_frame c = Some f /\ isS f N0.
Proof.
  pose proof (su_n _ _ _ _ _ SU) as En. unfold initial_frame. rewrite (su_v _ _ _ _ _ SU), En. cbn [v_rs1 v_rs2 flat_vec]. rewrite !zlen_splits_of. replace (zlen V + 1 - 1) with (zlen V) by lia. replace (zlen (concat V) + 1 - 1) with (zlen (concat V)) by lia.
  destruct (Z.eqb_spec (zlen V) 1) as [E1|E1].
  - assert (exists f0, V = [f0]) as (f0 & EV). { destruct V as [|f0 [|f1 V']]; [rewrite zlen_nil in E1; lia|eauto|rewrite !zlen_cons in E1; pose proof (zlen_nonneg V'); lia]. } pose proof (Hsh E1) as Hs.
    assert (G : forall k, gr V c k = f0) by (intros k; unfold gr, gi; rewrite Hs, Z.mul_0_r, EV, rd_cons_0; reflexivity). assert (B : forall k, vb V c k = 0) by (intros k; unfold vb, gi; rewrite Hs, Z.mul_0_r; reflexivity).
    assert (EC : zlen (concat V) = zlen f0) by (rewrite EV; cbn; now rewrite app_nil_r). rewrite EC. eexists. split; [reflexivity|]. set (per := if 0 <? zlen f0 then 1 else 0).
    assert (Zr : forall r, In r N0 -> zlen r = per). { intros r Hr. apply In_rd in Hr as (k & _ & Hk). apply rd_N0 in Hk as (_ & ->). rewrite zlen_row0, G. unfold per. destruct (0 <? zlen f0); reflexivity. }
    assert (OU : forall k, 0 <= k <= n -> off1 N0 k = k * per) by (intros k Hk; apply off1_uniform; [exact Zr|rewrite zlen_N0; exact Hk]).
    assert (ZC : zlen (concat N0) = n * per) by (rewrite <- off1_total, zlen_N0; apply OU; lia). assert (Hper : 0 <= per) by (unfold per; destruct (0 <? zlen f0); lia).
    assert (EI : map (fun i => i / per) (zrange (n * per)) = ids_of N0).
    { apply list_ext_rd; [rewrite zlen_map, zlen_zrange by nia; unfold ids_of; rewrite zlen_ids_from; lia|]. intros i Hi. rewrite zlen_map, zlen_zrange in Hi by nia. rewrite rd_map, rd_zrange by lia. cbn. destruct (rd_in_bound (concat N0) i) as (x & Hx); [lia|]. apply rd_concat_inv in Hx as (r & l & j & X1 & X2 & X3 & ->). f_equal.
      pose proof (rd_Some_bound _ _ _ X1) as Br. rewrite zlen_N0 in Br. rewrite OU in X3 by lia. apply rd_Some_bound in X2. rewrite (Zr l (rd_In _ _ _ X1)) in X2. subst i. unfold per in *. destruct (0 <? zlen f0); [|lia]. rewrite Z.mul_1_r, Z.div_1_r. lia. }
    split; cbn [f_rs1 f_ids1 f_states].
    + apply list_ext_rd; [rewrite zlen_map, zlen_zrange, zlen_splits_of, zlen_N0; lia|]. intros i Hi. rewrite zlen_map, zlen_zrange in Hi by lia. rewrite rd_map, rd_zrange by lia. rewrite rd_splits_off by (rewrite zlen_N0; lia). rewrite OU by lia. reflexivity.
    + exact EI.
    + transitivity (map (fun _ : Z => mkS 0 (Some 0) None) (ids_of N0)); [rewrite <- EI, map_map; reflexivity|]. symmetry. apply map_ids. intros k r x Hk Hx. apply rd_N0 in Hk as (_ & ->). unfold row0 in Hx. rewrite G, B in Hx. destruct f0; [easy|]. destruct Hx as [<-|[]]. reflexivity.
  - destruct (su_sh _ _ _ _ _ SU) as [(A & _)|(A & B & _)]; [lia|]. assert (EG : forall k, 0 <= k < n -> rd V k = Some (gr V c k)) by (intros k Hk; destruct (col_at V seqs cols stride c SU k Hk) as (X & _); unfold gi in X; rewrite B, Z.mul_1_r in X; exact X).
    assert (EB : forall k, vb V c k = off1 V k) by (intros k; unfold vb, gi; now rewrite B, Z.mul_1_r). rewrite A.
    assert (EM : mapM (fun k => x <- rd (splits_of V) k;; y <- rd (splits_of V) (k + 1);; Some (b2z (x <? y))) (zrange n) = Some (map zlen N0)).
    { unfold N0. rewrite map_map. apply mapM_Some_map. intros k Hk. apply in_zrange in Hk. rewrite !rd_splits_off by lia. rewrite (off1_next V k _ (EG k Hk)), zlen_row0. do 2 f_equal. pose proof (zlen_nonneg (gr V c k)). lia. }
    rewrite EM. change (exsum (map zlen N0)) with (splits_of N0).
    assert (ED : rd (splits_of N0) n = Some (zlen (concat N0))) by (rewrite rd_splits_off by (rewrite zlen_N0; lia); rewrite <- zlen_N0, off1_total; reflexivity). rewrite ED, row_ids_of_splits.
    assert (ES : mapM (fun k => x <- rd (splits_of V) k;; Some (mkS x (Some 0) None)) (ids_of N0) = Some (map (fun k => mkS (off1 V k) (Some 0) None) (ids_of N0))).
    { apply mapM_Some_map. intros k Hk. assert (Bk : 0 <= k < n). { apply In_rd in Hk as (i & Bi & Hi). unfold ids_of in Bi. rewrite zlen_ids_from in Bi. destruct (rd_in_bound (concat N0) i Bi) as (x & Hx). apply rd_concat_inv in Hx as (r & l & j & X1 & _ & _ & X4). rewrite Hi in X4. injection X4 as ->. apply rd_Some_bound in X1. rewrite zlen_N0 in X1. exact X1. } rewrite rd_splits_off by lia. reflexivity. }
    rewrite ES. eexists. split; [reflexivity|]. split; cbn [f_rs1 f_ids1 f_states]; [reflexivity|reflexivity|]. symmetry. apply map_ids. intros k r x Hk Hx. apply rd_N0 in Hk as (_ & ->). unfold row0 in Hx. rewrite EB in Hx. destruct (gr V c k); [easy|]. destruct Hx as [<-|[]]. reflexivity.
Qed.

Lemma start_ok T : 0 < T -> exists r, start_run c = Some r /\ rinv V seqs c T r [N0].
Proof.
  intros HT. destruct initial_ok as (f & E & S). unfold start_run. rewrite E. eexists. split; [reflexivity|]. pose proof (su_n _ _ _ _ _ SU) as En.
  split; cbn [r_frames r_beams r_hash r_t r_done r_bsem r_fsem r_wait].
  - lia.
  - lia.
  - reflexivity.
  - reflexivity.
  - intros i f' N Hf HN. pose proof (rd_Some_bound _ _ _ Hf) as B. rewrite zlen_cons, zlen_nil in B. assert (i = 0) as -> by lia. rewrite rd_cons_0 in *. injection Hf as <-. injection HN as <-. split; [exact S|lia].
  - intros N [<-|[]]. apply zlen_N0.
  - reflexivity.
  - rewrite zlen_map, zlen_zrange by lia. exact En.
  - intros k beam Hb. rewrite rd_map in Hb. destruct (rd (zrange (c_n c)) k) as [k'|] eqn:Ek; [|discriminate]. injection Hb as <-. apply rd_Some_bound in Ek. rewrite zlen_zrange, En in Ek by lia.
    cbn [map]. assert (EC : colk k N0 = row0 k) by (unfold colk, N0; rewrite rd_map, rd_zrange by lia; reflexivity). rewrite EC. unfold eprev. cbn [Z.eqb]. destruct (RH k Ek) as (K1 & _ & _).
    assert (on0 : forall i x, on [row0 k] i x -> i = 0 /\ x = (mkS (vb V c k) (Some 0) None, []) /\ 2 <= zlen (gr V c k)).
    { intros i x (col & Hc & Hx). pose proof (rd_Some_bound _ _ _ Hc) as B. rewrite zlen_cons, zlen_nil in B. assert (i = 0) as -> by lia. rewrite rd_cons_0 in Hc. injection Hc as <-. split; [reflexivity|]. unfold row0 in Hx. pose proof (gr_valid V seqs cols stride c SU k) as GV. destruct (gr V c k) as [|l g]; [easy|]. destruct Hx as [<-|[]]. split; [reflexivity|]. destruct GV as [X|(_ & X & _)]; [discriminate|exact X]. }
    exists false. split.
    + split.
      * rewrite zlen_cons, zlen_nil. lia.
      * discriminate.
      * exists (row0 k). split; [apply rd_cons_0|]. unfold row0. destruct (gr V c k); (split; [reflexivity|]); [easy|]. intros x [<-|[]]. reflexivity.
      * intros i x Hx. destruct (on0 i x Hx) as (-> & -> & G). cbn. lia.
      * intros i x Hx. destruct (on0 i x Hx) as (-> & -> & G). cbn. split; [eauto|]. intros _. exists []. replace (vb V c k - vb V c k) with 0 by lia. split; [constructor|]. split; reflexivity.
      * intros i col Hc. pose proof (rd_Some_bound _ _ _ Hc) as B. rewrite zlen_cons, zlen_nil in B. assert (i = 0) as -> by lia. rewrite rd_cons_0 in Hc. injection Hc as <-. unfold row0. destruct (gr V c k); [constructor|]. cbn. constructor; [easy|constructor].
      * intros i x y Hx Hy. destruct (on0 i x Hx) as (-> & -> & G). easy.
      * intros i x Hx. destruct (on0 i x Hx) as (-> & -> & G). constructor.
      * intros i x y Hx Hy. destruct (on0 i x Hx) as (-> & -> & G). easy.
    + intros p z _. split; [|intros _; apply Qle_refl]. split; [rewrite zlen_cons, zlen_nil; lia|]. intros i j Hi. rewrite zlen_cons, zlen_nil in Hi. lia.
  - rewrite (wok_none _ 0 T 0 (prune_windows_ok T HT)) by lia. lia.
  - rewrite (wok_none _ 0 T 0 (prune_windows_ok T HT)) by lia. lia.
  - rewrite (wok_none _ 0 T 0 (prune_windows_ok T HT)) by lia. reflexivity.
  - lia.
Qed.
End Start.
