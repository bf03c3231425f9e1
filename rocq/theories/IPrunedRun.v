(** * The two threads: what holds of every execution *)
From Coq Require Import ZArith List Lia Bool QArith Permutation.
From Coq Require Import ZifyBool ZifyNat.
From Verif Require Import Base RaggedModel RaggedSpec RaggedProofs FsaSpec FsaLemmas RaggedOpsModel OpsModel RaggedOpsProofs ConnectProofs ScoreSpec ScorePaths IDenseModel IDenseSpec IDevModel IPrunedModel IPrunedNest IPrunedCut IPrunedMerge IPrunedFwd IPrunedCol IPrunedInv IPrunedPrune IPrunedAlive.
From Verif Require Import IDensePaths.
Import ListNotations.
Open Scope Z_scope.

(** ** The windows *)
Fixpoint wok (lo : Z) (ws : list (Z * Z)) (T : Z) : Prop :=
  match ws with
  | [] => False
  | (b, e) :: ws' => 0 <= b <= lo /\ lo < e <= T /\ (ws' = [] /\ e = T \/ wok e ws' T)
  end.
Lemma windows_ok T : forall fuel b, -10 <= b -> b + 10 < T -> T - b - 10 <= Z.of_nat fuel -> wok (b + 10) (windows fuel T b) T.
Proof.
  induction fuel as [|n IH]; intros b H1 H2 H3; [lia|]. cbn [windows]. destruct (Z.leb_spec T (b + 30)); cbn [wok].
  - split; [lia|]. split; [lia|]. left. auto.
  - split; [lia|]. split; [lia|]. right. replace (b + 30) with (b + 20 + 10) by lia. apply IH; lia.
Qed.
Lemma prune_windows_ok T : 0 < T -> wok 0 (prune_windows T) T.
Proof. intros H. unfold prune_windows. apply (windows_ok T _ (-10)); lia. Qed.
Definition sgn (ws : list (Z * Z)) (t : Z) : Z := zlen (filter (fun w => snd w <=? t) ws).
Lemma sgn_cons w ws t : sgn (w :: ws) t = b2z (snd w <=? t) + sgn ws t.
Proof. unfold sgn. cbn. destruct (snd w <=? t); cbn [b2z]; rewrite ?zlen_cons; lia. Qed.
Lemma sgn_nonneg ws t : 0 <= sgn ws t. Proof. apply zlen_nonneg. Qed.
Lemma wok_none ws : forall lo T t, wok lo ws T -> t <= lo -> sgn ws t = 0.
Proof.
  induction ws as [|(b, e) ws IH]; intros lo T t H Ht; [destruct H|]. destruct H as (H1 & H2 & H3). rewrite sgn_cons. cbn [snd]. replace (e <=? t) with false by lia. cbn [b2z]. destruct H3 as [(-> & _)|H3]; [reflexivity|]. rewrite (IH e T t H3); lia.
Qed.
Lemma wok_rd ws : forall lo T t i w, wok lo ws T -> rd ws i = Some w -> (snd w <= t <-> i < sgn ws t).
Proof.
  induction ws as [|(b, e) ws IH]; intros lo T t i w H Hi; [destruct H|]. destruct H as (H1 & H2 & H3). rewrite sgn_cons. cbn [snd]. pose proof (rd_Some_bound _ _ _ Hi) as B. pose proof (sgn_nonneg ws t). destruct (Z.eq_dec i 0) as [->|Hz].
  - rewrite rd_cons_0 in Hi. injection Hi as <-. cbn [snd]. destruct (Z.leb_spec e t); cbn [b2z]; [lia|]. destruct H3 as [(-> & _)|H3]; [change (sgn [] t) with 0; lia|]. rewrite (wok_none _ _ _ _ H3) by lia. lia.
  - assert (exists j, i = j + 1 /\ 0 <= j) as (j & -> & Hj) by (exists (i - 1); lia). rewrite rd_cons_S in Hi by lia. destruct H3 as [(-> & _)|H3]; [now rewrite rd_nil in Hi|]. pose proof (IH e T t j w H3 Hi) as X.
    destruct (Z.leb_spec e t); cbn [b2z]; [lia|]. rewrite (wok_none _ _ _ _ H3) in X by lia. rewrite (wok_none _ _ _ _ H3) by lia. lia.
Qed.
Definition eprev (lo : Z) (ws : list (Z * Z)) (i : Z) : Z := if i =? 0 then lo else match rd ws (i - 1) with Some w => snd w | None => lo end.
Lemma wok_at ws : forall lo T i w, wok lo ws T -> rd ws i = Some w -> 0 <= fst w <= eprev lo ws i /\ eprev lo ws i < snd w <= T /\ (i = zlen ws - 1 -> snd w = T).
Proof.
  induction ws as [|(b, e) ws IH]; intros lo T i w H Hi; [destruct H|]. destruct H as (H1 & H2 & H3). pose proof (rd_Some_bound _ _ _ Hi) as B. rewrite zlen_cons in *. pose proof (zlen_nonneg ws). destruct (Z.eq_dec i 0) as [->|Hz].
  - rewrite rd_cons_0 in Hi. injection Hi as <-. change (eprev lo ((b, e) :: ws) 0) with lo. cbn [fst snd]. split; [lia|]. split; [lia|]. intros E. destruct H3 as [(_ & E')|H3]; [exact E'|]. destruct ws; [destruct H3|]. rewrite zlen_cons in E. pose proof (zlen_nonneg ws). lia.
  - assert (exists j, i = j + 1 /\ 0 <= j) as (j & -> & Hj) by (exists (i - 1); lia). rewrite rd_cons_S in Hi by lia. destruct H3 as [(-> & _)|H3]; [now rewrite rd_nil in Hi|]. destruct (IH e T j w H3 Hi) as (I1 & I2 & I3).
    assert (EQ : eprev lo ((b, e) :: ws) (j + 1) = eprev e ws j). { unfold eprev. replace (j + 1 =? 0) with false by lia. replace (j + 1 - 1) with j by lia. destruct (Z.eqb_spec j 0) as [->|Hj0]; [reflexivity|]. replace j with (j - 1 + 1) at 1 by lia. rewrite rd_cons_S by lia. destruct (rd_in_bound ws (j - 1)) as (w' & ->); [apply rd_Some_bound in Hi; lia|reflexivity]. }
    rewrite EQ. split; [lia|]. split; [lia|]. intros E. apply I3. lia.
Qed.
Lemma sgn_next ws : forall lo T t, wok lo ws T -> sgn ws (t + 1) = sgn ws t + b2z (existsb (fun w => snd w - 1 =? t) ws).
Proof.
  induction ws as [|(b, e) ws IH]; intros lo T t H; [destruct H|]. destruct H as (H1 & H2 & H3). rewrite !sgn_cons. cbn [snd existsb].
  assert (Nx : e <= t \/ sgn ws (t + 1) = sgn ws t + b2z (existsb (fun w => snd w - 1 =? t) ws)). { right. destruct H3 as [(-> & _)|H3]; [reflexivity|]. eapply IH; eauto. }
  assert (IHs : sgn ws (t + 1) = sgn ws t + b2z (existsb (fun w => snd w - 1 =? t) ws)). { destruct H3 as [(-> & _)|H3]; [reflexivity|]. eapply IH; eauto. }
  destruct (Z.eqb_spec (e - 1) t) as [E|E]; cbn [orb].
  - replace (e <=? t + 1) with true by lia. replace (e <=? t) with false by lia. destruct H3 as [(-> & _)|H3]; [reflexivity|]. rewrite !(wok_none _ _ _ _ H3) by lia. reflexivity.
  - rewrite IHs. replace (e <=? t + 1) with (e <=? t) by lia. lia.
Qed.
Lemma sgn_all ws : forall lo T t, wok lo ws T -> T <= t -> sgn ws t = zlen ws.
Proof. induction ws as [|(b, e) ws IH]; intros lo T t H Ht; [destruct H|]. destruct H as (H1 & H2 & H3). rewrite sgn_cons, zlen_cons. cbn [snd]. replace (e <=? t) with true by lia. cbn [b2z]. destruct H3 as [(-> & _)|H3]; [reflexivity|]. rewrite (IH e T t H3); lia. Qed.
Lemma sgn_le ws t : sgn ws t <= zlen ws.
Proof. induction ws as [|w ws IH]; [unfold sgn; cbn; lia|]. rewrite sgn_cons, zlen_cons. destruct (snd w <=? t); cbn [b2z]; lia. Qed.

(** ** Lists *)
Lemma rd_skip {X} (l : list X) b i : 0 <= b -> 0 <= i -> rd (skipn (Z.to_nat b) l) i = rd l (b + i).
Proof.
  intros Hb Hi. destruct (Z_lt_ge_dec b (zlen l)) as [L|G].
  - rewrite <- (firstn_skipn (Z.to_nat b) l) at 2. rewrite rd_app_r by (rewrite zlen_firstn; lia). f_equal. rewrite zlen_firstn by lia. lia.
  - rewrite skipn_all2 by (unfold zlen in *; lia). rewrite rd_nil. destruct (rd l (b + i)) eqn:E; [|reflexivity]. apply rd_Some_bound in E. lia.
Qed.
(** replacing the elements from [b] to [e] *)
Lemma splice {X} (l w : list X) x b e : 0 <= b <= e -> e < zlen l -> zlen w = e - b ->
  let l' := firstn (Z.to_nat b) l ++ w ++ x :: skipn (S (Z.to_nat e)) l in
  zlen l' = zlen l /\ (forall i, i < b \/ e < i -> rd l' i = rd l i) /\ rd l' e = Some x /\ (forall m, 0 <= m < e - b -> rd l' (b + m) = rd w m).
Proof.
  intros Hb He Hw l'. assert (ZF : zlen (firstn (Z.to_nat b) l) = b) by (apply zlen_firstn; lia). 
  assert (ZS : zlen (skipn (Z.to_nat (e + 1)) l) = zlen l - e - 1) by (unfold zlen in *; rewrite skipn_length; lia). unfold l'. replace (S (Z.to_nat e)) with (Z.to_nat (e + 1)) by lia. split; [|split; [|split]].
  - rewrite !zlen_app, zlen_cons. lia.
  - intros i [Hi|Hi].
    + rewrite rd_app_l by lia. destruct (Z_lt_ge_dec i 0) as [N|N]; [|rewrite ExtractProofs.rd_firstn by lia; reflexivity]. unfold rd. replace (i <? 0) with true by lia. reflexivity.
    + rewrite rd_app_r by lia. rewrite rd_app_r by lia. rewrite ZF, Hw. assert (exists j, i - b - (e - b) = j + 1 /\ 0 <= j) as (j & Ej & Hj) by (exists (i - e - 1); lia). rewrite Ej, rd_cons_S by lia. rewrite rd_skip by lia. f_equal. lia.
  - rewrite rd_app_r by lia. rewrite rd_app_r by lia. rewrite ZF, Hw. replace (e - b - (e - b)) with 0 by lia. apply rd_cons_0.
  - intros m Hm. rewrite rd_app_r by lia. rewrite ZF. replace (b + m - b) with m by lia. rewrite rd_app_l by lia. reflexivity.
Qed.

Section Run.
Context (V : list nfsa) (seqs : list frames) (cols stride : Z) (c : cfg) (SU : setup V seqs cols stride c).
Context (ord : Z -> list Z) (Ho : fair ord) (T : Z) (HT : 0 < T).
Hypothesis Hsb : 0 < c_sbeam c.
Hypothesis Hon : c_online c = false.
Hypothesis RH : forall k, 0 <= k < zlen seqs -> 0 < zlen (rw seqs k) /\ (forall t, 0 <= t < zlen (rw seqs k) - 1 -> frame (rw seqs k) t (-1) = None) /\
  (forall l, l <> -1 -> frame (rw seqs k) (zlen (rw seqs k) - 1) l = None).
Notation n := (zlen seqs).
Notation ws := (prune_windows T).

(** a path that has to be in the result *)
Record goodp (k : Z) (p : list Z) (z : Z) : Prop := {
  gp_p : apath (gr V c k) 0 p (zlen (gr V c k) - 1);
  gp_l : zlen p = zlen (rw seqs k);
  gp_s : dense_score (gr V c k) (rw seqs k) 0 p = Some z;
  gp_1 : forall t l q x y, 0 < t < zlen (rw seqs k) -> apath (gr V c k) 0 l q -> zlen l = t -> dense_score (gr V c k) (rw seqs k) 0 l = Some x ->
           dense_score (gr V c k) (rw seqs k) 0 (firstn (Z.to_nat t) p) = Some y -> x - c_sbeam c < y;
  gp_2 : forall l x, apath (gr V c k) 0 l (zlen (gr V c k) - 1) -> zlen l = zlen (rw seqs k) -> dense_score (gr V c k) (rw seqs k) 0 l = Some x -> x - c_obeam c <= z;
  gp_o : c_obeam c < 10 ^ 10;
  gp_m : zlen (gr V c k) <= c_max c }.
Definition colinv (k : Z) (H : list (list nst)) (e : Z) (beam : Q) : Prop :=
  exists pmf, cinv V seqs c k pmf H e /\ forall p z, goodp k p z -> alive V seqs c k p pmf H /\ (zlen H <= zlen (rw seqs k) -> (inject_Z (c_sbeam c) <= beam)%Q).

Record rinv (r : run) (Ns : list nframe) : Prop := {
  ri_t : 0 <= r_t r; ri_T : r_t r <= T + 1;
  ri_lf : zlen (r_frames r) = r_t r + 1; ri_ln : zlen Ns = r_t r + 1;
  ri_fr : forall i f N, rd (r_frames r) i = Some f -> rd Ns i = Some N -> isS f N /\ (i < r_t r -> isA f N);
  ri_n : forall N, In N Ns -> zlen N = n;
  ri_h : forall q, hfind (r_hash r) q = None;
  ri_b : zlen (r_beams r) = n;
  ri_col : forall k beam, rd (r_beams r) k = Some beam -> colinv k (map (colk k) Ns) (eprev 0 ws (r_done r)) beam;
  ri_done : 0 <= r_done r <= sgn ws (r_t r);
  ri_bs : r_bsem r = sgn ws (r_t r) - r_done r;
  ri_fs : r_fsem r = 1 + r_done r - sgn ws (r_t r) + b2z (r_wait r);
  ri_f0 : 0 <= r_fsem r }.

Lemma eprev_le r Ns : rinv r Ns -> eprev 0 ws (r_done r) <= r_t r.
Proof.
  intros R. pose proof (ri_t _ _ R). pose proof (ri_done _ _ R). unfold eprev. destruct (Z.eqb_spec (r_done r) 0); [lia|]. destruct (rd ws (r_done r - 1)) as [w|] eqn:E; [|lia]. apply (wok_rd ws 0 T (r_t r) _ _ (prune_windows_ok T HT) E). lia.
Qed.

Lemma forward_run r Ns : rinv r Ns -> enabled T Forward r = true -> exists r' Ns', do_event ord c T Forward r = Some r' /\ rinv r' Ns'.
Proof.
  intros R En. pose proof (eprev_le r Ns R) as EL. destruct R as [R1 R2 R3 R4 R5 R6 R7 R8 R9 R10 R11 R12 R13]. cbn in En. apply andb_prop in En as (En1 & En2). apply negb_true_iff in En2. set (t := r_t r) in *.
  destruct (rd_in_bound (r_frames r) t) as (cur & Hcur); [lia|]. destruct (rd_in_bound Ns t) as (N & HN); [lia|]. destruct (R5 _ _ _ Hcur HN) as (HS & _). assert (ZN : zlen N = n) by (apply R6; eauto using rd_In).
  assert (colt : forall k p, rd N k = Some p -> rd (map (colk k) Ns) t = Some p) by (intros k p Hp; rewrite rd_map, HN; unfold colk; cbn; now rewrite Hp).
  destruct (forward_ok V seqs cols stride c SU ord Ho cur N t (r_beams r) (r_hash r) HS ZN R1 R8 R7) as (f' & Q & nf & NS & beams' & h' & E & A1 & A2 & A3 & A4 & A5 & A6 & A7).
  { intros k p x Hp Hx. destruct (rd_in_bound (r_beams r) k) as (beam & Hbeam); [apply rd_Some_bound in Hp; lia|]. destruct (R9 _ _ Hbeam) as (pmf & CI & _). eapply (on_okst V seqs cols stride c SU); [exact CI|]. exists p. split; [now apply colt|exact Hx]. }
  destruct (wr_Some (r_frames r) t f') as (fs & W1 & W2 & W3); [lia|]. destruct (wr_Some Ns t Q) as (Qs & X1 & X2 & X3); [lia|].
  exists (mkRun (fs ++ [nf]) beams' h' (t + 1) (r_done r) (r_bsem r + b2z (existsb (fun w => snd w - 1 =? t) ws)) (r_fsem r) (existsb (fun w => snd w - 1 =? t) ws)), (Qs ++ [bare NS]).
  split; [cbn [do_event]; fold t; rewrite Hcur, E, W1; reflexivity|]. pose proof (sgn_next ws 0 T t (prune_windows_ok T HT)) as SN.
  assert (rdQ : forall i, rd (Qs ++ [bare NS]) i = if i <? t then rd Ns i else if i =? t then Some Q else if i =? t + 1 then Some (bare NS) else None).
  { intros i. rewrite rd_app. rewrite X2, R4, X3. destruct (Z.ltb_spec i (t + 1)); destruct (Z.ltb_spec i t), (Z.eqb_spec i t); try lia; try reflexivity. destruct (Z.eqb_spec i (t + 1)) as [->|]; [replace (t + 1 - (t + 1)) with 0 by lia; apply rd_cons_0|].
    assert (exists j, i - (t + 1) = j + 1 /\ 0 <= j) as (j & -> & Hj) by (exists (i - t - 2); lia). rewrite rd_cons_S by lia. apply rd_nil. }
  split; cbn [r_frames r_beams r_hash r_t r_done r_bsem r_fsem r_wait].
  - lia.
  - lia.
  - rewrite zlen_app, zlen_cons, zlen_nil. lia.
  - rewrite zlen_app, zlen_cons, zlen_nil. lia.
  - intros i f N' Hf HN'. rewrite rdQ in HN'. rewrite rd_app, W2, R3, W3 in Hf. destruct (Z.ltb_spec i (t + 1)); destruct (Z.ltb_spec i t), (Z.eqb_spec i t); try lia.
    + destruct (R5 _ _ _ Hf HN') as (B1 & B2). split; [exact B1|]. intros _. apply B2. lia.
    + injection Hf as <-. injection HN' as <-. split; [apply A1|auto].
    + destruct (Z.eqb_spec i (t + 1)) as [->|]; [|discriminate]. injection HN' as <-. replace (t + 1 - (t + 1)) with 0 in Hf by lia. rewrite rd_cons_0 in Hf. injection Hf as <-. split; [exact A2|lia].
  - intros N' HN'. apply In_rd in HN' as (i & _ & Hi). rewrite rdQ in Hi. destruct (i <? t); [apply R6; eauto using rd_In|]. destruct (i =? t); [injection Hi as <-; exact A4|]. destruct (i =? t + 1); [|discriminate]. injection Hi as <-. unfold bare. now rewrite zlen_map.
  - exact A3.
  - exact A6.
  - intros k beam' Hbeam'. assert (Hk : 0 <= k < n) by (apply rd_Some_bound in Hbeam'; lia). destruct (rd_in_bound N k) as (p & Hp); [lia|]. destruct (A7 k p Hp) as (beam & q & ns & beam'' & B1 & B2 & B3 & B4 & FC). rewrite Hbeam' in B4. injection B4 as <-.
    destruct (R9 _ _ B1) as (pmf & CI & AL). destruct (RH k Hk) as (K1 & K2 & K3). set (H := map (colk k) Ns) in *. set (H' := map (colk k) (Qs ++ [bare NS])).
    assert (Z1 : zlen H = t + 1) by (unfold H; rewrite zlen_map; exact R4). assert (Z2 : zlen H' = t + 2) by (unfold H'; rewrite zlen_map, zlen_app, zlen_cons, zlen_nil; lia).
    assert (E0 : forall i, i < t -> rd H' i = rd H i) by (intros i Hi; unfold H', H; rewrite !rd_map, rdQ; replace (i <? t) with true by lia; reflexivity).
    assert (E1 : rd H t = Some p) by (now apply colt).
    assert (E2 : rd H' t = Some q) by (unfold H'; rewrite rd_map, rdQ, Z.ltb_irrefl, Z.eqb_refl; unfold colk; cbn; now rewrite B2).
    assert (E3 : rd H' (t + 1) = Some (map (fun s => (s, [])) ns)) by (unfold H'; rewrite rd_map, rdQ, Z.eqb_refl; replace (t + 1 <? t) with false by lia; replace (t + 1 =? t) with false by lia; unfold colk, bare; cbn; rewrite rd_map, B3; reflexivity).
    exists (pmf' V seqs c k pmf t p). split; [eapply (cinv_fwd V seqs cols stride c SU k Hk K2 K3 pmf H H'); eauto|].
    intros pp z [G1 G2 G3 G4 G5 G6 G7]. destruct (AL pp z) as (AL1 & AL2); [split; auto|].
    assert (HBm : t < zlen (rw seqs k) -> (inject_Z (c_sbeam c) <= beam)%Q) by (intros X; apply AL2; lia). split.
    + eapply (alive_fwd V seqs cols stride c SU k K1 K2 K3 pp z G1 G2 G3 G4 G5 G6 Hsb G7 pmf H H'); eauto.
    + intros X. eapply (beam_fwd V seqs c k K2 K3 pp z G1 G2 G3 G4 G5 Hsb G7 pmf H H'); eauto; lia.
  - rewrite SN. destruct (existsb _ ws); cbn [b2z]; lia.
  - rewrite SN, R11. lia.
  - rewrite SN, R12, En2. cbn [b2z]. lia.
  - exact R13.
Qed.

Lemma acquire_run r Ns : rinv r Ns -> enabled T Acquire r = true -> exists r' Ns', do_event ord c T Acquire r = Some r' /\ rinv r' Ns'.
Proof.
  intros [R1 R2 R3 R4 R5 R6 R7 R8 R9 R10 R11 R12 R13] En. cbn in En. apply andb_prop in En as (En1 & En2). eexists _, Ns. split; [reflexivity|]. split; cbn; auto; [rewrite R12, En1; cbn; lia|lia].
Qed.

Lemma prune_run r Ns : rinv r Ns -> enabled T Prune r = true -> exists r' Ns', do_event ord c T Prune r = Some r' /\ rinv r' Ns'.
Proof.
  intros R En. pose proof (eprev_le r Ns R) as EL. destruct R as [R1 R2 R3 R4 R5 R6 R7 R8 R9 R10 R11 R12 R13]. cbn in En. pose proof (sgn_le ws (r_t r)) as SL. destruct (rd_in_bound ws (r_done r)) as ((b, e) & Hw); [lia|].
  destruct (wok_at ws 0 T _ _ (prune_windows_ok T HT) Hw) as (W1 & W2 & W3). cbn [fst snd] in *. pose proof (wok_rd ws 0 T (r_t r) _ _ (prune_windows_ok T HT) Hw) as W4. cbn [snd] in W4. assert (He : e <= r_t r) by (apply W4; lia).
  set (e0 := eprev 0 ws (r_done r)) in *. destruct (rd_in_bound (r_frames r) e) as (last & Hl); [lia|]. destruct (rd_in_bound Ns e) as (NL & HNL); [lia|]. destruct (R5 _ _ _ Hl HNL) as (SL1 & SL2).
  set (fs := skipn (Z.to_nat b) (firstn (Z.to_nat e) (r_frames r))). set (Ws := skipn (Z.to_nat b) (firstn (Z.to_nat e) Ns)).
  assert (sub : forall {X} (l : list X), e < zlen l -> zlen (skipn (Z.to_nat b) (firstn (Z.to_nat e) l)) = e - b /\ forall m, 0 <= m < e - b -> rd (skipn (Z.to_nat b) (firstn (Z.to_nat e) l)) m = rd l (b + m)).
  { intros X l Hz. split; [unfold zlen in *; rewrite skipn_length, firstn_length; lia|]. intros m Hm. rewrite rd_skip by lia. apply ExtractProofs.rd_firstn. lia. }
  destruct (sub _ (r_frames r) ltac:(lia)) as (F1 & F2). destruct (sub _ Ns ltac:(lia)) as (N1 & N2). fold fs in F1, F2. fold Ws in N1, N2.
  assert (HF : Forall2 isA fs Ws). { apply Forall2_of_rd; [lia|]. intros i x y Hx Hy. pose proof (rd_Some_bound _ _ _ Hx). rewrite F2 in Hx by lia. rewrite N2 in Hy by lia. apply (R5 _ _ _ Hx Hy). lia. }
  assert (HWn : Forall (fun N => zlen N = n) Ws). { apply Forall_forall. intros N HN. apply In_rd in HN as (i & Bi & Hi). rewrite N2 in Hi by lia. apply R6. eauto using rd_In. }
  assert (ZNL : zlen NL = n) by (apply R6; eauto using rd_In). set (lst := map (map fst) (lastS NL)). assert (Zlst : zlen lst = n) by (unfold lst, lastS; now rewrite !zlen_map).
  assert (colL : forall k, colk k lst = map (fun x : nst => IPrunedPrune.lf (fst x)) (colk k NL)). { intros k. unfold colk, lst, lastS. rewrite !rd_map. destruct (rd NL k); cbn; [|reflexivity]. rewrite map_map. reflexivity. }
  assert (colW : forall k, zlen (map (colk k) Ws) = e - b /\ forall m, 0 <= m < e - b -> rd (map (colk k) Ws) m = rd (map (colk k) Ns) (b + m)).
  { intros k. split; [now rewrite zlen_map|]. intros m Hm. rewrite !rd_map, N2 by lia. reflexivity. }
  assert (colE : forall k, rd (map (colk k) Ns) e = Some (colk k NL)) by (intros k; rewrite rd_map, HNL; reflexivity).
  destruct (prune_ok c ord Ho n fs Ws last NL (su_n _ _ _ _ _ SU) HF SL1 HWn ZNL) as (fs' & P1 & P2).
  { apply (col_good c n); auto. intros k Hk. fold lst. rewrite colL. destruct (rd_in_bound (r_beams r) k) as (beam & Hbeam); [lia|]. destruct (R9 _ _ Hbeam) as (pmf & CI & _).
    destruct (colW k) as (C1 & C2). eapply (win_good V seqs cols stride c SU k Hk pmf (map (colk k) Ns) e0 b e); eauto. lia. }
  fold lst in P2. destruct (Forall2_rd _ _ _ P2) as (Q1 & Q2). assert (ZP : zlen (pruned c Ws lst) = e - b) by (unfold pruned, mark_all; rewrite zlen_map, zlen_imap, zlen_bw_all; exact N1). assert (Zf : zlen fs' = e - b) by lia.
  destruct (splice (r_frames r) fs' (set_final_probs last) b e ltac:(lia) ltac:(lia) Zf) as (S1 & S2 & S3 & S4). destruct (splice Ns (pruned c Ws lst) (lastS NL) b e ltac:(lia) ltac:(lia) ZP) as (T1 & T2 & T3 & T4).
  set (fr' := firstn (Z.to_nat b) (r_frames r) ++ fs' ++ set_final_probs last :: skipn (S (Z.to_nat e)) (r_frames r)) in *. set (Ns' := firstn (Z.to_nat b) Ns ++ pruned c Ws lst ++ lastS NL :: skipn (S (Z.to_nat e)) Ns) in *.
  eexists _, Ns'. split; [cbn [do_event]; rewrite Hw; cbn [fst snd]; rewrite Hl; fold fs; rewrite P1; reflexivity|]. fold fr'.
  assert (cases : forall i, (i < b \/ e < i) \/ i = e \/ exists m, i = b + m /\ 0 <= m < e - b). { intros i. assert ((i < b \/ e < i) \/ i = e \/ b <= i < e) as [D|[D|D]] by lia; auto. right. right. exists (i - b). lia. }
  assert (E0 : eprev 0 ws (r_done r + 1) = e) by (unfold eprev; replace (r_done r + 1 =? 0) with false by lia; replace (r_done r + 1 - 1) with (r_done r) by lia; now rewrite Hw).
  split; cbn [r_frames r_beams r_hash r_t r_done r_bsem r_fsem r_wait]; auto.
  - lia.
  - lia.
  - intros i f N Hf HN. destruct (cases i) as [D|[->|(m & -> & Hm)]].
    + rewrite S2 in Hf by exact D. rewrite T2 in HN by exact D. eauto.
    + rewrite S3 in Hf. rewrite T3 in HN. injection Hf as <-. injection HN as <-. split; [now apply set_final_S|]. intros X. now apply set_final_A, SL2.
    + rewrite S4 in Hf by exact Hm. rewrite T4 in HN by exact Hm. pose proof (Q2 _ _ _ Hf HN) as X. split; [apply X|auto].
  - intros N HN. apply In_rd in HN as (i & _ & Hi). destruct (cases i) as [D|[->|(m & -> & Hm)]].
    + rewrite T2 in Hi by exact D. eauto using rd_In.
    + rewrite T3 in Hi. injection Hi as <-. unfold lastS. now rewrite zlen_map.
    + rewrite T4 in Hi by exact Hm. unfold pruned in Hi. rewrite rd_map in Hi. unfold mark_all in Hi. rewrite rd_imap in Hi. destruct (rd (bw_all c Ws lst) m) as [B|] eqn:EB; [|discriminate]. injection Hi as <-.
      assert (ZB : zlen B = n). { pose proof (zlen_bw_at c n lst Ws Zlst HWn m) as X. rewrite EB, zlen_map in X. exact X. }
      assert (ZR : zlen (rms (bw_all c Ws lst) (0 + m) B) = n). { unfold rms. destruct (rd (bw_all c Ws lst) (0 + m + 1)) as [B'|] eqn:EB'; rewrite zlen_map; [|exact ZB]. pose proof (zlen_bw_at c n lst Ws Zlst HWn (0 + m + 1)) as X. rewrite EB', zlen_map in X. exact X. }
      unfold keepM, mark. rewrite !zlen_map, zlen_combine by lia. lia.
  - intros k beam Hbeam. destruct (R9 _ _ Hbeam) as (pmf & CI & AL). rewrite E0. assert (Hk : 0 <= k < n) by (apply rd_Some_bound in Hbeam; lia). destruct (RH k Hk) as (K1 & K2 & K3). set (H := map (colk k) Ns) in *. set (H' := map (colk k) Ns').
    destruct (colW k) as (C1 & C2). fold H in C2. pose proof (colE k) as C3. fold H in C3.
    assert (Z1 : zlen H' = zlen H) by (unfold H, H'; rewrite !zlen_map; exact T1).
    assert (E1 : forall i, i < b \/ e < i -> rd H' i = rd H i) by (intros i Hi; unfold H', H; rewrite !rd_map, T2 by exact Hi; reflexivity).
    assert (E2 : rd H' e = Some (map (fun x : nst => (IPrunedPrune.lf (fst x), snd x)) (colk k NL))) by (unfold H'; rewrite rd_map, T3; unfold colk, lastS; cbn; rewrite rd_map; destruct (rd NL k); reflexivity).
    assert (E3 : forall m, 0 <= m < e - b -> rd H' (b + m) = rd (prunedc c (map (colk k) Ws) (map (fun x : nst => IPrunedPrune.lf (fst x)) (colk k NL))) m).
    { intros m Hm. unfold H'. rewrite rd_map, T4 by exact Hm. rewrite <- colL, <- (col_pruned c n k lst Ws Hk Zlst HWn), rd_map. reflexivity. }
    exists pmf. split.
    + eapply (cinv_prune V seqs c k pmf H H' e0 b e (colk k NL) (map (colk k) Ws)); eauto; lia.
    + intros p z [G1 G2 G3 G4 G5 G6 G7]. destruct (AL p z) as (AL1 & AL2); [split; auto|]. split; [|rewrite Z1; exact AL2].
      eapply (alive_prune V seqs cols stride c SU k Hk K1 K2 K3 p z G1 G2 G3 G4 G5 pmf H H' e0 b e (colk k NL) (map (colk k) Ws)); eauto; lia.
  - lia.
  - lia.
  - lia.
  - lia.
Qed.

Lemma event_run ev r Ns : rinv r Ns -> enabled T ev r = true -> exists r' Ns', do_event ord c T ev r = Some r' /\ rinv r' Ns'.
Proof. destruct ev; [apply forward_run|apply acquire_run|apply prune_run]. Qed.
(** no deadlock *)
Lemma not_stuck r Ns : rinv r Ns -> finished T r = true \/ exists ev, enabled T ev r = true.
Proof.
  intros [R1 R2 R3 R4 R5 R6 R7 R8 R9 R10 R11 R12 R13]. destruct (enabled T Forward r) eqn:EF; [right; eauto|]. destruct (enabled T Acquire r) eqn:EA; [right; eauto|]. destruct (enabled T Prune r) eqn:EP; [right; eauto|]. left.
  cbn in *. destruct (r_wait r) eqn:Ew; cbn [b2z negb andb] in *; [lia|]. assert (r_t r = T + 1) by lia. pose proof (sgn_all ws 0 T (r_t r) (prune_windows_ok T HT) ltac:(lia)). unfold finished. rewrite Ew. cbn. lia.
Qed.
Definition left_ (r : run) : Z := 4 * (T + 1 - r_t r) + (sgn ws (r_t r) - r_done r) + b2z (r_wait r).
Lemma less ev r Ns r' Ns' : rinv r Ns -> rinv r' Ns' -> enabled T ev r = true -> do_event ord c T ev r = Some r' -> 0 <= left_ r' < left_ r.
Proof.
  intros A B En E. assert (L : 0 <= left_ r') by (unfold left_; pose proof (ri_T _ _ B); pose proof (ri_done _ _ B); destruct (r_wait r'); cbn; lia). split; [exact L|]. unfold left_. destruct ev; cbn [do_event] in E.
  - destruct (rd (r_frames r) (r_t r)); [|discriminate]. destruct (propagate_forward _ _ _ _ _ _) as [(((f1 & f2) & f3) & f4)|]; [|discriminate]. destruct (wr (r_frames r) (r_t r) f1); [|discriminate]. injection E as <-. cbn [r_t r_done r_wait]. pose proof (sgn_next ws 0 T (r_t r) (prune_windows_ok T HT)). destruct (existsb _ ws), (r_wait r); cbn [b2z] in *; lia.
  - injection E as <-. cbn in En |- *. apply andb_prop in En as (-> & _). cbn. lia.
  - destruct (rd ws (r_done r)); [|discriminate]. destruct (rd (r_frames r) _); [|discriminate]. destruct (prune_frames _ _ _ _); [|discriminate]. injection E as <-. cbn. lia.
Qed.
Lemma execute_inv es : forall r Ns r', rinv r Ns -> execute ord c T es r = Some r' -> exists Ns', rinv r' Ns' /\ left_ r' + zlen es <= left_ r.
Proof.
  induction es as [|ev es IH]; intros r Ns r' R E; cbn in E; [injection E as <-; exists Ns; rewrite zlen_nil; split; [exact R|lia]|]. destruct (enabled T ev r) eqn:En; [|discriminate]. destruct (event_run ev r Ns R En) as (r1 & N1 & E1 & R1). rewrite E1 in E.
  destruct (IH _ _ _ R1 E) as (Ns' & A & B). exists Ns'. split; [exact A|]. pose proof (less ev r Ns r1 N1 R R1 En E1). rewrite zlen_cons. lia.
Qed.
(** every execution can be continued until it is finished *)
Lemma execute_ex m : forall r Ns, rinv r Ns -> left_ r <= Z.of_nat m -> exists es r' Ns', execute ord c T es r = Some r' /\ finished T r' = true /\ rinv r' Ns'.
Proof.
  induction m as [|m IH]; intros r Ns R L.
  - destruct (not_stuck r Ns R) as [F|(ev & En)]; [exists [], r, Ns; cbn; auto|]. destruct (event_run ev r Ns R En) as (r1 & N1 & E1 & R1). pose proof (less ev r Ns r1 N1 R R1 En E1). lia.
  - destruct (not_stuck r Ns R) as [F|(ev & En)]; [exists [], r, Ns; cbn; auto|]. destruct (event_run ev r Ns R En) as (r1 & N1 & E1 & R1). pose proof (less ev r Ns r1 N1 R R1 En E1). destruct (IH r1 N1 R1) as (es & r' & Ns' & X & Y & Z0); [lia|].
    exists (ev :: es), r', Ns'. cbn. rewrite En, E1. auto.
Qed.
End Run.
