(** * The output of the pruned intersection as nested graphs *)
From Coq Require Import ZArith List Lia Bool QArith.
From Coq Require Import ZifyBool ZifyNat.
From Verif Require Import Base RaggedModel RaggedSpec RaggedProofs FsaSpec FsaLemmas RaggedOpsModel OpsModel RaggedOpsProofs ConnectProofs ScoreSpec ScorePaths
  IDenseModel IDenseSpec IDensePaths IPrunedModel IPrunedNest IPrunedCut IPrunedMerge IPrunedFwd IPrunedCol IPrunedInv IPrunedPrune IPrunedAlive.
From Verif Require RmDevRagged IDenseInit.
Import ListNotations.
Open Scope Z_scope.

Lemma mapM_zr {A B} (F : Z -> option B) (G : Z -> A -> B) (l : list A) :
  (forall i x, rd l i = Some x -> F i = Some (G i x)) -> mapM F (zrange (zlen l)) = Some (imap G 0 l).
Proof.
  intros H. apply mapM_by_rd; [rewrite zlen_imap, zlen_zrange by apply zlen_nonneg; reflexivity|].
  intros i x Hx. pose proof (rd_Some_bound _ _ _ Hx) as B'. rewrite zlen_zrange in B' by apply zlen_nonneg. rewrite rd_zrange in Hx by lia. injection Hx as <-.
  rewrite rd_imap. destruct (rd_in_bound l i B') as (y & Hy). rewrite Hy, (H _ _ Hy). rewrite Z.add_0_l. reflexivity.
Qed.
Lemma imap_map {A B} (f : A -> B) (l : list A) : forall o, imap (fun _ x => f x) o l = map f l.
Proof. induction l as [|x l IH]; intros o; cbn; [reflexivity|]. now rewrite IH. Qed.
Lemma map_rep {A B} (f : A -> B) x n : map f (repeat x n) = repeat (f x) n.
Proof. induction n as [|n IH]; cbn; [reflexivity|]. now rewrite IH. Qed.
Lemma combine_maps {A B C} (f : A -> B) (g : A -> C) l : combine (map f l) (map g l) = map (fun x => (f x, g x)) l.
Proof. induction l as [|x l IH]; cbn; [reflexivity|]. now rewrite IH. Qed.
Lemma off1_app {A} (l m : list (list A)) r : 0 <= r <= zlen l -> off1 (l ++ m) r = off1 l r.
Proof.
  intros H. unfold off1. rewrite firstn_app. unfold zlen in H. replace (Z.to_nat r - length l)%nat with 0%nat by lia. now rewrite app_nil_r.
Qed.
Lemma off1_same_len {A} (ll : list (list A)) k w : (forall l, In l ll -> zlen l = w) -> 0 <= k <= zlen ll -> off1 ll k = k * w.
Proof.
  intros H Hk. unfold off1. assert (E : forall n, (n <= length ll)%nat -> zlen (concat (firstn n ll)) = Z.of_nat n * w).
  { revert H. clear. induction ll as [|l ll IH]; intros H n Hn; [cbn in Hn; replace n with 0%nat by lia; reflexivity|]. destruct n as [|n]; [reflexivity|]. cbn [firstn concat]. rewrite zlen_app, IH; [|intros; apply H; now right|cbn in Hn; lia]. rewrite (H l) by now left. nia. }
  rewrite E by (unfold zlen in Hk; lia). now rewrite Z2Nat.id by lia.
Qed.

(** an arc of the output for the arc [y] of the state [j] of frame [t] *)
Definition glab (f : nfsa) (AB : Z) (y : ainfo) : Z := match rd (all_arcs f) (i_arc y - AB) with Some a => lab a | None => 0 end.
Definition part (f : nfsa) (AB TT t : Z) (y : ainfo) : bool := (t =? TT - 1) && negb (glab f AB y =? -1).
Definition oval (x : option Z) : Z := match x with Some z => z | None => 0 end.
Definition oarc (f : nfsa) (AB TT r0 cols : Z) (H : list (list nst)) (t j : Z) (y : ainfo) : arc * (Z * Z) :=
  let p := part f AB TT t y in
  (mkArc (off1 H t + j) (off1 H (t + 1) + i_dst y) (if p then -1 else glab f AB y) (oval (i_ll y)),
   (if p then -1 else i_arc y, (r0 + t) * cols + (glab f AB y + 1))).
Definition orow (f : nfsa) (AB TT r0 cols : Z) (H : list (list nst)) (extra : Z) : list (list (arc * (Z * Z))) :=
  concat (imap (fun t col => imap (fun j x => map (oarc f AB TT r0 cols H t j) (snd x)) 0 col) 0 H) ++ repeat [] (Z.to_nat extra).
Definition flat_arc (x : arc * (Z * Z)) : (Z * Z * Z * option Z) * (Z * Z) :=
  ((src (fst x), dst (fst x), lab (fst x), Some (sc (fst x))), snd x).

(** what FormatOutput reads of a frame *)
Record isF (f : fr) (N : nframe) : Prop := { if_rs1 : f_rs1 f = splits_of N; if_rs2 : f_rs2 f = splits_of (rows N); if_arcs : f_arcs f = concat (rows N) }.
Lemma isA_isF f N : isA f N -> isF f N.
Proof. intros A. split; [apply A|apply (is_rs2 _ _ A)|apply (is_arcs _ _ A)]. Qed.

Section Gen.
Context (V : list nfsa) (seqs : list frames) (cols stride : Z) (c : cfg) (SU : setup V seqs cols stride c).
Context (T hist : Z) (FT : Z -> Z) (Fs : list fr) (Ns : list nframe).
Notation n := (zlen seqs).
Hypothesis RG : forall k, 0 <= k < n -> 0 <= FT k <= T /\ hist + zlen (rw seqs k) = FT k.
Hypothesis ZF : zlen Fs = T + 1.
Hypothesis ZN : zlen Ns = T + 1.
Hypothesis HF : forall i f N, rd Fs i = Some f -> rd Ns i = Some N -> isF f N.
Hypothesis Hn : forall N, In N Ns -> zlen N = n.
Notation Hk k := (map (colk k) Ns).
Definition fin_col (k : Z) : list nst := match rd (Hk k) (FT k) with Some col => col | None => [] end.
Definition extra (k : Z) : Z := b2z (0 <? zlen (gr V c k)) * (1 - zlen (fin_col k)).
Hypothesis fin_len1 : forall k, 0 <= k < n -> zlen (fin_col k) <= 1.
Hypothesis arc_ok1 : forall k t x y, 0 <= k < n -> on (Hk k) t x -> In y (snd x) -> 0 <= t ->
  rd (v_arcs (c_v c)) (i_arc y) = rd (all_arcs (gr V c k)) (i_arc y - AB V c k) /\ (exists a, rd (all_arcs (gr V c k)) (i_arc y - AB V c k) = Some a /\
   (negb ((t =? FT k - 1) && negb (lab a =? -1)) || c_partial c) = true) /\ i_ll y = Some (oval (i_ll y)).

Lemma fr_at t : 0 <= t <= T -> exists f N, rd Fs t = Some f /\ rd Ns t = Some N /\ isF f N /\ zlen N = n /\ forall k, 0 <= k < n ->
  rd (f_rs1 f) k = Some (off1 N k) /\ rd (f_rs1 f) (k + 1) = Some (off1 N k + zlen (colk k N)) /\ rd (Hk k) t = Some (colk k N).
Proof.
  intros Ht. destruct (rd_in_bound Fs t) as (f & Hf); [lia|]. destruct (rd_in_bound Ns t) as (N & HN); [lia|]. pose proof (HF _ _ _ Hf HN) as A. pose proof (Hn N (rd_In _ _ _ HN)) as E.
  exists f, N. repeat (split; [assumption|]). intros k Hkk. rewrite (if_rs1 _ _ A). destruct (RmDevRagged.splits_nth N k (colk k N)) as (-> & ->); [apply colk_at; lia|]. rewrite rd_map, HN. auto.
Qed.

Lemma missing_ok k : 0 <= k < n -> missing_final c hist Fs k = Some (extra k) /\ 0 <= extra k.
Proof.
  intros Hkk. destruct (RG k Hkk) as (R1 & R2). destruct (final_at V seqs cols stride c SU k Hkk) as (E1 & _). destruct (fr_at (FT k)) as (f & N & F1 & F2 & F3 & F4 & F5); [lia|]. destruct (F5 k Hkk) as (F6 & F7 & F8). pose proof (fin_len1 k Hkk) as L.
  assert (EF : fin_col k = colk k N) by (unfold fin_col; now rewrite F8). unfold missing_final. rewrite E1, R2, F1, F6, F7. replace (off1 N k + zlen (colk k N) - off1 N k) with (zlen (colk k N)) by lia. rewrite <- EF. replace (zlen (fin_col k) <=? 1) with true by lia.
  destruct (col_at V seqs cols stride c SU k Hkk) as (Hg & _). rewrite (su_v _ _ _ _ _ SU). cbn [flat_vec v_rs1]. destruct (RmDevRagged.splits_nth V (gi c k) (gr V c k) Hg) as (S1 & S2). unfold gi in S1, S2. rewrite S1, S2. unfold extra. split.
  - f_equal. f_equal. f_equal. pose proof (zlen_nonneg (gr V c k)). lia.
  - pose proof (zlen_nonneg (fin_col k)). destruct (0 <? zlen (gr V c k)); cbn [b2z]; lia.
Qed.

(** the numbers of the states *)
Definition Mk (k : Z) : list (list unit) := map (map (fun _ => tt)) (Hk k) ++ [repeat tt (Z.to_nat (extra k))].
Definition Ms : list (list (list unit)) := map Mk (zrange n).
Lemma zlen_Mk k : zlen (Mk k) = T + 2.
Proof. unfold Mk. rewrite zlen_app, !zlen_map, zlen_cons, zlen_nil. lia. Qed.
Lemma rd_Ms k : 0 <= k < n -> rd Ms k = Some (Mk k).
Proof. intros Hkk. unfold Ms. now rewrite rd_map, rd_zrange by lia. Qed.
Lemma zlen_Ms : zlen Ms = n. Proof. unfold Ms. rewrite zlen_map, zlen_zrange; [reflexivity|apply zlen_nonneg]. Qed.
Lemma sizes_ok : map zlen (concat Ms) = concat (map (fun k => map zlen (Hk k) ++ [extra k]) (zrange n)).
Proof.
  unfold Ms. rewrite concat_map, map_map. f_equal. apply map_ext_in. intros k Hkk. apply in_zrange in Hkk. destruct (missing_ok k Hkk) as (_ & E). unfold Mk. rewrite map_app. f_equal; [rewrite !map_map; apply map_ext; intros; now rewrite zlen_map|]. cbn. f_equal. unfold zlen. rewrite repeat_length. lia.
Qed.
Lemma rs2_at k t : 0 <= k < n -> 0 <= t <= T + 1 -> rd (splits_of (concat Ms)) (k * (T + 2) + t) = Some (zlen (concat (concat (firstn (Z.to_nat k) Ms))) + off1 (Hk k) t).
Proof.
  intros Hkk Ht. pose proof (rd_Ms k Hkk) as E. assert (W : forall l, In l Ms -> zlen l = T + 2) by (intros l Hl; unfold Ms in Hl; apply in_map_iff in Hl as (k' & <- & _); apply zlen_Mk).
  assert (EO : forall k', 0 <= k' <= n -> off1 Ms k' = k' * (T + 2)) by (intros; apply off1_same_len; [exact W|rewrite zlen_Ms; lia]).
  assert (ZC : zlen (concat Ms) = n * (T + 2)) by (rewrite <- IDenseInit.off1_all, zlen_Ms; apply EO; pose proof (zlen_nonneg seqs); lia).
  rewrite rd_splits_off by (rewrite ZC; nia). f_equal. rewrite <- EO by lia. rewrite (off1_concat _ _ (Mk k) t E) by (rewrite zlen_Mk; lia). f_equal.
  unfold Mk. rewrite off1_app by (rewrite !zlen_map; lia). apply IDenseInit.off1_same. rewrite !map_map. apply map_ext. intros. now rewrite zlen_map.
Qed.

Definition orow_k (k : Z) : list (list (arc * (Z * Z))) := orow (gr V c k) (AB V c k) (FT k) (off1 seqs k) cols (Hk k) (extra k).

Lemma format_gen : p_format_output c hist T Fs = Some
  (let gs := map (fun k => map (map fst) (orow_k k)) (zrange n) in
   let xs := concat (concat (map orow_k (zrange n))) in
   (splits_of gs, splits_of (concat gs), map (fun a => (src a, dst a, lab a, Some (sc a))) (concat (concat gs)),
    map (fun x => fst (snd x)) xs, map (fun x => snd (snd x)) xs)).
Proof.
  unfold p_format_output. rewrite (su_n _ _ _ _ _ SU). pose proof (zlen_nonneg seqs) as Z0.
  assert (E1 : mapM (missing_final c hist Fs) (zrange n) = Some (map extra (zrange n))) by (apply mapM_Some_map; intros k Hkk; apply in_zrange in Hkk; apply missing_ok; exact Hkk). rewrite E1.
  rewrite (mapM_Some_map _ (fun k => map zlen (Hk k) ++ [extra k])).
  2:{ intros k Hkk. apply in_zrange in Hkk. replace (T + 1) with (zlen (Hk k)) by (rewrite zlen_map; exact ZN). rewrite (mapM_zr _ (fun _ col => zlen col)).
      - rewrite imap_map, rd_map, rd_zrange by lia. reflexivity.
      - intros t col Hc. pose proof (rd_Some_bound _ _ _ Hc) as B. rewrite zlen_map in B. destruct (fr_at t) as (f & N & F1 & F2 & F3 & F4 & F5); [lia|]. destruct (F5 k Hkk) as (F6 & F7 & F8). rewrite F1, F6, F7. rewrite F8 in Hc. injection Hc as <-. f_equal. lia. }
  cbv beta zeta. rewrite <- sizes_ok. change (exsum (map zlen (concat Ms))) with (splits_of (concat Ms)).
  rewrite (mapM_Some_map _ (fun k => map (map (map flat_arc)) (imap (fun t col => imap (fun j x => map (oarc (gr V c k) (AB V c k) (FT k) (off1 seqs k) cols (Hk k) t j) (snd x)) 0 col) 0 (Hk k)))).
  2:{ intros k Hkk. apply in_zrange in Hkk. pose proof (rs2_at k 0 Hkk ltac:(lia)) as E0. rewrite Z.add_0_r in E0. rewrite E0. change (off1 (Hk k) 0) with 0. rewrite Z.add_0_r. set (P := zlen (concat (concat (firstn (Z.to_nat k) Ms)))) in *.
      replace (T + 1) with (zlen (Hk k)) by (rewrite zlen_map; exact ZN). rewrite (mapM_zr _ (fun t col => map (map flat_arc) (imap (fun j x => map (oarc (gr V c k) (AB V c k) (FT k) (off1 seqs k) cols (Hk k) t j) (snd x)) 0 col))).
      - f_equal. apply list_ext_rd; [rewrite zlen_map, !zlen_imap; reflexivity|]. intros i Hi. rewrite rd_map, !rd_imap. now destruct (rd (Hk k) i).
      - intros t col Hc. pose proof (rd_Some_bound _ _ _ Hc) as B. rewrite zlen_map in B. destruct (fr_at t) as (f & N & F1 & F2 & F3 & F4 & F5); [lia|]. destruct (F5 k Hkk) as (F6 & F7 & F8). rewrite F1, F6, F7. pose proof Hc as Hc0. rewrite F8 in Hc. injection Hc as EC.
        rewrite (rs2_at k t Hkk) by lia. rewrite <- Z.add_assoc, (rs2_at k (t + 1) Hkk) by lia. fold P. destruct (final_at V seqs cols stride c SU k Hkk) as (E2 & E3). rewrite E2, E3, (proj2 (RG k Hkk)). replace (off1 N k + zlen (colk k N) - off1 N k) with (zlen col) by (rewrite EC; lia).
        rewrite (mapM_zr _ (fun j x => map flat_arc (map (oarc (gr V c k) (AB V c k) (FT k) (off1 seqs k) cols (Hk k) t j) (snd x)))).
        + f_equal. apply list_ext_rd; [rewrite zlen_map, !zlen_imap; reflexivity|]. intros i Hi. rewrite rd_map, !rd_imap. now destruct (rd col i).
        + intros j [s ys] Hx. assert (HK : rd N k = Some col) by (rewrite <- EC; apply colk_at; lia). destruct (state_at N k col j s ys HK Hx) as (_ & _ & _ & S4). rewrite (if_rs2 _ _ F3). destruct (RmDevRagged.splits_nth _ _ _ S4) as (S5 & S6). rewrite S5. rewrite S6. cbn [snd].
          replace (off1 (rows N) (off1 N k + j) + zlen ys - off1 (rows N) (off1 N k + j)) with (zlen ys) by lia. rewrite (mapM_zr _ (fun _ y => flat_arc (oarc (gr V c k) (AB V c k) (FT k) (off1 seqs k) cols (Hk k) t j y))); [now rewrite imap_map, map_map|].
          intros i y Hy. destruct (rd_concat_off _ _ _ _ _ S4 Hy) as (S7 & _). rewrite (if_arcs _ _ F3), S7. assert (Ox : on (Hk k) t (s, ys)) by (exists col; split; [exact Hc0|eapply rd_In; eauto]).
          destruct (arc_ok1 k t (s, ys) y Hkk Ox (rd_In _ _ _ Hy) ltac:(lia)) as (A1 & (a & A2 & A3) & A4). rewrite A1, A2, A3. unfold flat_arc, oarc, part, glab. rewrite A2. cbn [fst snd src dst lab sc]. rewrite <- A4. rewrite (su_b _ _ _ _ _ SU). cbn [flat_dense b_cols].
          f_equal. f_equal. f_equal. f_equal. f_equal; lia. }
  match goal with |- context [map (fun p => concat (fst p) ++ _) ?l] => assert (ER : map (fun p => concat (fst p) ++ repeat [] (Z.to_nat (snd p))) l = map (map (map flat_arc)) (map orow_k (zrange n))) end.
  { rewrite combine_maps, !map_map. apply map_ext. intros k. cbn [fst snd]. unfold orow_k, orow. rewrite map_app, concat_map, map_rep. reflexivity. }
  rewrite ER. clear ER. set (R := map orow_k (zrange n)).
  assert (EG : map (fun k => map (map fst) (orow_k k)) (zrange n) = map (map (map fst)) R) by (unfold R; now rewrite map_map). rewrite EG. cbv zeta. unfold splits_of. rewrite <- !concat_map, !map_map.
  f_equal. f_equal. f_equal. f_equal. f_equal.
  - f_equal. apply map_ext. intros. now rewrite !zlen_map.
  - f_equal. apply map_ext. intros. now rewrite !zlen_map.
Qed.
End Gen.

Section Out.
Context (V : list nfsa) (seqs : list frames) (cols stride : Z) (c : cfg) (SU : setup V seqs cols stride c).
Context (T : Z) (HT : 0 < T) (Fs : list fr) (Ns : list nframe).
Notation n := (zlen seqs).
Hypothesis RH : forall k, 0 <= k < n -> 0 < zlen (rw seqs k) <= T /\ (forall t, 0 <= t < zlen (rw seqs k) - 1 -> frame (rw seqs k) t (-1) = None) /\ (forall l, l <> -1 -> frame (rw seqs k) (zlen (rw seqs k) - 1) l = None).
Hypothesis ZF : zlen Fs = T + 1.
Hypothesis ZN : zlen Ns = T + 1.
Hypothesis HF : forall i f N, rd Fs i = Some f -> rd Ns i = Some N -> isA f N.
Hypothesis Hn : forall N, In N Ns -> zlen N = n.
Hypothesis CI : forall k, 0 <= k < n -> exists pmf, cinv V seqs c k pmf (map (colk k) Ns) (T + 1).
Notation Hk k := (map (colk k) Ns).
Notation FT := (fun k => zlen (rw seqs k)).
Notation fin_col := (fin_col FT Ns).
Notation extra := (extra V c FT Ns).
Notation orow_k := (orow_k V seqs cols c FT Ns).

Lemma fin_len k : 0 <= k < n -> zlen (fin_col k) <= 1 /\ (0 < zlen (gr V c k) \/ fin_col k = []).
Proof.
  intros Hkk. destruct (CI k Hkk) as (pmf & C). destruct (RH k Hkk) as (R1 & _). unfold IPrunedOut.fin_col. destruct (rd (Hk k) (zlen (rw seqs k))) as [col|] eqn:E; [|rewrite zlen_nil; split; [lia|auto]].
  pose proof (ci_nd _ _ _ _ _ _ _ C _ _ E) as N. assert (F : forall x, In x col -> s_a (fst x) = vb V c k + zlen (gr V c k) - 1 /\ 0 < zlen (gr V c k)).
  { intros x Hx. destruct (ci_rng _ _ _ _ _ _ _ C (zlen (rw seqs k)) x) as (A & _ & B); [exists col; auto|]. destruct B as (_ & B). specialize (B eq_refl). lia. }
  destruct col as [|x col]; [rewrite zlen_nil; split; [lia|auto]|]. destruct (F x (in_eq _ _)) as (E1 & E2). split; [|now left]. destruct col as [|x' col]; [rewrite zlen_cons, zlen_nil; lia|]. exfalso. destruct (F x') as (E3 & _); [right; apply in_eq|].
  cbn in N. inversion N as [|? ? N1 N2]. apply N1. left. lia.
Qed.

Lemma arc_ok k t x y : 0 <= k < n -> on (Hk k) t x -> In y (snd x) -> 0 <= t ->
  rd (v_arcs (c_v c)) (i_arc y) = rd (all_arcs (gr V c k)) (i_arc y - AB V c k) /\ (exists a, rd (all_arcs (gr V c k)) (i_arc y - AB V c k) = Some a /\
   (negb ((t =? zlen (rw seqs k) - 1) && negb (lab a =? -1)) || c_partial c) = true) /\ i_ll y = Some (oval (i_ll y)) /\ t < zlen (rw seqs k).
Proof.
  intros Hkk Hx Hy Ht. destruct (CI k Hkk) as (pmf & C). destruct (RH k Hkk) as (R1 & R2 & R3). destruct (ci_arc _ _ _ _ _ _ _ C _ _ _ Hx Hy) as (j & a & A1 & A2 & A3 & (A4 & A5) & A6). replace (i_arc y - AB V c k) with j by lia.
  pose proof (on_okst V seqs cols stride c SU k pmf _ _ _ _ C Hx) as OK. destruct (st_at V seqs cols stride c SU k t (fst x) Hkk OK) as (B1 & B2 & B3 & B4 & B5 & _).
  assert (Bt : t < T + 1) by (destruct Hx as (col & Hc & _); apply rd_Some_bound in Hc; rewrite zlen_map in Hc; lia).
  destruct (ci_clean _ _ _ _ _ _ _ C _ _ _ Hx Hy Bt) as (D1 & w & D2).
  assert (exists m, rd (outs V c k (fst x)) m = Some a /\ j = off1 (gr V c k) (s_a (fst x) - vb V c k) + m) as (m & M1 & M2).
  { apply rd_concat_inv in A2 as (r & l & m & M1 & M2 & M3 & _). destruct (gr_valid V seqs cols stride c SU k) as [E|(E & _)]; [rewrite E in M1; rewrite rd_nil in M1; discriminate|]. pose proof (E _ _ _ M1 (rd_In _ _ _ M2)). assert (r = s_a (fst x) - vb V c k) as -> by lia. rewrite B2 in M1. injection M1 as <-. eauto. }
  split; [rewrite A1, A2, M2, Z.add_assoc; apply B5; exact M1|]. split; [|split; [now rewrite D2|]].
  - exists a. split; [exact A2|]. destruct (Z.eqb_spec t (zlen (rw seqs k) - 1)) as [E|E]; [|reflexivity]. destruct (Z.eqb_spec (lab a) (-1)) as [E'|E']; [reflexivity|]. cbn. destruct (pmf) eqn:Ep; [apply (ci_pm _ _ _ _ _ _ _ C eq_refl)|]. exfalso.
    rewrite D2 in A4. unfold ll, Pt in A4. cbn in A4. rewrite E, R3 in A4 by auto. discriminate.
  - destruct OK as (_ & [OK|OK]); [exact OK|]. rewrite OK, rd_nil in M1. discriminate.
Qed.

Lemma format_ok : p_format_output c 0 T Fs = Some
  (let gs := map (fun k => map (map fst) (orow_k k)) (zrange n) in
   let xs := concat (concat (map orow_k (zrange n))) in
   (splits_of gs, splits_of (concat gs), map (fun a => (src a, dst a, lab a, Some (sc a))) (concat (concat gs)),
    map (fun x => fst (snd x)) xs, map (fun x => snd (snd x)) xs)).
Proof.
  apply (format_gen V seqs cols stride c SU T 0 FT Fs Ns); auto.
  - intros k Hkk. destruct (RH k Hkk). split; lia.
  - intros i f N A B. apply isA_isF. eauto.
  - intros k Hkk. apply (fin_len k Hkk).
  - intros k t x y A1 A2 A3 A4. destruct (arc_ok k t x y A1 A2 A3 A4) as (B1 & B2 & B3 & _). auto.
Qed.
End Out.
