(** * A batch of streams: going forward over the chunks and pruning *)
From Coq Require Import ZArith List Lia Bool QArith Permutation Lqa.
From Coq Require Import ZifyBool ZifyNat.
From Verif Require Import Base RaggedModel RaggedSpec RaggedProofs FsaSpec FsaLemmas RaggedOpsModel OpsModel RaggedOpsProofs ConnectProofs ScoreSpec ScorePaths IDenseModel IDenseSpec IPrunedModel IPrunedNest IPrunedCut IPrunedMerge IPrunedFwd IPrunedCol IPrunedInv IPrunedPrune IPrunedAlive IPrunedRun IPrunedSpec IPrunedOut IPrunedOne IPrunedAll IDevModel IOnlineModel IOnlineSpec IOnlineCol IOnlinePr IOnlineFin.
From Verif Require Import IDensePaths.
From Verif Require ReverseProofs.
Import ListNotations.
Open Scope Z_scope.
Notation lf := IPrunedPrune.lf.

Lemma rd_last {X} (l : list X) : l <> [] -> exists x, rd l (zlen l - 1) = Some x /\ l = removelast l ++ [x].
Proof.
  intros H. destruct (exists_last H) as (l' & x & ->). exists x. rewrite removelast_last. split; [|reflexivity]. rewrite rd_app_r by (rewrite zlen_app, zlen_cons, zlen_nil; lia). rewrite zlen_app, zlen_cons, zlen_nil. replace (zlen l' + (1 + 0) - 1 - zlen l') with 0 by lia. apply rd_cons_0.
Qed.
Lemma removelast_app' {X} (a b : list X) : b <> [] -> removelast (a ++ b) = a ++ removelast b.
Proof. apply removelast_app. Qed.
Lemma rd_ge {X} (l : list X) i : zlen l <= i -> rd l i = None.
Proof. intros H. destruct (rd l i) eqn:E; [|reflexivity]. apply rd_Some_bound in E. lia. Qed.
Lemma firstn_snoc {X} (l : list X) t x : 0 <= t -> rd l t = Some x -> firstn (Z.to_nat (t + 1)) l = firstn (Z.to_nat t) l ++ [x].
Proof.
  intros Ht Hx. apply list_ext_rd.
  - pose proof (rd_Some_bound _ _ _ Hx). rewrite zlen_app, zlen_cons, zlen_nil. unfold zlen in *. rewrite !firstn_length. lia.
  - intros i Hi. pose proof (rd_Some_bound _ _ _ Hx) as B. assert (Zf : zlen (firstn (Z.to_nat t) l) = t) by (unfold zlen in *; rewrite firstn_length; lia). assert (Zf1 : zlen (firstn (Z.to_nat (t + 1)) l) = t + 1) by (unfold zlen in *; rewrite firstn_length; lia). rewrite Zf1 in Hi.
    rewrite ExtractProofs.rd_firstn, rd_app, Zf by lia. destruct (Z.ltb_spec i t); [symmetry; apply ExtractProofs.rd_firstn; lia|]. assert (i = t) as -> by lia. rewrite Z.sub_diag, rd_cons_0. exact Hx.
Qed.

Section Batch.
Context (f : nfsa) (cols stride sb ob mina maxa : Z) (partial : bool).
Hypothesis Vf : valid f.
Hypothesis Lf : forall a, In a (all_arcs f) -> lab a < cols - 1.
Hypothesis Hcs : cols <= stride.
Hypothesis Hsb : 0 < sb.
Hypothesis Hob : 0 < ob.
Hypothesis Hmm : 0 <= mina < maxa.
Notation cf := (cf f cols stride sb ob mina maxa partial).
Notation sinv := (sinv f cols stride sb ob mina maxa partial).

Context (ord : Z -> list Z) (Ho : fair ord).
Context (seqs : list frames) (real : Z -> frames) (chunk T0 : Z).
Notation n := (zlen seqs).
Notation c := (cf true seqs).
Notation whole k := (real k ++ rw seqs k).
Hypothesis Hch : 0 <= chunk.
Hypothesis Hlen : forall k, 0 <= k < n -> zlen (rw seqs k) = chunk + 1.
Hypothesis Hreal : forall k, 0 <= k < n -> zlen (real k) <= T0.
Hypothesis HD : forall k, 0 <= k < n -> dense_rows (whole k).
Hypothesis HW : forall k, 0 <= k < n -> wide stride (whole k).
Hypothesis HK : forall k, 0 <= k < n -> keeps_going f (whole k).
Notation pad k := (Z.to_nat (T0 - zlen (real k))).
Definition upto (k t : Z) : frames := real k ++ firstn (Z.to_nat t) (rw seqs k).

Lemma SUb : setup [f] seqs cols stride c.
Proof.
  apply (su f cols stride sb ob mina maxa partial Vf Lf Hcs). intros s Hs r Hr. apply In_rd in Hs as (k & Bk & Hk). apply (HW k Bk). apply in_or_app. right. unfold rw. rewrite Hk. exact Hr.
Qed.
Lemma zlen_upto k t : 0 <= k < n -> 0 <= t <= chunk + 1 -> zlen (upto k t) = zlen (real k) + t.
Proof. intros Hk Ht. unfold upto. rewrite zlen_app. f_equal. pose proof (Hlen k Hk). unfold zlen in *. rewrite firstn_length. lia. Qed.
Lemma upto_S k t row : 0 <= t -> rd (rw seqs k) t = Some row -> upto k (t + 1) = upto k t ++ [row].
Proof. intros Ht Hr. unfold upto. rewrite (firstn_snoc _ _ _ Ht Hr). now rewrite app_assoc. Qed.
Lemma upto_ext k t : 0 <= k < n -> 0 <= t <= chunk -> extends (upto k t) (whole k).
Proof.
  intros Hk Ht. exists (skipn (Z.to_nat t) (rw seqs k)). split.
  - intros E. apply (f_equal (@length _)) in E. rewrite skipn_length in E. cbn in E. pose proof (Hlen k Hk). unfold zlen in *. lia.
  - unfold upto. rewrite <- app_assoc, firstn_skipn. reflexivity.
Qed.

(** [t] frames of the chunk are done; the frames before [T0 + t] have arcs *)
Record binv (ee : Z -> Z) (t : Z) (fs : list fr) (Ns : list nframe) (beams : list Q) (h : hmap) : Prop := {
  bi_t : 0 <= t <= chunk;
  bi_f : zlen fs = T0 + t + 1; bi_n : zlen Ns = T0 + t + 1;
  bi_fr : forall i g N, rd fs i = Some g -> rd Ns i = Some N -> isS g N /\ (i < T0 + t -> isA g N);
  bi_w : forall N, In N Ns -> zlen N = n;
  bi_h : forall q, hfind h q = None;
  bi_b : zlen beams = n;
  bi_col : forall k beam, rd beams k = Some beam -> exists H, map (colk k) Ns = repeat [] (pad k) ++ H /\ sinv (upto k t) H (ee k) beam /\
     forall col x, rd H (zlen H - 1) = Some col -> In x col -> snd x = [] }.

Lemma T0_nonneg : forall k, 0 <= k < n -> 0 <= T0.
Proof. intros k Hk. pose proof (Hreal k Hk). pose proof (zlen_nonneg (real k)). lia. Qed.
Lemma okst_of k t H e beam x : 0 <= k < n -> 0 <= t <= chunk -> sinv (upto k t) H e beam -> on H (zlen (upto k t)) x -> okst [f] seqs c k t (fst x).
Proof.
  intros Hk Ht SI Hx. destruct (si_col _ _ _ _ _ _ _ _ _ _ _ _ SI (whole k) (HD k Hk) (HW k Hk) (upto_ext k t Hk Ht)) as (pmf & CI & _). destruct (ci_rng _ _ _ _ _ _ _ CI _ _ Hx) as (A & _). split; [rewrite vb_k, gr_k; change (vb [f] (cf true [whole k]) 0) with 0 in A; change (gr [f] (cf true [whole k]) 0) with f in A; lia|]. left. rewrite Hlen; lia.
Qed.

Lemma fwd_step ee t fs Ns beams h : 0 < n -> (forall k, 0 <= k < n -> ee k <= zlen (real k)) -> binv ee t fs Ns beams h -> t < chunk -> exists cur f' nf beams' h' Ns',
  rd fs (zlen fs - 1) = Some cur /\ propagate_forward ord c t cur beams h = Some (f', nf, beams', h') /\ binv ee (t + 1) (removelast fs ++ [f'; nf]) Ns' beams' h'.
Proof.
  intros Hn0 Hee [B1 B2 B3 B4 B5 B6 B7 B8] Ht. assert (HT0 : 0 <= T0) by (pose proof (Hreal 0 ltac:(lia)); pose proof (zlen_nonneg (real 0)); lia).
  destruct (rd_last fs) as (cur & Hcur & Efs); [intros ->; rewrite zlen_nil in B2; lia|]. destruct (rd_last Ns) as (N & HN & ENs); [intros ->; rewrite zlen_nil in B3; lia|]. rewrite B2 in Hcur. rewrite B3 in HN. destruct (B4 _ _ _ Hcur HN) as (HS & _). assert (ZN : zlen N = n) by (apply B5; eauto using rd_In).
  assert (colt : forall k H, 0 <= k < n -> map (colk k) Ns = repeat [] (pad k) ++ H -> zlen H = zlen (upto k t) + 1 -> rd H (zlen (upto k t)) = Some (colk k N)).
  { intros k H Hk E ZH. assert (X : rd (map (colk k) Ns) (T0 + t + 1 - 1) = Some (colk k N)) by (rewrite rd_map, HN; reflexivity). rewrite E in X. pose proof (zlen_upto k t Hk ltac:(lia)). pose proof (Hreal k Hk). replace (T0 + t + 1 - 1) with (Z.of_nat (pad k) + zlen (upto k t)) in X by lia. rewrite rd_pad in X by apply zlen_nonneg. exact X. }
  destruct (forward_ok [f] seqs cols stride c SUb ord Ho cur N t beams h HS ZN ltac:(lia) B7 B6) as (f' & Q & nf & NS & beams' & h' & E & A1 & A2 & A3 & A4 & A5 & A6 & A7).
  { intros k p x Hp Hx. assert (Hk : 0 <= k < n) by (apply rd_Some_bound in Hp; lia). destruct (rd_in_bound beams k) as (beam & Hbeam); [lia|]. destruct (B8 _ _ Hbeam) as (H & E & SI & _). apply (okst_of k t H (ee k) beam x Hk ltac:(lia) SI). exists p. split; [|exact Hx]. rewrite (colt k H Hk E (si_len _ _ _ _ _ _ _ _ _ _ _ _ SI)). unfold colk. now rewrite Hp. }
  exists cur, f', nf, beams', h', (removelast Ns ++ [Q; bare NS]). split; [rewrite B2; exact Hcur|]. split; [exact E|].
  assert (Zr : zlen (removelast fs) = T0 + t) by (rewrite zlen_removelast; lia). assert (Zn : zlen (removelast Ns) = T0 + t) by (rewrite zlen_removelast; lia).
  assert (cases : forall X (l : list X) a b i z, zlen l = T0 + t -> rd (l ++ [a; b]) i = Some z -> (i < T0 + t /\ rd l i = Some z) \/ (i = T0 + t /\ z = a) \/ (i = T0 + t + 1 /\ z = b)).
  { intros X l a b i z Zl Hz. pose proof (rd_Some_bound _ _ _ Hz) as BB. rewrite zlen_app, !zlen_cons, zlen_nil in BB. rewrite rd_app, Zl in Hz. destruct (Z.ltb_spec i (T0 + t)); [now left|]. right. destruct (Z.eq_dec i (T0 + t)) as [->|]; [rewrite Z.sub_diag, rd_cons_0 in Hz; injection Hz as <-; now left|]. right. assert (i = T0 + t + 1) as -> by lia. replace (T0 + t + 1 - (T0 + t)) with (0 + 1) in Hz by lia. rewrite rd_cons_S, rd_cons_0 in Hz by lia. injection Hz as <-. auto. }
  split.
  - lia.
  - rewrite zlen_app, !zlen_cons, zlen_nil. lia.
  - rewrite zlen_app, !zlen_cons, zlen_nil. lia.
  - intros i g M Hg HM. destruct (cases _ _ _ _ _ _ Zr Hg) as [(D & G)|[(D & ->)|(D & ->)]]; destruct (cases _ _ _ _ _ _ Zn HM) as [(D' & G')|[(D' & ->)|(D' & ->)]]; try lia.
    + rewrite rd_removelast in G by lia. rewrite rd_removelast in G' by lia. destruct (B4 _ _ _ G G') as (C1 & C2). split; [exact C1|]. intros _. apply C2. exact D.
    + split; [apply A1|auto].
    + split; [exact A2|lia].
  - intros M HM. apply in_app_or in HM as [HM|[<-|[<-|[]]]]; [apply B5; rewrite ENs; apply in_or_app; now left|exact A4|unfold bare; now rewrite zlen_map].
  - exact A3.
  - exact A6.
  - intros k beam' Hbeam'. assert (Hk : 0 <= k < n) by (apply rd_Some_bound in Hbeam'; lia). destruct (rd_in_bound N k) as (p & Hp); [lia|]. destruct (A7 k p Hp) as (beam & q & ns & beam'' & C1 & C2 & C3 & C4 & FC). rewrite Hbeam' in C4. injection C4 as <-.
    destruct (B8 _ _ C1) as (H & EH & SI & HB). pose proof (si_len _ _ _ _ _ _ _ _ _ _ _ _ SI) as ZH. pose proof (zlen_upto k t Hk ltac:(lia)) as ZU. pose proof (zlen_nonneg (upto k t)) as ZU0. assert (NH : H <> []) by (intros ->; rewrite zlen_nil in ZH; lia).
    exists (removelast H ++ [q; map (fun s => (s, [])) ns]).
    assert (ZRH : zlen (removelast H) = zlen (upto k t)) by (rewrite zlen_removelast; lia). split; [|split].
    + rewrite map_app, map_removelast, EH, removelast_app' by exact NH. rewrite <- app_assoc. f_equal. f_equal. cbn [map]. f_equal; [unfold colk; now rewrite C2|]. f_equal. unfold colk, bare. rewrite rd_map, C3. reflexivity.
    + destruct (rd_in_bound (rw seqs k) t) as (row & Hrow); [rewrite Hlen; lia|]. rewrite (upto_S k t row ltac:(lia) Hrow). pose proof (colt k H Hk EH ZH) as Hcol. assert (Ep : colk k N = p) by (unfold colk; now rewrite Hp). rewrite Ep in Hcol.
      eapply (sinv_fwd f cols stride sb ob mina maxa partial Vf Lf Hcs Hsb (upto k t) row H _ (ee k) beam beam' (whole k) p q ns SI (HD k Hk) (HW k Hk)).
      * rewrite <- (upto_S k t row ltac:(lia) Hrow). apply upto_ext; lia.
      * apply HK. exact Hk.
      * exact Hcol.
      * rewrite zlen_app, !zlen_cons, zlen_nil. lia.
      * intros i Hi. rewrite rd_app, ZRH. replace (i <? zlen (upto k t)) with true by lia. apply rd_removelast. lia.
      * rewrite rd_app, ZRH, Z.ltb_irrefl, Z.sub_diag. apply rd_cons_0.
      * rewrite rd_app, ZRH. replace (zlen (upto k t) + 1 <? zlen (upto k t)) with false by lia. replace (zlen (upto k t) + 1 - zlen (upto k t)) with (0 + 1) by lia. rewrite rd_cons_S by lia. apply rd_cons_0.
      * intros R WR (more & M1 & M2). rewrite ZU. apply (fcol_lift f cols stride sb ob mina maxa partial seqs k R (zlen (real k)) t).
        -- rewrite Hlen; lia.
        -- apply zlen_nonneg.
        -- rewrite M2, !zlen_app, zlen_cons, zlen_nil, ZU. destruct more as [|m0 more]; [congruence|]. rewrite zlen_cons. pose proof (zlen_nonneg more). lia.
        -- rewrite Hrow, M2, <- app_assoc. cbn [app]. rewrite rd_app, <- ZU, Z.ltb_irrefl, Z.sub_diag. apply rd_cons_0.
        -- exact FC.
    + intros col x Hc Hx. rewrite zlen_app, ZRH, !zlen_cons, zlen_nil in Hc. rewrite rd_app, ZRH in Hc. replace (_ <? zlen (upto k t)) with false in Hc by lia. replace (zlen (upto k t) + (1 + (1 + 0)) - 1 - zlen (upto k t)) with (0 + 1) in Hc by lia. rewrite rd_cons_S, rd_cons_0 in Hc by lia. injection Hc as <-. apply in_map_iff in Hx as (s & <- & _). reflexivity.
Qed.

Lemma fwd_chunk fs Ns beams h : 0 < n -> binv (fun k => zlen (real k)) 0 fs Ns beams h -> exists fs' Ns' beams' h',
  forward_chunk ord c chunk fs beams h = Some (fs', beams', h') /\ binv (fun k => zlen (real k)) chunk fs' Ns' beams' h'.
Proof.
  intros Hn0 BI. unfold forward_chunk. set (step := fun s t => _).
  assert (P : forall m : nat, Z.of_nat m <= chunk -> exists fs' Ns' beams' h', foldM step (zrange (Z.of_nat m)) (fs, beams, h) = Some (fs', beams', h') /\ binv (fun k => zlen (real k)) (Z.of_nat m) fs' Ns' beams' h').
  { induction m as [|m IH]; intros Hm; [exists fs, Ns, beams, h; split; [reflexivity|exact BI]|]. destruct IH as (fs1 & Ns1 & b1 & h1 & E & B); [lia|].
    destruct (fwd_step _ _ _ _ _ _ Hn0 (fun k _ => Z.le_refl (zlen (real k))) B ltac:(lia)) as (cur & f' & nf & b2 & h2 & Ns2 & F1 & F2 & F3). exists (removelast fs1 ++ [f'; nf]), Ns2, b2, h2. split; [|replace (Z.of_nat (S m)) with (Z.of_nat m + 1) by lia; exact F3].
    replace (Z.of_nat (S m)) with (Z.of_nat m + 1) by lia. rewrite zrange_S by lia. rewrite ReverseProofs.foldM_app, E. cbn [foldM]. unfold step at 1. rewrite F1, F2. reflexivity. }
  destruct (P (Z.to_nat chunk)) as (fs' & Ns' & b' & h' & E & B); [lia|]. rewrite Z2Nat.id in E, B by lia. exists fs', Ns', b', h'. auto.
Qed.

Lemma prune_step fs Ns beams h : 0 < n -> 0 < chunk -> binv (fun k => zlen (real k)) chunk fs Ns beams h -> exists fs' Ns',
  prune_range ord c (Z.max 0 (T0 - 2)) (T0 + chunk) fs = Some fs' /\ binv (fun k => zlen (real k) + chunk) chunk fs' Ns' beams h.
Proof.
  intros Hn0 Hc0 [B1 B2 B3 B4 B5 B6 B7 B8]. assert (HT0 : 0 <= T0) by (pose proof (Hreal 0 ltac:(lia)); pose proof (zlen_nonneg (real 0)); lia). set (b := Z.max 0 (T0 - 2)). set (e := T0 + chunk). assert (Hbe : 0 <= b < e) by lia.
  destruct (rd_in_bound fs e) as (last & Hl); [lia|]. destruct (rd_in_bound Ns e) as (NL & HNL); [lia|]. destruct (B4 _ _ _ Hl HNL) as (SL1 & _).
  set (ws := skipn (Z.to_nat b) (firstn (Z.to_nat e) fs)). set (Ws := skipn (Z.to_nat b) (firstn (Z.to_nat e) Ns)).
  assert (sub : forall {X} (l : list X), e < zlen l -> zlen (skipn (Z.to_nat b) (firstn (Z.to_nat e) l)) = e - b /\ forall m, 0 <= m < e - b -> rd (skipn (Z.to_nat b) (firstn (Z.to_nat e) l)) m = rd l (b + m)).
  { intros X l Hz. split; [unfold zlen in *; rewrite skipn_length, firstn_length; lia|]. intros m Hm. rewrite rd_skip by lia. apply ExtractProofs.rd_firstn. lia. }
  destruct (sub _ fs ltac:(lia)) as (F1 & F2). destruct (sub _ Ns ltac:(lia)) as (N1 & N2). fold ws in F1, F2. fold Ws in N1, N2.
  assert (HF : Forall2 isA ws Ws). { apply Forall2_of_rd; [lia|]. intros i x y Hx Hy. pose proof (rd_Some_bound _ _ _ Hx). rewrite F2 in Hx by lia. rewrite N2 in Hy by lia. apply (B4 _ _ _ Hx Hy). lia. }
  assert (HWn : Forall (fun N => zlen N = n) Ws). { apply Forall_forall. intros N HN. apply In_rd in HN as (i & Bi & Hi). rewrite N2 in Hi by lia. apply B5. eauto using rd_In. }
  assert (ZNL : zlen NL = n) by (apply B5; eauto using rd_In). set (lst := map (map fst) (lastS NL)). assert (Zlst : zlen lst = n) by (unfold lst, lastS; now rewrite !zlen_map).
  assert (colL : forall k, colk k lst = map (fun x : nst => lf (fst x)) (colk k NL)). { intros k. unfold colk, lst, lastS. rewrite !rd_map. destruct (rd NL k); cbn; [|reflexivity]. rewrite map_map. reflexivity. }
  assert (colW : forall k, zlen (map (colk k) Ws) = e - b /\ forall m, 0 <= m < e - b -> rd (map (colk k) Ws) m = rd (map (colk k) Ns) (b + m)).
  { intros k. split; [now rewrite zlen_map|]. intros m Hm. rewrite !rd_map, N2 by lia. reflexivity. }
  assert (colE : forall k, rd (map (colk k) Ns) e = Some (colk k NL)) by (intros k; rewrite rd_map, HNL; reflexivity).
  (* the window of one stream *)
  assert (WIN : forall k beam, rd beams k = Some beam -> exists H W bs d, map (colk k) Ns = repeat [] (pad k) ++ H /\ sinv (upto k chunk) H (zlen (real k)) beam /\ (forall col x, rd H (zlen H - 1) = Some col -> In x col -> snd x = []) /\
     map (colk k) Ws = repeat [] d ++ W /\ bs = Z.max 0 (b - Z.of_nat (pad k)) /\ Z.of_nat d = Z.max 0 (Z.of_nat (pad k) - b) /\ 0 <= bs < zlen (upto k chunk) /\ bs <= zlen (real k) /\
     zlen W = zlen (upto k chunk) - bs /\ (forall m, 0 <= m < zlen (upto k chunk) - bs -> rd W m = rd H (bs + m)) /\ rd H (zlen (upto k chunk)) = Some (colk k NL) /\ colk k NL <> []).
  { intros k beam Hbeam. assert (Hk : 0 <= k < n) by (apply rd_Some_bound in Hbeam; lia). destruct (B8 _ _ Hbeam) as (H & EH & SI & HB). pose proof (si_len _ _ _ _ _ _ _ _ _ _ _ _ SI) as ZH. pose proof (zlen_upto k chunk Hk ltac:(lia)) as ZU. pose proof (Hreal k Hk) as HR. pose proof (zlen_nonneg (real k)) as ZR0.
    assert (Zp : Z.of_nat (pad k) = T0 - zlen (real k)) by lia. destruct (colW k) as (C1 & C2).
    set (bs := Z.max 0 (b - Z.of_nat (pad k))). set (d := Z.to_nat (Z.max 0 (Z.of_nat (pad k) - b))). exists H, (skipn d (map (colk k) Ws)), bs, d.
    assert (Zd : Z.of_nat d = Z.max 0 (Z.of_nat (pad k) - b)) by lia. assert (Ld : Z.of_nat d <= e - b) by lia.
    split; [exact EH|]. split; [exact SI|]. split; [exact HB|].
    assert (RW : forall m, 0 <= m -> Z.of_nat d + m < e - b -> rd (map (colk k) Ws) (Z.of_nat d + m) = rd H (bs + m)).
    { intros m Hm Hm2. rewrite C2 by lia. rewrite EH. replace (b + (Z.of_nat d + m)) with (Z.of_nat (pad k) + (bs + m)) by lia. apply rd_pad. lia. }
    assert (ZW : zlen (skipn d (map (colk k) Ws)) = e - b - Z.of_nat d) by (unfold zlen in *; rewrite skipn_length; lia).
    assert (RS : forall m, 0 <= m < e - b - Z.of_nat d -> rd (skipn d (map (colk k) Ws)) m = rd H (bs + m)). { intros m Hm. rewrite <- RW by lia. rewrite <- (Nat2Z.id d) at 1. rewrite rd_skip by lia. reflexivity. }
    split; [|split; [reflexivity|split; [exact Zd|split; [lia|split; [lia|split; [lia|split; [intros m Hm; apply RS; lia|]]]]]]].
    - rewrite <- (firstn_skipn d (map (colk k) Ws)) at 1. f_equal. apply list_ext_rd; [unfold zlen in *; rewrite firstn_length, repeat_length; lia|]. intros i Hi. assert (Bi : 0 <= i < Z.of_nat d) by (unfold zlen in Hi; rewrite firstn_length in Hi; lia). rewrite <- (Nat2Z.id d) at 1. rewrite ExtractProofs.rd_firstn by lia. rewrite C2 by lia. rewrite EH, rd_pad_l by lia. pose proof (rd_pad_l (@nil nst) d [] i Bi) as X. rewrite app_nil_r in X. now symmetry.
    - assert (X : rd H (zlen (upto k chunk)) = Some (colk k NL)). { pose proof (colE k) as X. rewrite EH in X. replace e with (Z.of_nat (pad k) + zlen (upto k chunk)) in X by lia. rewrite rd_pad in X by lia. exact X. }
      split; [exact X|]. apply (sinv_ne f cols stride sb ob mina maxa partial _ _ _ _ SI _ _ X). }
  destruct (prune_ok c ord Ho n ws Ws last NL eq_refl HF SL1 HWn ZNL) as (fs' & P1 & P2).
  { apply (col_good c n); auto. intros k Hk. fold lst. rewrite colL. destruct (rd_in_bound beams k) as (beam & Hbeam); [lia|]. destruct (WIN _ _ Hbeam) as (H & W & bs & d & EH & SI & HB & EW & Ebs & Ed & Hbs & Hb0 & ZW & RW & Hcl & NEl). rewrite EW. apply good_pad.
    destruct (si_col _ _ _ _ _ _ _ _ _ _ _ _ SI (whole k) (HD k Hk) (HW k Hk) (upto_ext k chunk Hk ltac:(lia))) as (pmf & CI & _).
    exact (win_good [f] [whole k] cols stride (cf true [whole k]) (su1 f cols stride sb ob mina maxa partial Vf Lf Hcs true (whole k) (HW k Hk)) 0 ltac:(split; [lia|reflexivity]) pmf H (zlen (real k)) bs (zlen (upto k chunk)) (colk k NL) W CI Hbs ZW RW Hcl). }
  fold lst in P2. destruct (Forall2_rd _ _ _ P2) as (Q1 & Q2). assert (ZP : zlen (pruned c Ws lst) = e - b) by (unfold pruned, mark_all; rewrite zlen_map, zlen_imap, zlen_bw_all; exact N1). assert (Zf : zlen fs' = e - b) by lia.
  destruct (splice fs fs' (set_final_probs last) b e ltac:(lia) ltac:(lia) Zf) as (S1 & S2 & S3 & S4). destruct (splice Ns (pruned c Ws lst) (lastS NL) b e ltac:(lia) ltac:(lia) ZP) as (T1 & T2 & T3 & T4).
  set (fr' := firstn (Z.to_nat b) fs ++ fs' ++ set_final_probs last :: skipn (S (Z.to_nat e)) fs) in *. set (Ns' := firstn (Z.to_nat b) Ns ++ pruned c Ws lst ++ lastS NL :: skipn (S (Z.to_nat e)) Ns) in *.
  exists fr', Ns'. split; [unfold prune_range; rewrite Hl; fold ws; rewrite P1; reflexivity|].
  assert (cases : forall i, (i < b \/ e < i) \/ i = e \/ exists m, i = b + m /\ 0 <= m < e - b). { intros i. assert ((i < b \/ e < i) \/ i = e \/ b <= i < e) as [D|[D|D]] by lia; auto. right. right. exists (i - b). lia. }
  split.
  - exact B1.
  - lia.
  - lia.
  - intros i g N Hg HN. destruct (cases i) as [D|[->|(m & -> & Hm)]].
    + rewrite S2 in Hg by exact D. rewrite T2 in HN by exact D. eauto.
    + rewrite S3 in Hg. rewrite T3 in HN. injection Hg as <-. injection HN as <-. split; [now apply set_final_S|]. unfold e. lia.
    + rewrite S4 in Hg by exact Hm. rewrite T4 in HN by exact Hm. pose proof (Q2 _ _ _ Hg HN) as X. split; [apply X|auto].
  - intros N HN. apply In_rd in HN as (i & _ & Hi). destruct (cases i) as [D|[->|(m & -> & Hm)]].
    + rewrite T2 in Hi by exact D. eauto using rd_In.
    + rewrite T3 in Hi. injection Hi as <-. unfold lastS. now rewrite zlen_map.
    + rewrite T4 in Hi by exact Hm. unfold pruned in Hi. rewrite rd_map in Hi. unfold mark_all in Hi. rewrite rd_imap in Hi. destruct (rd (bw_all c Ws lst) m) as [B|] eqn:EB; [|discriminate]. injection Hi as <-.
      assert (ZB : zlen B = n). { pose proof (zlen_bw_at c n lst Ws Zlst HWn m) as X. rewrite EB, zlen_map in X. exact X. }
      assert (ZR : zlen (rms (bw_all c Ws lst) (0 + m) B) = n). { unfold rms. destruct (rd (bw_all c Ws lst) (0 + m + 1)) as [B'|] eqn:EB'; rewrite zlen_map; [|exact ZB]. pose proof (zlen_bw_at c n lst Ws Zlst HWn (0 + m + 1)) as X. rewrite EB', zlen_map in X. exact X. }
      unfold keepM, mark. rewrite !zlen_map, zlen_combine by lia. lia.
  - exact B6.
  - exact B7.
  - intros k beam Hbeam. assert (Hk : 0 <= k < n) by (apply rd_Some_bound in Hbeam; lia). destruct (WIN _ _ Hbeam) as (H & W & bs & d & EH & SI & HB & EW & Ebs & Ed & Hbs & Hb0 & ZW & RW & Hcl & NEl).
    pose proof (si_len _ _ _ _ _ _ _ _ _ _ _ _ SI) as ZH. pose proof (zlen_upto k chunk Hk ltac:(lia)) as ZU. pose proof (Hreal k Hk) as HR. assert (Zp : Z.of_nat (pad k) = T0 - zlen (real k)) by lia.
    set (L := map (fun x : nst => lf (fst x)) (colk k NL)) in *. set (G := map (colk k) Ns'). assert (ZG : zlen G = T0 + chunk + 1) by (unfold G; rewrite zlen_map; lia).
    destruct (si_col _ _ _ _ _ _ _ _ _ _ _ _ SI (whole k) (HD k Hk) (HW k Hk) (upto_ext k chunk Hk ltac:(lia))) as (pmf & CI & _).
    assert (PP : prunedc c (repeat [] d ++ W) L = repeat [] d ++ prunedc c W L).
    { apply pruned_pad. destruct (Nat.eq_dec d 0) as [->|Hd]; [now left|right]. intros col x Hc Hx. exact (start_back [f] [whole k] (cf true [whole k]) 0 pmf H (zlen (real k)) bs (zlen (upto k chunk)) (colk k NL) W CI ltac:(cbn; lia) (si_link _ _ _ _ _ _ _ _ _ _ _ _ SI) Hbs ZW RW Hcl NEl ltac:(lia) col x Hc Hx). }
    assert (G1 : forall i, i < b \/ e < i -> rd G i = rd (map (colk k) Ns) i) by (intros i Hi; unfold G; rewrite !rd_map, T2 by exact Hi; reflexivity).
    assert (G2 : rd G e = Some (map (fun x : nst => (lf (fst x), snd x)) (colk k NL))) by (unfold G; rewrite rd_map, T3; unfold colk, lastS; cbn; rewrite rd_map; destruct (rd NL k); reflexivity).
    assert (G3 : forall m, 0 <= m < e - b -> rd G (b + m) = rd (repeat [] d ++ prunedc c W L) m).
    { intros m Hm. unfold G. rewrite rd_map, T4 by exact Hm. rewrite <- PP, <- EW. unfold L. rewrite <- colL, <- (col_pruned c n k lst Ws Hk Zlst HWn), rd_map. reflexivity. }
    assert (ZWp : zlen (prunedc c W L) = zlen (upto k chunk) - bs) by (unfold prunedc; rewrite zlen_imap; exact ZW).
    exists (skipn (pad k) G). assert (RG : forall i, 0 <= i -> rd (skipn (pad k) G) i = rd G (Z.of_nat (pad k) + i)) by (intros i Hi; rewrite <- (Nat2Z.id (pad k)) at 1; rewrite rd_skip by lia; reflexivity).
    assert (ZS : zlen (skipn (pad k) G) = zlen (upto k chunk) + 1) by (unfold zlen in *; rewrite skipn_length; lia).
    split; [|split].
    + assert (LG : (pad k <= length G)%nat) by (unfold zlen in ZG; lia). rewrite <- (firstn_skipn (pad k) G) at 1. f_equal. apply list_ext_rd.
      { unfold zlen at 1 3. rewrite firstn_length, repeat_length. lia. }
      intros i Hi. assert (Bi : 0 <= i < Z.of_nat (pad k)) by (unfold zlen at 1 in Hi; rewrite firstn_length in Hi; lia). rewrite <- (Nat2Z.id (pad k)) at 1. rewrite ExtractProofs.rd_firstn by lia.
      transitivity (Some (@nil nst)); [|pose proof (rd_pad_l (@nil nst) (pad k) [] i Bi) as X; rewrite app_nil_r in X; now symmetry]. destruct (Z_lt_le_dec i b) as [D|D]; [rewrite G1, EH by lia; apply rd_pad_l; lia|]. replace i with (b + (i - b)) by lia. rewrite G3 by lia. apply rd_pad_l. lia.
    + rewrite <- ZU. apply (sinv_prune f cols stride sb ob mina maxa partial Vf Lf Hcs Hob (upto k chunk) H (skipn (pad k) G) (zlen (real k)) bs beam (colk k NL) W (whole k) SI (HD k Hk) (HW k Hk) (upto_ext k chunk Hk ltac:(lia)) Hbs Hb0 ZW RW Hcl).
      * lia.
      * intros i Hi. destruct (Z_lt_le_dec i 0) as [D|D]; [destruct i; try lia; reflexivity|]. rewrite RG by lia. rewrite G1 by lia. rewrite EH. apply rd_pad. lia.
      * rewrite RG by lia. replace (Z.of_nat (pad k) + zlen (upto k chunk)) with e by lia. exact G2.
      * intros m Hm. rewrite RG by lia. replace (Z.of_nat (pad k) + (bs + m)) with (b + (Z.of_nat d + m)) by lia. rewrite G3 by lia. rewrite rd_pad by lia. reflexivity.
    + intros col x Hc Hx. rewrite ZS in Hc. rewrite RG in Hc by lia. replace (Z.of_nat (pad k) + (zlen (upto k chunk) + 1 - 1)) with e in Hc by lia. rewrite G2 in Hc. injection Hc as <-. apply in_map_iff in Hx as (x0 & <- & Hx0). cbn. eapply (HB (colk k NL)); [rewrite ZH; replace (zlen (upto k chunk) + 1 - 1) with (zlen (upto k chunk)) by lia; exact Hcl|exact Hx0].
Qed.
End Batch.
