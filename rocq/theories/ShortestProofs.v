(** * Proofs: following best entering arcs backwards with several tasks. *)
From Coq Require Import ZArith List Lia Bool.
From Coq Require Import ZifyBool ZifyNat.
From Verif Require Import Base RaggedModel RaggedSpec RaggedProofs FsaSpec FsaLemmas RaggedOpsModel RaggedOpsSpec RaggedOpsProofs RaggedCatProofs
  BatchModel BatchProofs ScoreModel ShortestModel.
Import ListNotations.
Open Scope Z_scope.

Section Trace.
(** [E s]: the arc entering [s] (-1: none); [sr]: the source of an arc *)
Context (E sr : Z -> Z) (N : Z) (EU : forall s, 0 <= s < N -> E s <> -1 -> 0 <= sr (E s) < s).

Definition ex (s : Z) : Z := if s <? 0 then -1 else E s.
Definition bk (s : Z) : Z := if ex s =? -1 then -1 else sr (ex s).
Definition tr (i s : Z) : Z := Nat.iter (Z.to_nat i) bk s.

Lemma tr_0 s : tr 0 s = s. Proof. reflexivity. Qed.
Lemma tr_add m n s : 0 <= m -> 0 <= n -> tr (m + n) s = tr n (tr m s).
Proof using. clear.
  intros Hm Hn. unfold tr. rewrite Z2Nat.inj_add by lia. rewrite Nat.add_comm. generalize (Z.to_nat n) (Z.to_nat m).
  intros n' m'. induction n' as [|n' IH]; simpl; auto. now rewrite IH.
Qed.
Lemma tr_S n s : 0 <= n -> tr (n + 1) s = bk (tr n s).
Proof using. clear. intros. rewrite tr_add by lia. reflexivity. Qed.
Lemma tr_1 s : tr 1 s = bk s. Proof. reflexivity. Qed.
Lemma bk_down s : -1 <= s < N -> -1 <= bk s /\ (bk s = -1 \/ bk s < s).
Proof.
  intros H. unfold bk, ex. destruct (s <? 0) eqn:G; [change (-1 =? -1) with true; lia|]. destruct (E s =? -1) eqn:G2; [lia|]. specialize (EU s ltac:(lia) ltac:(lia)). lia.
Qed.
Lemma tr_down n s : 0 <= n -> 0 <= s < N -> -1 <= tr n s /\ (tr n s = -1 \/ tr n s <= s - n).
Proof.
  intros Hn Hs. replace n with (Z.of_nat (Z.to_nat n)) by lia. generalize (Z.to_nat n) as k. induction k as [|k IH]; [rewrite tr_0; lia|].
  replace (Z.of_nat (S k)) with (Z.of_nat k + 1) by lia. rewrite tr_S by lia. pose proof (bk_down (tr (Z.of_nat k) s) ltac:(lia)). lia.
Qed.
Lemma tr_dead n : 0 <= n -> tr n (-1) = -1.
Proof using. clear.
  intros Hn. replace n with (Z.of_nat (Z.to_nat n)) by lia. generalize (Z.to_nat n) as k. induction k as [|k IH]; [reflexivity|].
  replace (Z.of_nat (S k)) with (Z.of_nat k + 1) by lia. rewrite tr_S, IH by lia. reflexivity.
Qed.
Lemma ex_dead m n s : 0 <= m <= n -> ex (tr m s) = -1 -> ex (tr n s) = -1.
Proof using. clear.
  intros H D. destruct (Z.eq_dec m n) as [->|]; auto. replace n with (m + 1 + (n - m - 1)) by lia. rewrite tr_add, tr_S by lia.
  assert (B : bk (tr m s) = -1) by (unfold bk; now rewrite D). now rewrite B, tr_dead by lia.
Qed.
Lemma ex_live n s : 0 <= n -> ex (tr n s) <> -1 -> 0 <= tr n s.
Proof using. clear. intros Hn H. unfold ex in H. destruct (tr n s <? 0) eqn:G; lia. Qed.
Lemma tr_src n s : 0 <= n -> ex (tr n s) <> -1 -> tr (n + 1) s = sr (ex (tr n s)).
Proof using. clear. intros Hn H. rewrite tr_S by lia. unfold bk. now replace (ex (tr n s) =? -1) with false by lia. Qed.

(** the last arc of an n-step traceback *)
Definition la (n s : Z) : Z := ex (tr (n - 1) s).

(** the list of arcs, last one first *)
Fixpoint back_arcs (fuel : nat) (s : Z) : list Z :=
  match fuel with O => [] | S f => if E s =? -1 then [] else E s :: back_arcs f (sr (E s)) end.
Lemma back_arcs_ok fuel : forall s, 0 <= s < N -> s <= Z.of_nat fuel -> let L := zlen (back_arcs fuel s) in
  (forall i, 0 <= i < L -> rd (back_arcs fuel s) i = Some (ex (tr i s)) /\ ex (tr i s) <> -1) /\ ex (tr L s) = -1 /\ 0 <= tr L s.
Proof.
  induction fuel as [|fuel IH]; intros s Hs Hf; cbv zeta; cbn [back_arcs].
  - change (zlen (@nil Z)) with 0. split; [lia|]. rewrite tr_0. unfold ex. replace (s <? 0) with false by lia. split; [|lia]. destruct (Z.eq_dec (E s) (-1)); auto. specialize (EU s Hs n). lia.
  - destruct (E s =? -1) eqn:G.
    + change (zlen (@nil Z)) with 0. split; [lia|]. rewrite tr_0. unfold ex. replace (s <? 0) with false by lia. lia.
    + pose proof (EU s Hs ltac:(lia)) as U. destruct (IH (sr (E s)) ltac:(lia) ltac:(lia)) as (H1 & H2 & H3). cbv zeta in *. rewrite zlen_cons. pose proof (zlen_nonneg (back_arcs fuel (sr (E s)))).
      assert (B : forall i, 0 <= i -> tr (1 + i) s = tr i (sr (E s))) by (intros i Hi; rewrite tr_add, tr_1 by lia; f_equal; unfold bk, ex; replace (s <? 0) with false by lia; now rewrite G).
      rewrite B by lia. split; auto. intros i Hi. rewrite rd_cons. destruct (i =? 0) eqn:G0.
      * replace i with 0 by lia. rewrite tr_0. unfold ex. replace (s <? 0) with false by lia. split; [reflexivity|lia].
      * replace i with (1 + (i - 1)) by lia. rewrite B by lia. replace (1 + (i - 1) - 1) with (i - 1) by lia. apply H1. lia.
Qed.

(** tables; [rids1], [v]: every arc of the FsaVec, seen from the FSA of [s] *)
Context (v : fsavec) (bof : Z -> Z)
  (HA : forall s, 0 <= s < N -> E s <> -1 -> exists a, rd (v_arcs v) (E s) = Some a /\ src a + bof s = sr (E s) /\ bof (sr (E s)) = bof s).

Lemma bof_tr n s : 0 <= n -> 0 <= s < N -> 0 <= tr n s -> bof (tr n s) = bof s.
Proof.
  intros Hn Hs. replace n with (Z.of_nat (Z.to_nat n)) by lia. generalize (Z.to_nat n) as k. induction k as [|k IH]; [reflexivity|].
  replace (Z.of_nat (S k)) with (Z.of_nat k + 1) by lia. rewrite tr_S by lia. intros H. pose proof (tr_down (Z.of_nat k) s ltac:(lia) Hs) as D.
  unfold bk in *. destruct (ex (tr (Z.of_nat k) s) =? -1) eqn:G; [lia|]. pose proof (ex_live (Z.of_nat k) s ltac:(lia) ltac:(lia)) as L. unfold ex in *. replace (tr (Z.of_nat k) s <? 0) with false in * by lia.
  destruct (HA (tr (Z.of_nat k) s) ltac:(lia) ltac:(lia)) as (a & _ & _ & ->). now apply IH.
Qed.
Lemma arc_tr n s : 0 <= n -> 0 <= s < N -> ex (tr n s) <> -1 -> exists a, rd (v_arcs v) (ex (tr n s)) = Some a /\ src a + bof s = tr (n + 1) s.
Proof.
  intros Hn Hs H. pose proof (ex_live n s Hn H) as L. pose proof (tr_down n s Hn Hs) as D. rewrite tr_src by auto. unfold ex in *. replace (tr n s <? 0) with false in * by lia.
  destruct (HA (tr n s) ltac:(lia) H) as (a & A1 & A2 & _). exists a. rewrite <- (bof_tr n s Hn Hs L). auto.
Qed.

Section Powers.
Context (rids1 : list Z) (fof : Z -> Z) (N0 : 0 <= N)
  (HN : zlen (v_rs2 v) - 1 = N)
  (HF : forall s, 0 <= s < N -> rd rids1 s = Some (fof s) /\ rd (v_rs1 v) (fof s) = Some (bof s)).
Lemma sp_square_ok c : 1 <= c -> sp_square v rids1 (tab N (la c)) = Some (tab N (la (c + c))).
Proof.
  intros Hc. unfold sp_square. rewrite HN. apply RaggedOpsProofs.mapM_zrange; [lia|now rewrite zlen_tab by lia|].
  intros s Hs. destruct (HF s Hs) as (-> & ->). rewrite (rd_tab N (la c) s), (rd_tab N (la (c + c)) s) by lia. unfold la. destruct (ex (tr (c - 1) s) =? -1) eqn:G.
  - f_equal. symmetry. apply (ex_dead (c - 1)); lia.
  - destruct (arc_tr (c - 1) s ltac:(lia) Hs ltac:(lia)) as (a & -> & ->). replace (c - 1 + 1) with c by lia.
    assert (0 <= tr c s < N).
    { pose proof (tr_down (c - 1) s ltac:(lia) Hs). pose proof (ex_live (c - 1) s ltac:(lia) ltac:(lia)). replace c with (c - 1 + 1) by lia. rewrite tr_src by lia.
      unfold ex in *. replace (tr (c - 1) s <? 0) with false in * by lia. specialize (EU (tr (c - 1) s) ltac:(lia) ltac:(lia)). lia. }
    rewrite rd_tab by lia. unfold la. rewrite <- tr_add by lia. do 3 f_equal. lia.
Qed.
Lemma sp_powers_ok n : forall p, exists ps, sp_powers v rids1 n (tab N (la (2 ^ Z.of_nat p))) = Some ps /\
  forall i, 0 <= i <= Z.of_nat n -> rd ps i = Some (tab N (la (2 ^ (Z.of_nat p + i)))).
Proof.
  induction n as [|n IH]; intros p; cbn [sp_powers].
  - eexists. split; [reflexivity|]. intros i Hi. replace i with 0 by lia. rewrite rd_cons_0. now rewrite Z.add_0_r.
  - rewrite sp_square_ok by lia. replace (2 ^ Z.of_nat p + 2 ^ Z.of_nat p) with (2 ^ Z.of_nat (S p)) by (rewrite Nat2Z.inj_succ, Z.pow_succ_r by lia; lia).
    destruct (IH (S p)) as (ps & -> & H). eexists. split; [reflexivity|]. intros i Hi. rewrite rd_cons. destruct (i =? 0) eqn:G.
    + replace i with 0 by lia. now rewrite Z.add_0_r.
    + rewrite H by lia. do 4 f_equal. lia.
Qed.
End Powers.

Lemma tr_range n s : 0 <= n -> 0 <= s < N -> tr n s <> -1 -> 0 <= tr n s < N.
Proof. intros Hn Hs H. pose proof (tr_down n s Hn Hs). lia. Qed.
Lemma live_before n s : 0 <= n -> 0 <= tr (n + 1) s -> ex (tr n s) <> -1.
Proof using. clear. intros Hn H. rewrite tr_S in H by lia. unfold bk in H. destruct (ex (tr n s) =? -1) eqn:G; lia. Qed.

Lemma sp_advance_ok ps lp t F : (forall i, 0 <= i <= lp -> rd ps i = Some (tab N (la (2 ^ i)))) -> 0 <= F < N ->
  forall n m i, 0 <= m -> m + Z.of_nat n <= lp -> 0 <= i -> 0 <= tr i F ->
  sp_advance (v_arcs v) ps t (bof F) m n i (tr i F) = Some (let j := i + bits_from t m n in if tr j F =? -1 then None else Some (j, tr j F)).
Proof.
  intros HP HF'. induction n as [|n IH]; intros m i Hm Hl Hi Ht; cbn [sp_advance bits_from]; cbv zeta.
  - rewrite Z.add_0_r. now replace (tr i F =? -1) with false by lia.
  - pose proof (bits_from_nonneg t n (m + 1) ltac:(lia)). assert (0 < 2 ^ m) by lia. destruct (Z.testbit t m).
    + rewrite HP by lia. rewrite rd_tab by (apply tr_range; lia). unfold la. rewrite <- tr_add by lia. destruct (ex (tr (i + (2 ^ m - 1)) F) =? -1) eqn:G.
      * replace (i + (2 ^ m + bits_from t (m + 1) n)) with (i + (2 ^ m - 1) + 1 + bits_from t (m + 1) n) by lia. rewrite tr_add, tr_S by lia.
        assert (B : bk (tr (i + (2 ^ m - 1)) F) = -1) by (unfold bk; now rewrite G). now rewrite B, tr_dead by lia.
      * destruct (arc_tr (i + (2 ^ m - 1)) F ltac:(lia) HF' ltac:(lia)) as (a & -> & ->). replace (i + (2 ^ m - 1) + 1) with (i + 2 ^ m) by lia. rewrite IH; try lia.
        -- cbv zeta. now rewrite Z.add_assoc.
        -- replace (i + 2 ^ m) with (i + (2 ^ m - 1) + 1) by lia. rewrite tr_src by lia. pose proof (ex_live (i + (2 ^ m - 1)) F ltac:(lia) ltac:(lia)) as L.
           pose proof (tr_down (i + (2 ^ m - 1)) F ltac:(lia) HF'). unfold ex in *. replace (tr (i + (2 ^ m - 1)) F <? 0) with false in * by lia. apply EU; lia.
    + rewrite IH by lia. cbv zeta. now rewrite Z.add_0_l.
Qed.

Lemma sp_loop_ok p0 pl J F L : p0 = tab N (la 1) -> pl = tab N (la J) -> 1 <= J -> 0 <= F < N ->
  (forall i, 0 <= i < L -> ex (tr i F) <> -1) -> ex (tr L F) = -1 ->
  forall fuel i cur prev, 0 <= i < L -> L - i <= Z.of_nat fuel ->
  exists ws nb, sp_loop (v_arcs v) p0 pl (bof F) J fuel cur i (ex (tr i F)) prev = Some (ws, nb) /\
    (forall w, In w ws -> 0 <= fst w < L /\ snd w = ex (tr (fst w) F)) /\
    (forall c, 0 <= c -> i + c * J < L -> In (i + c * J) (map fst ws)) /\
    (forall x, nb = Some x -> x = if tr L F =? bof F then L else 0) /\
    (forall c, 0 <= c -> i + c * J = L - 1 -> nb <> None).
Proof.
  intros -> -> HJ HF' A1 A2. induction fuel as [|fuel IH]; intros i cur prev Hi Hf; [lia|]. cbn [sp_loop]. pose proof (A1 i Hi) as Q. replace (ex (tr i F) =? -1) with false by lia.
  destruct (arc_tr i F ltac:(lia) HF' Q) as (a & -> & ->).
  assert (R1 : 0 <= tr (i + 1) F < N).
  { pose proof (tr_down i F ltac:(lia) HF') as D. pose proof (ex_live i F ltac:(lia) Q). rewrite tr_src by lia. unfold ex in *. replace (tr i F <? 0) with false in * by lia. specialize (EU (tr i F) ltac:(lia) ltac:(lia)). lia. }
  rewrite rd_tab by lia. assert (LA : la J (tr (i + 1) F) = ex (tr (i + J) F)) by (unfold la; rewrite <- tr_add by lia; do 2 f_equal; lia). rewrite LA.
  destruct (Z_lt_le_dec (i + J) L) as [LT|GE].
  - destruct (IH (i + J) i (tr (i + 1) F) ltac:(lia) ltac:(lia)) as (ws & nb & -> & W1 & W2 & W3 & W4). eexists _, _. split; [reflexivity|]. cbn [fst snd]. split; [|split; [|split]].
    + intros w [<- | Hw]; [cbn [fst snd]; split; [lia|auto]|now apply W1].
    + intros c Hc Hl. destruct (Z.eq_dec c 0) as [->|]; [left; cbn; lia|]. right. replace (i + c * J) with (i + J + (c - 1) * J) by lia. apply W2; lia.
    + exact W3.
    + intros c Hc Hl. destruct (Z.eq_dec c 0) as [->|]; [lia|]. apply (W4 (c - 1)); lia.
  - assert (D : ex (tr (i + J) F) = -1) by (apply (ex_dead L); lia). rewrite D.
    assert (SL : sp_loop (v_arcs v) (tab N (la 1)) (tab N (la J)) (bof F) J fuel i (i + J) (-1) (tr (i + 1) F) =
                 Some ([], if ex (tr (i + 1) F) =? -1 then Some (if tr (i + 1) F =? bof F then i + 1 else 0) else None)).
    { destruct fuel; cbn [sp_loop]; rewrite rd_tab by lia; unfold la; reflexivity. }
    rewrite SL. eexists _, _. split; [reflexivity|]. cbn [fst snd]. split; [|split; [|split]].
    + intros w [<- | []]. cbn [fst snd]. split; [lia|auto].
    + intros c Hc Hl. destruct (Z.eq_dec c 0) as [->|]; [left; cbn; lia|]. nia.
    + intros x Hx. destruct (ex (tr (i + 1) F) =? -1) eqn:G; [|discriminate]. injection Hx as <-. assert (EL : i + 1 = L).
      { destruct (Z_lt_le_dec (i + 1) L) as [H|H]; [|lia]. specialize (A1 (i + 1) ltac:(lia)). lia. }
      now rewrite EL.
    + intros c Hc Hl. assert (c = 0) by nia. subst c. replace (i + 1) with L by lia. now rewrite A2.
Qed.
End Trace.
