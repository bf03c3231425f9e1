(** * ShortestPath follows the best entering arcs from the final state, for every
      schedule. *)
From Coq Require Import ZArith List Lia Lra Bool Reals Permutation.
From Coq Require Import ZifyBool ZifyNat.
From Verif Require Import Base RaggedModel RaggedSpec RaggedProofs FsaSpec FsaLemmas EpsLoopProofs RaggedOpsModel RaggedOpsSpec RaggedOpsProofs RaggedCatProofs
  GraphProofs PropsSpec PropsProofs PropsProps ReverseModel ReverseProofs ReverseProps ConnectSpec ConnectProofs ExtractProofs ConnectRun TopSortProofs TopSortRun LogReal
  BatchModel TransposeProofs BatchProofs BatchRun BatchProps ScoreModel ScoreSpec PathSums ScoreProofs ScoreRun ScorePaths ShortestModel ShortestProofs.
Import ListNotations.
Open Scope Z_scope.

(** the arc chosen by ArgMaxPerSublist *)
Lemma argmax_loop_cases (h : Z -> option R) qs : forall v i v' i', argmax_loop (map h qs) qs v i = (v', i') -> (i' = i /\ v' = v) \/ (In i' qs /\ v' = h i').
Proof.
  induction qs as [|q qs IH]; intros v i v' i' H; cbn [map argmax_loop] in H; [injection H as <- <-; now left|]. destruct (lge (h q) v).
  - apply IH in H as [(-> & ->) | (H & ->)]; right; [split; [now left|auto]|split; [now right|auto]].
  - apply IH in H as [H | (H & ->)]; [now left|right; split; [now right|auto]].
Qed.
Lemma argmax_loop_some (h : Z -> option R) qs i v' i' : argmax_loop (map h qs) qs None i = (v', i') -> qs = [] /\ i' = i /\ v' = None \/ In i' qs /\ v' = h i'.
Proof.
  destruct qs as [|q qs]; intros H; cbn [map argmax_loop] in H; [injection H as <- <-; now left|]. assert (G : lge (h q) None = true) by (now destruct (h q)). rewrite G in H.
  apply argmax_loop_cases in H as [(-> & ->) | (H & ->)]; right; [split; [now left|auto]|split; [now right|auto]].
Qed.

Lemma nth_error_rev' {A} (l : list A) n : (n < length l)%nat -> nth_error (rev l) n = nth_error l (length l - S n).
Proof.
  intros H. destruct (nth_error l (length l - S n)) as [x|] eqn:E2; [|apply nth_error_None in E2; lia].
  rewrite (nth_error_nth' _ x) by now rewrite rev_length. rewrite rev_nth by auto. f_equal. now apply nth_error_nth.
Qed.

Section B.
Variable fs : list nfsa.
Hypothesis WF : Forall well_formed fs.
Hypothesis TS : Forall p_topsorted_acyclic fs.
Variable scores : list (option R).
Notation Sn := (zlen (concat fs)).
Notation An := (zlen (concat (concat fs))).
Notation v := (flat_vec fs).
Notation E := (went fs scores false).
Notation sr := (srcq fs).

Lemma E_cases s : (E s = -1 /\ inarcs An (dstq fs) s = []) \/ (0 <= E s < An /\ dstq fs (E s) = s /\
  ssum false (map (fun q => ladd (Fw fs scores false (srcq fs q)) (sw scores q)) (inarcs An (dstq fs) s)) = ladd (Fw fs scores false (srcq fs (E s))) (sw scores (E s))).
Proof.
  unfold went. unfold reduce_fw. destruct (argmax_loop (map (fun q => ladd (Fw fs scores false (srcq fs q)) (sw scores q)) (inarcs An (dstq fs) s)) (inarcs An (dstq fs) s) None (-1)) as [v' i'] eqn:Q.
  pose proof (f_equal fst Q) as Q1. rewrite argmax_loop_fst in Q1 by now rewrite map_length. cbn [fst] in Q1. change lmax with (splus false) in Q1. rewrite fold_left_ssum, splus_None in Q1. rewrite Q1.
  apply argmax_loop_some in Q as [(Q & -> & ->) | (Q & ->)]; cbn [snd]; [now left|]. right. apply in_inarcs in Q as (B1 & B2). auto.
Qed.
Lemma E_up s : 0 <= s < Sn -> E s <> -1 -> 0 <= sr (E s) < s.
Proof. intros Hs H. destruct (E_cases s) as [(C & _) | (C & D & _)]; [lia|]. pose proof (q_up fs WF TS (E s) C). lia. Qed.

Definition fof (s : Z) : Z := at0 (ids_of fs) s.
Definition bof (s : Z) : Z := off1 fs (fof s).
Lemma fof_at k f i : rd fs k = Some f -> 0 <= i < zlen f -> rd (ids_of fs) (off1 fs k + i) = Some k /\ fof (off1 fs k + i) = k /\ bof (off1 fs k + i) = off1 fs k.
Proof using. clear.
  intros Hk Hi. destruct (rd_in_bound f i Hi) as (st & Hst). destruct (rd_concat_off fs k f i st Hk Hst) as (_ & ID). unfold bof, fof, at0. rewrite ID. auto.
Qed.
Lemma bof_le s : 0 <= s < Sn -> bof s <= s.
Proof using. clear. intros Hs. destruct (state_pos fs s Hs) as (k & f & i & st & Hk & Hf & -> & Bi). destruct (fof_at k f i Hk Bi) as (_ & _ & ->). lia. Qed.
Lemma HF s : 0 <= s < Sn -> rd (ids_of fs) s = Some (fof s) /\ rd (v_rs1 v) (fof s) = Some (bof s).
Proof.
  intros Hs. destruct (state_pos fs s Hs) as (k & f & i & st & Hk & Hf & -> & Bi). destruct (fof_at k f i Hk Bi) as (-> & -> & ->). split; auto.
  change (v_rs1 v) with (splits_of fs). rewrite rd_splits_off by (apply rd_Some_bound in Hk; lia). reflexivity.
Qed.
Lemma HA s : 0 <= s < Sn -> E s <> -1 -> exists a, rd (v_arcs v) (E s) = Some a /\ src a + bof s = sr (E s) /\ bof (sr (E s)) = bof s.
Proof.
  intros Hs H. destruct (E_cases s) as [(C & _) | (C & D & _)]; [lia|]. destruct (arc_q fs WF (E s) C) as (k & f & j & a & Hk & Ha & Eq & B1 & B2 & S1 & S2 & _).
  destruct (arc_by_pos fs WF k f j a Hk Ha) as (P & _). rewrite <- Eq in P. exists a. split; [exact P|].
  rewrite S1. destruct (fof_at k f (src a) Hk B1) as (_ & _ & ->). replace s with (off1 fs k + dst a) by lia. destruct (fof_at k f (dst a) Hk B2) as (_ & _ & ->). lia.
Qed.

Notation trf := (tr E sr).
Notation exf := (ex E).

Section Fsa.
Variables (k : Z) (f : nfsa).
Hypothesis Hk : rd fs k = Some f.
Notation b := (off1 fs k).
Definition final_of (k : Z) (f : nfsa) : Z := off1 fs k + zlen f - 1.
Definition chain (k : Z) (f : nfsa) : list Z := back_arcs E sr (Z.to_nat (zlen (concat fs))) (final_of k f).
Definition best (k : Z) (f : nfsa) : list Z :=
  if zlen f =? 0 then [] else if trf (zlen (chain k f)) (final_of k f) =? off1 fs k then rev (chain k f) else [].
Hypothesis Ne : 0 < zlen f.
Notation F := (final_of k f).
Notation L := (zlen (chain k f)).

Lemma F_range : 0 <= F < Sn.
Proof. unfold final_of. pose proof (state_range fs k f (zlen f - 1) Hk ltac:(lia)). lia. Qed.
Lemma chain_ok : (forall i, 0 <= i < L -> rd (chain k f) i = Some (exf (trf i F)) /\ exf (trf i F) <> -1) /\ exf (trf L F) = -1 /\ 0 <= trf L F.
Proof. pose proof F_range. apply (back_arcs_ok E sr Sn E_up); lia. Qed.
Lemma bof_F : bof F = b.
Proof. unfold final_of. replace (b + zlen f - 1) with (b + (zlen f - 1)) by lia. apply (fof_at k f (zlen f - 1) Hk). lia. Qed.
Lemma tr_live i : 0 <= i <= L -> 0 <= trf i F.
Proof.
  intros Hi. destruct chain_ok as (C1 & _ & C3). destruct (Z.eq_dec i L) as [->|]; auto. apply (ex_live E sr i F); [lia|]. apply C1. lia.
Qed.
Lemma tr_in i : 0 <= i <= L -> b <= trf i F <= F - i.
Proof.
  intros Hi. pose proof F_range as RF. pose proof (tr_live i Hi) as TL. pose proof (tr_down E sr Sn E_up i F ltac:(lia) RF).
  pose proof (bof_tr E sr Sn E_up v bof HA i F ltac:(lia) RF TL) as BT. pose proof (bof_le (trf i F) ltac:(lia)). rewrite bof_F in BT. lia.
Qed.
Lemma L_states : L <= zlen f - 1.
Proof. pose proof (zlen_nonneg (chain k f)). pose proof (tr_in L ltac:(lia)). unfold final_of in *. lia. Qed.
Lemma chain_arc i : 0 <= i < L -> exists j a, rd (all_arcs f) j = Some a /\ exf (trf i F) = abase fs k + j /\ trf i F = b + dst a /\ trf (i + 1) F = b + src a.
Proof.
  intros Hi. destruct chain_ok as (C1 & _ & _). destruct (C1 i Hi) as (_ & C). pose proof (tr_in i ltac:(lia)) as Rg. pose proof F_range.
  rewrite (tr_src E sr i F) by (auto; lia). pose proof (ex_live E sr i F ltac:(lia) C). unfold ex in *. replace (trf i F <? 0) with false in * by lia.
  destruct (E_cases (trf i F)) as [(D & _) | (D & D2 & _)]; [lia|]. destruct (arc_q fs WF _ D) as (k' & f' & j & a & Hk' & Ha & Eq & B1 & B2 & S1 & S2 & _).
  assert (KE : k' = k /\ f' = f).
  { unfold final_of in Rg. rewrite D2 in S2. destruct (row_unique fs k f (trf i F - b) k' f' (dst a) Hk Hk' ltac:(unfold final_of; lia) ltac:(lia) ltac:(lia)) as (-> & _ & ->). auto. }
  destruct KE as (-> & ->). exists j, a. rewrite D2 in S2. auto.
Qed.
Lemma L_arcs : L <= zlen (all_arcs f).
Proof.
  pose proof (zlen_nonneg (chain k f)) as Z0. destruct chain_ok as (C1 & _ & _).
  assert (ND : NoDup (map (fun q => q - abase fs k) (chain k f))).
  { assert (EQ : map (fun q => q - abase fs k) (chain k f) = tab L (fun i => exf (trf i F) - abase fs k)).
    { apply list_ext_rd; [now rewrite zlen_map, zlen_tab by lia|]. intros i Hi. rewrite zlen_map in Hi. rewrite rd_map, rd_tab by lia. destruct (C1 i Hi) as (-> & _). reflexivity. }
    rewrite EQ. unfold tab. apply NoDup_map_in; [apply NoDup_zrange|]. intros x y Hx Hy H. apply in_zrange in Hx, Hy.
    destruct (chain_arc x Hx) as (jx & ax & X1 & X2 & X3 & X4). destruct (chain_arc y Hy) as (jy & ay & Y1 & Y2 & Y3 & Y4). assert (jx = jy) by lia. subst jy. assert (ax = ay) by congruence. subst ay.
    assert (M : forall x y, 0 <= x -> x < y -> y < L -> trf y F < trf x F).
    { intros x' y' A1 A2 A3. replace y' with (x' + (y' - x')) by lia. rewrite tr_add by lia. pose proof (tr_live x' ltac:(lia)). pose proof F_range. pose proof (tr_down E sr Sn E_up x' F ltac:(lia) ltac:(lia)).
      pose proof (tr_down E sr Sn E_up (y' - x') (trf x' F) ltac:(lia) ltac:(lia)). pose proof (tr_live y' ltac:(lia)) as T. replace y' with (x' + (y' - x')) in T by lia. rewrite tr_add in T by lia. lia. }
    destruct (Z.lt_trichotomy x y) as [T|[T|T]]; auto; [pose proof (M x y)|pose proof (M y x)]; lia. }
  assert (IN : incl (map (fun q => q - abase fs k) (chain k f)) (zrange (zlen (all_arcs f)))).
  { intros x Hx. apply in_map_iff in Hx as (q & <- & Hq). apply In_rd in Hq as (i & Bi & Hi). destruct (C1 i Bi) as (E1 & _). rewrite Hi in E1. injection E1 as ->.
    destruct (chain_arc i Bi) as (j & a & A1 & A2 & _). rewrite A2. apply in_zrange. apply rd_Some_bound in A1. lia. }
  pose proof (NoDup_incl_length ND IN) as H. rewrite map_length in H. pose proof (zlen_nonneg (all_arcs f)) as Z1. pose proof (zlen_zrange (zlen (all_arcs f)) ltac:(lia)) as Z2. unfold zlen in *. lia.
Qed.
End Fsa.

Definition bests : list (list Z) := imap best 0 fs.
Lemma rd_bests k f : rd fs k = Some f -> rd bests k = Some (best k f).
Proof using. clear. intros H. unfold bests. rewrite rd_imap, H. reflexivity. Qed.
Lemma zlen_bests : zlen bests = zlen fs. Proof. apply zlen_imap. Qed.

Lemma zlen_best k f : rd fs k = Some f -> 0 < zlen f -> zlen (best k f) = if trf (zlen (chain k f)) (final_of k f) =? off1 fs k then zlen (chain k f) else 0.
Proof using. clear. intros H Hf. unfold best. replace (zlen f =? 0) with false by lia. destruct (_ =? off1 fs k); [|reflexivity]. unfold zlen. now rewrite rev_length. Qed.

Section Run.
Variable lp : nat.
Variable sched : list Z.
Let J := 2 ^ Z.of_nat lp.
Hypothesis SC : is_sched (zlen fs * J) sched.
Let J1 : 1 <= J. Proof. unfold J. lia. Qed.

Definition cell (j : Z) : Z :=
  if j <? Sn then match rd fs (fof j) with Some f => exf (trf (final_of (fof j) f - j) (final_of (fof j) f)) | None => 0 end
  else match rd bests (j - Sn) with Some r => zlen r | None => 0 end.
Lemma cell_arc k f i : rd fs k = Some f -> 0 <= i < zlen f -> cell (final_of k f - i) = exf (trf i (final_of k f)).
Proof.
  intros H Hi. unfold cell. pose proof (state_range fs k f (zlen f - 1 - i) H ltac:(lia)) as R. destruct (fof_at k f (zlen f - 1 - i) H ltac:(lia)) as (_ & FO & _).
  unfold final_of at 1. replace (off1 fs k + zlen f - 1 - i <? Sn) with true by lia. replace (final_of k f - i) with (off1 fs k + (zlen f - 1 - i)) by (unfold final_of; lia). rewrite FO, H. f_equal. f_equal. unfold final_of. lia.
Qed.
Lemma cell_num k f : rd fs k = Some f -> cell (Sn + k) = zlen (best k f).
Proof.
  intros H. pose proof (rd_Some_bound _ _ _ H). unfold cell. replace (Sn + k <? Sn) with false by lia. replace (Sn + k - Sn) with k by lia. now rewrite (rd_bests k f H).
Qed.

Variable powers : list (list Z).
Hypothesis HP : forall i, 0 <= i <= Z.of_nat lp -> rd powers i = Some (tab Sn (la E sr (2 ^ i))).

Lemma sp_job_ok k f t : rd fs k = Some f -> 0 <= t < J -> exists ws, sp_job v powers lp k t = Some ws /\
  Forall (agrees (Sn + zlen fs) cell) ws /\
  (0 < zlen f -> forall i, 0 <= i < zlen (chain k f) -> i mod J = t -> In (final_of k f - i) (map fst ws)) /\
  (0 < zlen f -> 0 < zlen (chain k f) -> (zlen (chain k f) - 1) mod J = t -> In (Sn + k) (map fst ws)).
Proof.
  intros Hk Ht. pose proof (rd_Some_bound _ _ _ Hk) as Bk. destruct (fbounds fs k f Hk) as (F1 & F2 & F3).
  unfold sp_job. change (v_rs1 v) with (splits_of fs). change (v_rs2 v) with (splits_of (concat fs)). rewrite !rd_splits_off by lia. rewrite (off1_next _ _ _ Hk). rewrite !rd_splits_off by lia.
  rewrite zlen_splits_of. replace (Sn + 1 - 1) with Sn by lia.
  assert (NA : off1 (concat fs) (off1 fs k + zlen f) - off1 (concat fs) (off1 fs k) = zlen (all_arcs f)).
  { rewrite <- (off1_next _ _ _ Hk). rewrite <- (Z.add_0_r (off1 fs k)). rewrite (off1_concat fs k f 0 Hk) by lia. rewrite (off1_next _ _ _ Hk), (off1_concat fs k f (zlen f) Hk) by lia. rewrite off1_all. unfold all_arcs.
    replace (off1 f 0) with 0; [lia|]. symmetry. apply off1_0. }
  rewrite NA. set (b := off1 fs k) in *. replace (b + zlen f - b) with (zlen f) by lia.
  destruct ((zlen (all_arcs f) =? 0) || (zlen f =? 0)) eqn:EZ.
  { exists [(Sn + k, 0)]. split; auto. assert (L0 : 0 < zlen f -> zlen (chain k f) = 0).
    { intros Hf. pose proof (L_arcs k f Hk Hf). pose proof (zlen_nonneg (chain k f)). lia. }
    split; [|split].
    - constructor; [|constructor]. unfold agrees. cbn [fst snd]. split; [lia|]. rewrite (cell_num k f Hk). destruct (Z.eq_dec (zlen f) 0) as [E0|E0].
      + unfold best. now rewrite E0.
      + rewrite (zlen_best k f Hk) by lia. rewrite L0 by lia. match goal with |- context [if ?c then _ else _] => destruct c end; lia.
    - intros Hf i Hi. specialize (L0 Hf). lia.
    - intros Hf H. specialize (L0 Hf). lia. }
  assert (Hf : 0 < zlen f) by lia. pose proof (L_arcs k f Hk Hf) as LA. pose proof (L_states k f Hk Hf) as LS. pose proof (zlen_nonneg (chain k f)) as L0.
  destruct (chain_ok k f Hk Hf) as (C1 & C2 & C3). set (L := zlen (chain k f)) in *. pose proof (F_range k f Hk Hf) as RF. pose proof (bof_F k f Hk Hf) as BF. fold b in BF.
  replace (b + zlen f - 1) with (final_of k f) by (unfold final_of; fold b; lia). set (Fn := final_of k f) in *.
  assert (ML : forall i, 0 <= i < L -> i mod J = t -> t <= i) by (intros i Hi <-; apply Z.mod_le; lia).
  destruct ((zlen (all_arcs f) <? t + 1) || (zlen f <=? t + 1)) eqn:EB.
  { exists []. split; auto. split; [constructor|]. split.
    - intros _ i Hi Hm. pose proof (ML i Hi Hm). lia.
    - intros _ H0 Hm. pose proof (ML (L - 1) ltac:(lia) Hm). lia. }
  pose proof (sp_advance_ok E sr Sn E_up v bof HA powers (Z.of_nat lp) t Fn HP RF lp 0 0 ltac:(lia) ltac:(lia) ltac:(lia) ltac:(rewrite tr_0; lia)) as AD.
  rewrite tr_0, BF in AD. rewrite AD. cbv zeta. rewrite bits_from_ok by lia. change (2 ^ 0) with 1. rewrite Z.div_1_r. fold J. rewrite Z.mod_small by lia. rewrite Z.mul_1_l, Z.add_0_l.
  assert (DEAD : exf (trf t Fn) = -1 -> exists ws, Some [] = Some ws /\ Forall (agrees (Sn + zlen fs) cell) ws /\ (0 < zlen f -> forall i, 0 <= i < L -> i mod J = t -> In (Fn - i) (map fst ws)) /\
     (0 < zlen f -> 0 < L -> (L - 1) mod J = t -> In (Sn + k) (map fst ws))).
  { intros D. assert (LT : L <= t) by (destruct (Z_lt_le_dec t L); auto; destruct (C1 t ltac:(lia)); lia). exists []. split; auto. split; [constructor|]. split.
    - intros _ i Hi Hm. pose proof (ML i Hi Hm). lia.
    - intros _ H0 Hm. pose proof (ML (L - 1) ltac:(lia) Hm). lia. }
  destruct (trf t Fn =? -1) eqn:ET; [apply DEAD; replace (trf t Fn) with (-1) by lia; reflexivity|].
  rewrite HP by lia. change (2 ^ 0) with 1. rewrite (rd_tab Sn (la E sr 1)) by (apply (tr_range E sr Sn E_up v bof HA); lia). change (la E sr 1 (trf t Fn)) with (exf (trf t Fn)).
  destruct (exf (trf t Fn) =? -1) eqn:EX; [apply DEAD; lia|].
  destruct (arc_tr E sr Sn E_up v bof HA t Fn ltac:(lia) RF ltac:(lia)) as (a & -> & _). rewrite Z.eqb_refl. rewrite HP by lia. fold J.
  assert (LT : t < L) by (destruct (Z_lt_le_dec t L); auto; pose proof (ex_dead E sr L t Fn ltac:(lia) C2); lia).
  destruct (sp_loop_ok E sr Sn E_up v bof HA (tab Sn (la E sr 1)) (tab Sn (la E sr J)) J Fn L eq_refl eq_refl J1 RF ltac:(intros i Hi; now apply C1) C2 (Z.to_nat (zlen f)) t t (src a + b) ltac:(lia) ltac:(lia))
    as (ws & nb & W0 & W1 & W2 & W3 & W4).
  rewrite BF in W0, W3. rewrite W0. cbn [fst snd]. eexists. split; [reflexivity|]. split; [|split].
  - apply Forall_forall. intros w Hw. apply in_app_or in Hw as [Hw|Hw].
    + apply in_map_iff in Hw as (x & <- & Hx). destruct (W1 x Hx) as (A1 & A2). unfold agrees. cbn [fst snd]. split; [unfold Fn, final_of; fold b; lia|]. rewrite A2. unfold Fn. rewrite (cell_arc k f _ Hk) by lia. reflexivity.
    + destruct nb as [x|]; [|destruct Hw]. destruct Hw as [<-|[]]. rewrite (W3 x eq_refl). unfold agrees. cbn [fst snd]. split; [lia|]. rewrite (cell_num k f Hk), (zlen_best k f Hk Hf). reflexivity.
  - intros _ i Hi Hm. rewrite map_app, in_app_iff. left. rewrite map_map. cbn [fst]. assert (EI : i = t + i / J * J) by (rewrite (Z.div_mod i J) at 1 by lia; lia).
    pose proof (W2 (i / J) ltac:(apply Z.div_pos; lia) ltac:(lia)) as I. rewrite <- EI in I. apply in_map_iff in I as (w & Ew & I). apply in_map_iff. exists w. split; [lia|auto].
  - intros _ H0 Hm. assert (EI : L - 1 = t + (L - 1) / J * J) by (rewrite (Z.div_mod (L - 1) J) at 1 by lia; lia). pose proof (W4 ((L - 1) / J) ltac:(apply Z.div_pos; lia) ltac:(lia)) as NN.
    destruct nb as [x|]; [|congruence]. rewrite map_app, in_app_iff. right. now left.
Qed.

Lemma sp_mem_ok : exists mem,
  k2_eval sched (fun p => sp_job v powers lp (p / J) (p mod J)) (repeat (Some (-1)) (Z.to_nat Sn) ++ repeat (Some 0) (Z.to_nat (zlen fs))) = Some mem /\
  (forall k f, rd fs k = Some f -> rd mem (Sn + k) = Some (Some (zlen (best k f)))) /\
  (forall k f i, rd fs k = Some f -> 0 < zlen f -> 0 <= i < zlen (chain k f) -> rd mem (final_of k f - i) = Some (Some (exf (trf i (final_of k f))))).
Proof.
  pose proof (zlen_nonneg fs) as Z0. pose proof (zlen_nonneg (concat fs)) as Z1.
  assert (PJ : forall p, In p sched -> 0 <= p / J < zlen fs /\ 0 <= p mod J < J).
  { intros p Hp. apply (in_sched _ _ _ SC) in Hp. split; [|apply Z.mod_pos_bound; lia]. split; [apply Z.div_pos; lia|]. apply Z.div_lt_upper_bound; lia. }
  destruct (k2_eval_agrees (Sn + zlen fs) cell (fun p => sp_job v powers lp (p / J) (p mod J)) sched) with (arr := repeat (Some (-1)) (Z.to_nat Sn) ++ repeat (Some 0) (Z.to_nat (zlen fs)))
    as (mem & EM & LM & M).
  - intros p Hp. destruct (PJ p Hp) as (P1 & P2). destruct (rd_in_bound fs _ P1) as (f & Hf). destruct (sp_job_ok _ f _ Hf P2) as (ws & W1 & W2 & _). eauto.
  - rewrite zlen_app, !zlen_repeat. lia.
  - exists mem. split; auto. split.
    + intros k f Hk. pose proof (rd_Some_bound _ _ _ Hk). rewrite <- (cell_num k f Hk). apply M; [lia|].
      assert (D : zlen (best k f) = 0 \/ 0 < zlen f /\ 0 < zlen (chain k f)).
      { destruct (Z.eq_dec (zlen f) 0) as [E0|E0]; [left; unfold best; now rewrite E0|]. pose proof (zlen_nonneg f). rewrite (zlen_best k f Hk) by lia. pose proof (zlen_nonneg (chain k f)).
        destruct (Z.eq_dec (zlen (chain k f)) 0) as [->|]; [left; now destruct (_ =? _)|right; lia]. }
      destruct D as [E0|(D1 & D2)].
      * left. rewrite (cell_num k f Hk), E0. rewrite rd_app_r by (rewrite zlen_repeat; lia). rewrite zlen_repeat. replace (Sn + k - Z.of_nat (Z.to_nat Sn)) with k by lia. apply rd_repeat. lia.
      * right. set (t := (zlen (chain k f) - 1) mod J). assert (Bt : 0 <= t < J) by (apply Z.mod_pos_bound; lia).
        destruct (sp_job_ok k f t Hk Bt) as (ws & W1 & _ & _ & W4). exists (k * J + t), ws. split; [apply (in_sched _ _ _ SC); nia|].
        replace ((k * J + t) / J) with k by (apply Z.div_unique with (r := t); lia). replace ((k * J + t) mod J) with t by (apply Z.mod_unique with (q := k); lia).
        split; auto.
    + intros k f i Hk Hf Hi. pose proof (L_states k f Hk Hf). rewrite <- (cell_arc k f i Hk) by lia. pose proof (tr_in k f Hk Hf i ltac:(lia)). pose proof (F_range k f Hk Hf). pose proof (off1_nonneg fs k). apply M; [lia|]. right.
      set (t := i mod J). assert (Bt : 0 <= t < J) by (apply Z.mod_pos_bound; lia). pose proof (rd_Some_bound _ _ _ Hk).
      destruct (sp_job_ok k f t Hk Bt) as (ws & W1 & _ & W3 & _). exists (k * J + t), ws. split; [apply (in_sched _ _ _ SC); nia|].
      replace ((k * J + t) / J) with k by (apply Z.div_unique with (r := t); lia). replace ((k * J + t) mod J) with t by (apply Z.mod_unique with (q := k); lia).
      split; auto.
Qed.
End Run.

Theorem shortest_path_run lp sched : is_sched (zlen fs * 2 ^ Z.of_nat lp) sched ->
  shortest_path_indexes lp sched v (tab Sn E) = Some (splits_of bests, concat bests).
Proof.
  intros SC. pose proof (zlen_nonneg fs) as Z0. pose proof (zlen_nonneg (concat fs)) as Z1.
  unfold shortest_path_indexes. change (v_rs2 v) with (splits_of (concat fs)). change (v_rs1 v) with (splits_of fs). rewrite !zlen_splits_of. replace (Sn + 1 - 1) with Sn by lia. replace (zlen fs + 1 - 1) with (zlen fs) by lia.
  rewrite row_ids_of_splits.
  assert (E1 : tab Sn E = tab Sn (la E sr (2 ^ Z.of_nat 0))).
  { apply tab_ext. intros s Hs. change (2 ^ Z.of_nat 0) with 1. unfold la. rewrite Z.sub_diag, tr_0. unfold ex. now replace (s <? 0) with false by lia. }
  rewrite E1. destruct (sp_powers_ok E sr Sn E_up v bof HA (ids_of fs) fof Z1 ltac:(change (v_rs2 v) with (splits_of (concat fs)); rewrite zlen_splits_of; lia) HF lp 0) as (ps & -> & HP). change (Z.of_nat 0) with 0 in HP.
  destruct (sp_mem_ok lp sched SC ps HP) as (mem & -> & M1 & M2).
  assert (E2 : mapM (fun k => x <- rd mem (Sn + k);; x) (zrange (zlen fs)) = Some (map zlen bests)).
  { apply RaggedOpsProofs.mapM_zrange; [lia|now rewrite zlen_map, zlen_bests|]. intros k Hk. destruct (rd_in_bound fs k Hk) as (f & Hf). rewrite (M1 k f Hf), rd_map, (rd_bests k f Hf). reflexivity. }
  rewrite E2. fold (splits_of bests). rewrite <- zlen_bests at 1. rewrite rd_splits_last, row_ids_of_splits.
  match goal with |- (vals <- ?m;; _) = _ => assert (E3 : m = Some (concat bests)) end; [|now rewrite E3].
  apply RaggedOpsProofs.mapM_zrange; [apply zlen_nonneg|auto|]. intros p Hp. destruct (rd_in_bound (concat bests) p Hp) as (q & Hq). rewrite Hq. destruct (rd_concat_inv _ _ _ Hq) as (k & r & i & R1 & R2 & -> & R3).
  pose proof (rd_Some_bound _ _ _ R1) as Bk. rewrite zlen_bests in Bk. destruct (rd_in_bound fs k Bk) as (f & Hf). pose proof (off1_next _ _ _ R1) as OB. rewrite (rd_bests k f Hf) in R1. injection R1 as <-.
  pose proof (rd_Some_bound _ _ _ R2) as Bi. rewrite R3. rewrite !rd_splits_off by (rewrite ?zlen_bests; lia). rewrite OB, (off1_next _ _ _ Hf).
  assert (NF : 0 < zlen f). { unfold best in Bi. pose proof (zlen_nonneg f). destruct (zlen f =? 0) eqn:EF; [change (zlen (@nil Z)) with 0 in Bi; lia|lia]. }
  pose proof (zlen_best k f Hf NF) as LB. unfold best in R2. replace (zlen f =? 0) with false in R2 by lia. destruct (trf (zlen (chain k f)) (final_of k f) =? off1 fs k); [|lia].
  replace (off1 fs k + zlen f - 1 - (off1 bests k + zlen (best k f) - off1 bests k) + 1 + (off1 bests k + i - off1 bests k)) with (final_of k f - (zlen (chain k f) - 1 - i)) by (unfold final_of; lia).
  rewrite (M2 k f _ Hf NF) by lia. destruct (chain_ok k f Hf NF) as (C1 & _). destruct (C1 (zlen (chain k f) - 1 - i) ltac:(lia)) as (C & _). rewrite <- C. rewrite <- R2.
  unfold rd. replace (i <? 0) with false by lia. replace (zlen (chain k f) - 1 - i <? 0) with false by lia. unfold zlen in *. rewrite nth_error_rev' by lia. f_equal. lia.
Qed.
End B.
