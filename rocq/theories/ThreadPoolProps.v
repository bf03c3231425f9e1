(** * C48: ThreadPool *)
From Coq Require Import ZArith List Lia Bool Permutation.
From Coq Require Import ZifyBool.
From Verif Require Import Base ThreadPoolModel ThreadPoolProofs.
Import ListNotations.
Open Scope Z_scope.

(** C48: at every moment of every schedule (any number of workers, any programs
    of the threads that use the pool, any choice of woken threads, spurious wakeups
    included) every submitted task is exactly once in the queue, being run, or
    done; in particular none is run twice. *)
Theorem C48_exactly_once : forall n progs h s, run h (init n progs) = Some s ->
  Permutation (h_sub s) (map tid (s_queue s) ++ flat_map rid (s_ws s) ++ h_done s) /\
  Permutation (h_start s) (flat_map rid (s_ws s) ++ h_done s).
Proof.
  intros n progs h s H. apply run_inv in H; [|apply init_inv]. destruct H as (I1 & I2 & _).
  split; apply cn_perm; intros z; rewrite ?I1, I2, !rcn_flat; unfold cn; rewrite !sm_app, ?sm_map; lia.
Qed.
Print Assumptions C48_exactly_once.

(** C48: WaitAllTasksFinished returns only when no task is queued or running and
    all submitted tasks are done. *)
Theorem C48_wait_sound : forall n progs h s c i p s', run h (init n progs) = Some s ->
  who c = Client i -> rd (s_cs s) i = Some (CRun (CWait :: p)) -> step c s = Some s' -> rd (s_cs s') i = Some (CRun p) ->
  s_queue s = [] /\ (forall w, In w (s_ws s) -> busy w = 0) /\ Permutation (h_sub s) (h_done s).
Proof.
  intros n progs h s c i p s' H W Hi HS Hi'. pose proof (C48_exactly_once _ _ _ _ H) as (P & _). apply run_inv in H; [|apply init_inv]. destruct H as (I1 & I2 & I3 & I4).
  unfold step, step_client in HS. rewrite W, Hi in HS. unfold set_c in HS. destruct (wr (s_cs s) i _) as [cs|] eqn:E; [|discriminate]. injection HS as <-. cbn in Hi'.
  destruct (wr_sum _ _ _ _ _ Hi E) as (_ & _ & _ & G). rewrite G, Z.eqb_refl in Hi'. destruct (s_fin s); [|discriminate].
  destruct (proj1 I4 eq_refl) as (Q & R). assert (B : forall w, In w (s_ws s) -> busy w = 0) by (apply sm_0; [apply busy_nonneg|lia]).
  split; auto. split; auto. rewrite Q in P. cbn in P.
  replace (flat_map rid (s_ws s)) with (@nil Z) in P; auto. clear -B. induction (s_ws s) as [|w ws IH]; auto. cbn.
  rewrite <- IH by (intros x Hx; apply B; now right). specialize (B w (or_introl eq_refl)). destruct w; cbn in B; (reflexivity || lia).
Qed.
Print Assumptions C48_wait_sound.

(** ** Every schedule ends *)
Fixpoint qw (t : task) : Z := let 'Task _ subs := t in 6 + zsum (map (fun s => qw s + 2) subs).
Definition ww (w : wst) : Z := match w with WStart => 1 | WWait | WExit => 0 | WRun _ subs => 4 + sm (fun s => qw s + 2) subs | WPost => 3 end.
Definition opw (n : Z) (o : cop) : Z := match o with CSubmit t => qw t + 2 | CWait => 2 | CStop => n + 1 | CJoin => 1 end.
Definition cw (n : Z) (c : cst) : Z := match c with CRun p => sm (opw n) p | CBlocked p => sm (opw n) p + 1 end.
Definition mu (s : st) : Z := sm qw (s_queue s) + sm ww (s_ws s) + sm (cw (zlen (s_ws s))) (s_cs s).
Lemma qw_pos t : 6 <= qw t.
Proof.
  revert t. fix IH 1. intros [id subs]. cbn [qw].
  assert (0 <= zsum (map (fun s => qw s + 2) subs)); [|lia].
  induction subs as [|s subs IHs]; [cbn; lia|]. cbn [map zsum]. pose proof (IH s). change (zsum (?a :: ?b)) with (a + zsum b). lia.
Qed.
Lemma ww_nonneg w : 0 <= ww w.
Proof. destruct w; cbn; try lia. pose proof (sm_nonneg (fun s => qw s + 2) subs ltac:(intros x; pose proof (qw_pos x); lia)). lia. Qed.
Lemma opw_nonneg n o : 0 <= n -> 0 <= opw n o.
Proof. destruct o; cbn; try lia. pose proof (qw_pos t). lia. Qed.
Lemma mu_nonneg s : 0 <= mu s.
Proof.
  unfold mu. pose proof (zlen_nonneg (s_ws s)). pose proof (sm_nonneg qw (s_queue s) ltac:(intros x; pose proof (qw_pos x); lia)). pose proof (sm_nonneg ww (s_ws s) ww_nonneg).
  pose proof (sm_nonneg (cw (zlen (s_ws s))) (s_cs s)). assert (0 <= sm (cw (zlen (s_ws s))) (s_cs s)); [|lia]. apply H2. intros [p|p]; cbn; pose proof (sm_nonneg (opw (zlen (s_ws s))) p ltac:(intros; now apply opw_nonneg)); lia.
Qed.
Definition nonspurious (c : choice) : Prop := match who c with SpurW _ | SpurC _ => False | _ => True end.

Lemma notify_w_le ws i ws' : notify_one w_waits w_wake ws i = Some ws' -> sm ww ws' <= sm ww ws + 1 /\ zlen ws' = zlen ws.
Proof. intros H. apply notify_w_sum in H. destruct H as (L & [(_ & ->)|H]); split; auto; [lia|]. rewrite H. cbn. lia. Qed.
Lemma notify_c_le n cs i cs' : notify_one c_waits c_wake cs i = Some cs' -> sm (cw n) cs' <= sm (cw n) cs + 1.
Proof.
  intros H. apply notify_sum in H. destruct H as [(-> & _)|(x & X1 & X2 & X3)]; [lia|]. destruct x as [|p]; [discriminate|].
  destruct (wr_sum _ _ _ _ _ X1 X3) as (G & _). rewrite G. cbn. rewrite sm_cons. cbn. lia.
Qed.
Lemma submit_mu s t iw s' : submit s t iw = Some s' -> mu s' <= mu s + qw t + 1 /\ zlen (s_ws s') = zlen (s_ws s) /\ s_cs s' = s_cs s /\ (forall i w, rd (s_ws s) i = Some w -> w_waits w = false -> rd (s_ws s') i = Some w).
Proof.
  unfold submit. destruct (0 <? zlen (s_ws s)); [|discriminate]. destruct (notify_one w_waits w_wake (s_ws s) iw) as [ws|] eqn:N; [|discriminate]. intros [= <-].
  destruct (notify_w_le _ _ _ N) as (L1 & L2). unfold mu. cbn [s_queue s_ws s_cs]. rewrite L2, sm_app, sm_cons, sm_nil. split; [lia|]. split; auto. split; auto.
  intros i w Hi Hw. eapply notify_rd; eauto.
Qed.
Lemma set_w_mu s i w w' s' : rd (s_ws s) i = Some w -> set_w s i w' = Some s' -> mu s' = mu s - ww w + ww w' /\ zlen (s_ws s') = zlen (s_ws s).
Proof.
  intros Hi. unfold set_w. destruct (wr (s_ws s) i w') as [ws|] eqn:W; [|discriminate]. intros [= <-]. destruct (wr_sum _ _ _ _ _ Hi W) as (G & L & _).
  unfold mu. cbn [s_queue s_ws s_cs]. rewrite G, L. split; auto. lia.
Qed.
Lemma set_c_mu s i c c' s' : rd (s_cs s) i = Some c -> set_c s i c' = Some s' -> mu s' = mu s - cw (zlen (s_ws s)) c + cw (zlen (s_ws s)) c' /\ s_ws s' = s_ws s.
Proof.
  intros Hi. unfold set_c. destruct (wr (s_cs s) i c') as [cs|] eqn:W; [|discriminate]. intros [= <-]. destruct (wr_sum _ _ _ _ _ Hi W) as (G & L & _).
  unfold mu. cbn [s_queue s_ws s_cs]. rewrite G. split; auto. lia.
Qed.
Lemma head_mu s i iw w s' : rd (s_ws s) i = Some w -> w_waits w = false -> loop_head s i iw = Some s' -> mu s' <= mu s - ww w /\ zlen (s_ws s') = zlen (s_ws s).
Proof.
  intros Hi NW H. unfold loop_head in H. destruct (s_keep s).
  - destruct (s_queue s) as [|[id subs] q] eqn:Q.
    + destruct (wr (s_ws s) i WWait) as [ws|] eqn:W; [|discriminate]. injection H as <-. destruct (wr_sum _ _ _ _ _ Hi W) as (G & L & _).
      unfold mu. cbn [s_queue s_ws s_cs]. rewrite G, L, Q. cbn [ww]. split; [lia|auto].
    + destruct (match q with [] => Some (s_ws s) | _ :: _ => _ end) as [ws1|] eqn:N; [|discriminate].
      destruct (wr ws1 i (WRun id subs)) as [ws2|] eqn:W; [|discriminate]. injection H as <-.
      assert (N1 : sm ww ws1 <= sm ww (s_ws s) + 1 /\ zlen ws1 = zlen (s_ws s)).
      { destruct q; [injection N as <-; split; auto; lia|]. eapply notify_w_le; eauto. }
      assert (N2 : rd ws1 i = Some w).
      { destruct q; [congruence|]. eapply notify_rd; eauto. }
      destruct (wr_sum _ _ _ _ _ N2 W) as (G & L & _). unfold mu. cbn [s_queue s_ws s_cs]. rewrite Q, G, L, (proj2 N1), sm_cons.
      change (qw (Task id subs)) with (6 + sm (fun s => qw s + 2) subs). cbn [ww]. split; [lia|auto].
  - destruct (wr (s_ws s) i WExit) as [ws|] eqn:W; [|discriminate]. injection H as <-. destruct (wr_sum _ _ _ _ _ Hi W) as (G & L & _).
    unfold mu. cbn [s_queue s_ws s_cs]. rewrite G, L. cbn [ww]. split; [lia|auto].
Qed.
Lemma step_mu c s s' : step c s = Some s' -> nonspurious c -> mu s' < mu s.
Proof.
  unfold step, nonspurious. destruct (who c) as [i|i|i|i]; [| |tauto|tauto]; intros H _.
  - unfold step_worker in H. destruct (rd (s_ws s) i) as [w|] eqn:Hi; [|discriminate]. destruct w as [| |id [|t subs]| |]; try discriminate.
    + apply (head_mu _ _ _ WStart) in H; auto. cbn in H. lia.
    + destruct (set_w s i WPost) as [s1|] eqn:E; [|discriminate]. injection H as <-. apply (set_w_mu _ _ _ _ _ Hi) in E. cbn in E. unfold mu in *. cbn [s_queue s_ws s_cs]. rewrite sm_nil in E. lia.
    + destruct (submit s t (wake_w c)) as [s1|] eqn:E; [|discriminate]. destruct (submit_mu _ _ _ _ E) as (A1 & A2 & A3 & A4).
      specialize (A4 _ _ Hi eq_refl). apply (set_w_mu _ _ _ _ _ A4) in H. cbn in H. rewrite sm_cons in H. lia.
    + destruct (post s (wake_c c)) as [s1|] eqn:E; [|discriminate].
      assert (P : mu s1 <= mu s + 1 /\ s_ws s1 = s_ws s).
      { unfold post in E. destruct (s_queue s) eqn:Q; [destruct (s_run s - 1 =? 0)|].
        - destruct (notify_one c_waits c_wake (s_cs s) (wake_c c)) as [cs|] eqn:N; [|discriminate]. injection E as <-. apply (notify_c_le (zlen (s_ws s))) in N. unfold mu. rewrite Q. cbn [s_queue s_ws s_cs]. split; auto. lia.
        - injection E as <-. unfold mu. rewrite Q. cbn [s_queue s_ws s_cs]. split; auto. lia.
        - injection E as <-. unfold mu. rewrite Q. cbn [s_queue s_ws s_cs]. split; auto. lia. }
      apply (head_mu _ _ _ WPost) in H; [|now rewrite (proj2 P)|reflexivity]. cbn in H. lia.
  - unfold step_client in H. destruct (rd (s_cs s) i) as [x|] eqn:Hi; [|discriminate]. destruct x as [[|[t| | |] p]|p]; try discriminate.
    + destruct (submit s t (wake_w c)) as [s1|] eqn:E; [|discriminate]. destruct (submit_mu _ _ _ _ E) as (A1 & A2 & A3 & A4).
      rewrite <- A3 in Hi. apply (set_c_mu _ _ _ _ _ Hi) in H. cbn in H. rewrite sm_cons in H. cbn in H. lia.
    + apply (set_c_mu _ _ _ _ _ Hi) in H. destruct (s_fin s); cbn in H; rewrite sm_cons in H; cbn in H; lia.
    + destruct (set_c s i (CRun p)) as [s1|] eqn:E; [|discriminate]. injection H as <-. apply (set_c_mu _ _ _ _ _ Hi) in E. destruct E as (E & EW). cbn in E. rewrite sm_cons in E. cbn in E.
      unfold mu in *. cbn [s_queue s_ws s_cs]. rewrite EW in *. rewrite zlen_map, sm_map.
      assert (X : sm (fun x => ww (w_wake x)) (s_ws s) <= sm ww (s_ws s) + zlen (s_ws s)).
      { clear. induction (s_ws s) as [|w ws IH]; [rewrite !sm_nil; change (zlen (@nil wst)) with 0; lia|]. rewrite !sm_cons, zlen_cons. destruct w; cbn [w_wake ww]; lia. }
      lia.
    + destruct (forallb _ (s_ws s)); [|discriminate]. apply (set_c_mu _ _ _ _ _ Hi) in H. cbn in H. rewrite sm_cons in H. cbn in H. lia.
Qed.

(** C48: without spurious wakeups no schedule goes on for ever; the bound depends
    only on the pool's size and the programs. *)
Theorem C48_terminates : forall n progs h s, Forall nonspurious h -> run h (init n progs) = Some s ->
  zlen h <= mu (init n progs).
Proof.
  intros n progs h s. generalize (init n progs) as s0. revert s. induction h as [|c h IH]; intros s s0 HF.
  - intros _. change (zlen (@nil choice)) with 0. apply mu_nonneg.
  - inversion HF as [|? ? HF1 HF2]; subst. cbn [run]. destruct (step c s0) as [s1|] eqn:E; [|discriminate]. intros H. apply step_mu in E; auto. rewrite zlen_cons. specialize (IH _ _ HF2 H). lia.
Qed.
Print Assumptions C48_terminates.

(** ** No deadlock *)
Definition sw (o : cop) : Prop := match o with CSubmit _ | CWait => True | _ => False end.
Definition sub (o : cop) : Prop := match o with CSubmit _ => True | _ => False end.
Definition dtor : list cop := [CWait; CStop; CJoin].
(** One thread submits and waits and may destroy the pool at the end; the others
    only submit, and there are none if the pool is destroyed. *)
Definition progs_ok (progs : list (list cop)) : Prop :=
  exists p d others, progs = (p ++ d) :: others /\ Forall sw p /\ Forall (Forall sub) others /\
    (d = [] \/ d = dtor /\ others = []).

Definition subc (c : cst) : Prop := match c with CRun p => Forall sub p | CBlocked _ => False end.
Inductive c_ok (d : list cop) (s : st) : cst -> list cst -> Prop :=
| ck_run p os : s_keep s = true -> Forall sw p -> (d = [] \/ d = dtor /\ os = []) -> c_ok d s (CRun (p ++ d)) os
| ck_block p os : s_keep s = true -> s_fin s = false -> Forall sw p -> (d = [] \/ d = dtor /\ os = []) -> c_ok d s (CBlocked (p ++ d)) os
| ck_block2 : d = dtor -> s_keep s = true -> s_fin s = false -> c_ok d s (CBlocked [CStop; CJoin]) []
| ck_stop : d = dtor -> s_keep s = true -> s_fin s = true -> c_ok d s (CRun [CStop; CJoin]) []
| ck_join : d = dtor -> s_keep s = false -> s_fin s = true -> c_ok d s (CRun [CJoin]) []
| ck_end : d = dtor -> s_keep s = false -> s_fin s = true -> c_ok d s (CRun []) [].
Definition nw (w : wst) : Z := if w_waits w then 0 else 1.
Definition xw (w : wst) : Z := match w with WExit => 1 | _ => 0 end.
Definition w_ok (s : st) : Prop :=
  0 < zlen (s_ws s) /\
  (s_keep s = true -> sm xw (s_ws s) = 0 /\ (s_queue s = [] \/ 0 < sm nw (s_ws s))) /\
  (s_keep s = false -> sm nw (s_ws s) = zlen (s_ws s)).
Definition inv2 (d : list cop) (s : st) : Prop := inv1 s /\ w_ok s /\ exists c os, s_cs s = c :: os /\ Forall subc os /\ c_ok d s c os.

Lemma nw_nonneg w : 0 <= nw w. Proof. unfold nw. destruct (w_waits w); lia. Qed.
Lemma nw_le w : nw w <= 1. Proof. unfold nw. destruct (w_waits w); lia. Qed.
Lemma nw_all ws : (forall x, In x ws -> w_waits x = false) -> sm nw ws = zlen ws.
Proof. induction ws as [|w ws IH]; intros H; [reflexivity|]. rewrite sm_cons, zlen_cons, IH by (intros; apply H; now right). unfold nw. rewrite (H w (or_introl eq_refl)). lia. Qed.
Lemma nw_bound ws : sm nw ws <= zlen ws.
Proof. induction ws as [|w ws IH]; [rewrite sm_nil; apply zlen_nonneg|]. rewrite sm_cons, zlen_cons. pose proof (nw_le w). lia. Qed.
Lemma nw_full ws : sm nw ws = zlen ws -> forall x, In x ws -> w_waits x = false.
Proof.
  induction ws as [|w ws IH]; [intros _ x []|]. rewrite sm_cons, zlen_cons. intros E x Hx. pose proof (nw_le w). pose proof (nw_bound ws).
  destruct Hx as [-> | Hx]; [|apply IH; auto; lia]. unfold nw in *. destruct (w_waits x); auto. lia.
Qed.
Lemma notify_nw ws i ws' : 0 < zlen ws -> notify_one w_waits w_wake ws i = Some ws' -> 0 < sm nw ws' /\ sm nw ws <= sm nw ws' /\ sm xw ws' = sm xw ws /\ zlen ws' = zlen ws.
Proof.
  intros P H. apply notify_w_sum in H. destruct H as (L & [(A & ->)|H]).
  - rewrite (nw_all _ A). repeat split; auto; lia.
  - rewrite !H. change (nw WWait) with 0. change (nw WStart) with 1. pose proof (sm_nonneg nw ws nw_nonneg). cbn. repeat split; auto; lia.
Qed.
Lemma submit_w s t iw s' : submit s t iw = Some s' -> w_ok s -> w_ok s' /\ s_cs s' = s_cs s /\ s_keep s' = s_keep s.
Proof.
  unfold submit. destruct (0 <? zlen (s_ws s)); [|discriminate]. destruct (notify_one w_waits w_wake (s_ws s) iw) as [ws|] eqn:N; [|discriminate]. intros [= <-] (P & K1 & K2).
  destruct (notify_nw _ _ _ P N) as (A1 & A2 & A3 & A4). split; [|auto]. split; [cbn; lia|]. cbn. split.
  - intros K. specialize (K1 K). split; [lia|]. now right.
  - intros K. specialize (K2 K). pose proof (nw_bound ws). lia.
Qed.
Lemma set_w_w s i w w' s' : rd (s_ws s) i = Some w -> set_w s i w' = Some s' -> nw w <= nw w' -> xw w' = xw w -> w_ok s -> w_ok s'.
Proof.
  intros Hi. unfold set_w. destruct (wr (s_ws s) i w') as [ws|] eqn:W; [|discriminate]. intros [= <-] E1 E2 (P & K1 & K2).
  destruct (wr_sum _ _ _ _ _ Hi W) as (G & L & _). split; [cbn; lia|]. cbn. rewrite !G, L. split.
  - intros K. specialize (K1 K). split; [lia|]. destruct K1 as (_ & [K1|K1]); auto. right. lia.
  - intros K. specialize (K2 K). pose proof (nw_bound ws). rewrite G in *. lia.
Qed.
Lemma head_w s i iw w s' : rd (s_ws s) i = Some w -> w_waits w = false -> xw w = 0 -> loop_head s i iw = Some s' -> w_ok s ->
  w_ok s' /\ s_cs s' = s_cs s /\ s_keep s' = s_keep s /\ s_fin s' = s_fin s.
Proof.
  intros Hi NW X H (P & K1 & K2). unfold loop_head in H. destruct (s_keep s) eqn:K.
  - destruct (s_queue s) as [|[id subs] q] eqn:Q.
    + destruct (wr (s_ws s) i WWait) as [ws|] eqn:W; [|discriminate]. injection H as <-. destruct (wr_sum _ _ _ _ _ Hi W) as (G & L & _).
      split; [|auto]. split; [cbn; lia|]. cbn. split; [|discriminate]. intros _. split; auto. rewrite G. cbn. specialize (K1 eq_refl). lia.
    + destruct (match q with [] => Some (s_ws s) | _ :: _ => _ end) as [ws1|] eqn:N; [|discriminate].
      destruct (wr ws1 i (WRun id subs)) as [ws2|] eqn:W; [|discriminate]. injection H as <-.
      assert (N1 : sm xw ws1 = sm xw (s_ws s) /\ zlen ws1 = zlen (s_ws s)).
      { destruct q; [injection N as <-; split; auto; lia|]. destruct (notify_nw _ _ _ P N); tauto. }
      assert (N2 : rd ws1 i = Some w).
      { destruct q; [congruence|]. eapply notify_rd; eauto. }
      destruct (wr_sum _ _ _ _ _ N2 W) as (G & L & _ & R). split; [|auto]. split; [cbn; lia|]. cbn. split; [|discriminate]. intros _. specialize (K1 eq_refl). split.
      * rewrite G. cbn. lia.
      * right. assert (In (WRun id subs) ws2) by (apply (rd_In _ i); rewrite R, Z.eqb_refl; auto). pose proof (sm_In nw _ _ nw_nonneg H) as Y. change (nw (WRun id subs)) with 1 in Y. lia.
  - destruct (wr (s_ws s) i WExit) as [ws|] eqn:W; [|discriminate]. injection H as <-. destruct (wr_sum _ _ _ _ _ Hi W) as (G & L & _).
    split; [|auto]. split; [cbn; lia|]. cbn. split; [discriminate|]. intros _. rewrite G, L. specialize (K2 eq_refl). unfold nw at 2 3. rewrite NW. cbn. lia.
Qed.

Lemma c_ok_ext d s s' c os : c_ok d s c os -> s_keep s' = s_keep s -> s_fin s' = s_fin s -> c_ok d s' c os.
Proof. intros H K F. inversion H; subst; constructor; auto; congruence. Qed.
(* finished_ becomes false: possible only while nothing has been stopped *)
Lemma c_ok_submit d s s' c os : c_ok d s c os -> s_keep s' = s_keep s -> s_fin s' = false -> s_fin s = false -> c_ok d s' c os.
Proof. intros H K F G. inversion H; subst; constructor; auto; congruence. Qed.

Lemma step_inv2 d c s s' : step c s = Some s' -> inv2 d s -> inv2 d s'.
Proof.
  intros HS (I & Wk & c0 & os & EC & SO & CK). split; [eapply step_inv; eauto|]. unfold step in HS. destruct (who c) as [i|i|i|i].
  - unfold step_worker in HS. destruct (rd (s_ws s) i) as [w|] eqn:Hi; [|discriminate]. destruct w as [| |id [|t subs]| |]; try discriminate.
    + apply (head_w _ _ _ WStart) in HS; auto. destruct HS as (A1 & A2 & A3 & A4). split; auto. exists c0, os. rewrite A2. split; auto. split; auto. eapply c_ok_ext; eauto.
    + destruct (set_w s i WPost) as [s1|] eqn:E; [|discriminate]. injection HS as <-. pose proof (set_w_w _ _ _ _ _ Hi E) as A. specialize (A ltac:(cbn; lia) eq_refl Wk).
      unfold set_w in E. destruct (wr (s_ws s) i WPost); [|discriminate]. injection E as <-. split; [exact A|]. exists c0, os. cbn. split; auto. split; auto. eapply c_ok_ext; eauto.
    + destruct (submit s t (wake_w c)) as [s1|] eqn:E; [|discriminate]. destruct (submit_w _ _ _ _ E Wk) as (A1 & A2 & A3). destruct (submit_inv _ _ _ _ E I) as (_ & _ & _ & _ & Ff & _ & N).
      assert (Hi' : rd (s_ws s1) i = Some (WRun id (t :: subs))) by (eapply notify_rd; eauto).
      pose proof (set_w_w _ _ _ _ _ Hi' HS ltac:(cbn; lia) eq_refl A1) as A. split; auto.
      assert (FF : s_fin s = false).
      { destruct I as (_ & _ & I3 & I4). destruct (s_fin s); auto. destruct (proj1 I4 eq_refl) as (_ & R). pose proof (sm_In busy _ _ busy_nonneg (rd_In _ _ _ Hi)) as X. cbn in X. lia. }
      unfold set_w in HS. destruct (wr (s_ws s1) i _); [|discriminate]. injection HS as <-. exists c0, os. cbn. split; [congruence|]. split; auto.
      eapply c_ok_submit; eauto.
    + destruct (post s (wake_c c)) as [s1|] eqn:E; [|discriminate].
      assert (P : w_ok s1 /\ s_ws s1 = s_ws s /\ exists c1, s_cs s1 = c1 :: os /\ c_ok d s1 c1 os).
      { unfold post in E. destruct Wk as (P & K1 & K2).
        assert (FF : s_fin s = false).
        { destruct I as (_ & _ & I3 & I4). destruct (s_fin s); auto. destruct (proj1 I4 eq_refl) as (_ & R). pose proof (sm_In busy _ _ busy_nonneg (rd_In _ _ _ Hi)) as X. cbn in X. lia. }
        destruct (s_queue s) eqn:Q; [destruct (s_run s - 1 =? 0)|].
        - destruct (notify_one c_waits c_wake (s_cs s) (wake_c c)) as [cs|] eqn:N; [|discriminate]. injection E as <-. split; [split; auto; cbn; split; auto; intros K; specialize (K1 K); tauto|]. split; auto. cbn.
          apply notify_sum in N. destruct N as [(-> & NB)|(x & X1 & X2 & X3)].
          + exists c0. split; auto. rewrite EC in NB. specialize (NB c0 (or_introl eq_refl)). inversion CK; subst; try discriminate; try congruence. now constructor.
          + rewrite EC in X1, X3. assert (wake_c c = 0 /\ x = c0) as (W0 & ->).
            { destruct (Z.eq_dec (wake_c c) 0) as [Z0|Z0]; [rewrite Z0, rd_cons_0 in X1; injection X1; auto|]. rewrite rd_cons in X1. destruct (wake_c c =? 0) eqn:?; [lia|].
              apply rd_In in X1. rewrite Forall_forall in SO. specialize (SO x X1). destruct x; [discriminate|destruct SO]. }
            rewrite W0 in X3. injection X3 as <-. exists (c_wake c0). split; auto. inversion CK; subst; try discriminate; cbn [c_wake].
            * apply (ck_run _ _ (CWait :: p) os); auto. constructor; auto. exact Logic.I.
            * apply (ck_run _ _ [] []); auto.
        - injection E as <-. split; [split; auto; cbn; split; auto; intros K; specialize (K1 K); tauto|]. split; auto. cbn. exists c0. split; auto. eapply c_ok_ext; eauto.
        - injection E as <-. split; [split; auto|]. split; auto. cbn. exists c0. split; auto. eapply c_ok_ext; eauto. }
      destruct P as (P1 & P2 & c1 & P3 & P4). apply (head_w _ _ _ WPost) in HS; auto; [|now rewrite P2]. destruct HS as (A1 & A2 & A3 & A4).
      split; auto. exists c1, os. rewrite A2. split; auto. split; auto. eapply c_ok_ext; eauto.
  - unfold step_client in HS. rewrite EC in HS. destruct (Z.eq_dec i 0) as [-> | Hi0].
    + rewrite rd_cons_0 in HS. destruct c0 as [[|[t| | |] p]|p]; try discriminate.
      * destruct (submit s t (wake_w c)) as [s1|] eqn:E; [|discriminate]. destruct (submit_w _ _ _ _ E Wk) as (A1 & A2 & A3). destruct (submit_inv _ _ _ _ E I) as (_ & _ & _ & _ & Ff & _ & N).
        unfold set_c in HS. rewrite A2, EC in HS. cbn in HS. injection HS as <-. split; [exact A1|]. exists (CRun p), os. cbn. split; auto. split; auto.
        inversion CK as [p' os' H1 H2 H3 H4| | | | |]; subst. destruct p' as [|o p']; [cbn in H4; subst d; destruct H3 as [H3|(H3 & _)]; discriminate|]. injection H4 as -> <-. inversion H2; subst.
        apply ck_run; auto. cbn. congruence.
      * unfold set_c in HS. rewrite EC in HS. cbn in HS. injection HS as <-. split; [exact Wk|]. eexists _, os. cbn. split; [reflexivity|]. split; auto.
        inversion CK as [p' os' H1 H2 H3 H4| | | | |]; subst. destruct p' as [|o p'].
        -- cbn in H4. subst d. destruct H3 as [H3|(H3 & ->)]; [discriminate|]. injection H3 as ->. destruct (s_fin s) eqn:F; [now apply ck_stop|now apply ck_block2].
        -- injection H4 as -> <-. inversion H2; subst. destruct (s_fin s) eqn:F; [now apply ck_run|now apply ck_block].
      * unfold set_c in HS. rewrite EC in HS. cbn in HS. injection HS as <-. destruct Wk as (P & K1 & K2).
        inversion CK as [p' os' H1 H2 H3 H4| | | | |]; subst.
        { destruct p' as [|o p']; [cbn in H4; subst d; destruct H3 as [H3|(H3 & _)]; discriminate|]. injection H4 as -> <-. inversion H2; subst. contradiction. }
        split.
        -- split; [cbn; rewrite zlen_map; auto|]. cbn. split; [discriminate|]. intros _. apply nw_all. intros x Hx. apply in_map_iff in Hx. destruct Hx as (y & <- & _). destruct y; reflexivity.
        -- exists (CRun [CJoin]), []. cbn. split; auto. split; auto. now apply ck_join.
      * destruct (forallb _ (s_ws s)); [|discriminate]. unfold set_c in HS. rewrite EC in HS. cbn in HS. injection HS as <-. split; [exact Wk|].
        inversion CK as [p' os' H1 H2 H3 H4| | | | |]; subst.
        { destruct p' as [|o p']; [cbn in H4; subst d; destruct H3 as [H3|(H3 & _)]; discriminate|]. injection H4 as -> <-. inversion H2; subst. contradiction. }
        exists (CRun []), []. cbn. split; auto. split; auto. now apply ck_end.
    + rewrite rd_cons in HS. destruct (i =? 0) eqn:?; [lia|]. destruct (rd os (i - 1)) as [x|] eqn:Hx; [|discriminate].
      assert (SX : subc x) by (rewrite Forall_forall in SO; apply SO; eapply rd_In; eauto).
      destruct x as [[|[t| | |] p]|p]; try discriminate; try (inversion SX; contradiction).
      destruct (submit s t (wake_w c)) as [s1|] eqn:E; [|discriminate]. destruct (submit_w _ _ _ _ E Wk) as (A1 & A2 & A3). destruct (submit_inv _ _ _ _ E I) as (_ & _ & _ & _ & Ff & _ & N).
      unfold set_c in HS. rewrite A2, EC in HS. destruct (wr (c0 :: os) i (CRun p)) as [cs|] eqn:W; [|discriminate]. injection HS as <-. split; [exact A1|].
      pose proof (rd_Some_bound _ _ _ Hx). unfold wr in W. destruct (i <? 0) eqn:?; [lia|]. replace (Z.to_nat i) with (S (Z.to_nat (i - 1))) in W by (apply rd_Some_bound in Hx; lia). cbn in W.
      destruct (wr_nat os (Z.to_nat (i - 1)) (CRun p)) as [os'|] eqn:W'; [|discriminate]. injection W as <-. exists c0, os'. cbn. split; auto.
      assert (W2 : wr os (i - 1) (CRun p) = Some os') by (unfold wr; destruct (i - 1 <? 0) eqn:?; [apply rd_Some_bound in Hx; lia|auto]).
      destruct (wr_sum _ _ _ _ _ Hx W2) as (_ & _ & IN & _). split.
      * rewrite Forall_forall in *. intros y Hy. destruct (IN y Hy) as [Hy' | ->]; auto. cbn in SX. inversion SX; subst. cbn. auto.
      * assert (NE : os <> []) by (intros ->; now rewrite rd_nil in Hx).
        inversion CK as [p' o' H1 H2 H3|p' o' H1 H1' H2 H3|H1|H1|H1|H1]; subst; try congruence;
        (destruct H3 as [-> | (_ & ->)]; [|congruence]); constructor; cbn; auto; congruence.
  - destruct (rd (s_ws s) i) as [w|] eqn:Hi; [|discriminate]. destruct (w_waits w) eqn:W; [|discriminate]. destruct w; try discriminate.
    pose proof (set_w_w _ _ _ _ _ Hi HS ltac:(cbn; lia) eq_refl Wk) as A. split; auto. unfold set_w in HS. destruct (wr (s_ws s) i _); [|discriminate]. injection HS as <-.
    exists c0, os. cbn. split; auto. split; auto. eapply c_ok_ext; eauto.
  - rewrite EC in HS. destruct (Z.eq_dec i 0) as [-> | Hi0].
    + rewrite rd_cons_0 in HS. destruct c0 as [|p]; [discriminate|]. cbn in HS. unfold set_c in HS. rewrite EC in HS. cbn in HS. injection HS as <-. split; [exact Wk|].
      exists (CRun (CWait :: p)), os. cbn. split; auto. split; auto. inversion CK; subst.
      * apply (ck_run _ _ (CWait :: p0) os); auto. constructor; auto. exact Logic.I.
      * apply (ck_run _ _ [] []); auto.
    + rewrite rd_cons in HS. destruct (i =? 0) eqn:?; [lia|]. destruct (rd os (i - 1)) as [x|] eqn:Hx; [|discriminate].
      assert (SX : subc x) by (rewrite Forall_forall in SO; apply SO; eapply rd_In; eauto). destruct x; [discriminate|destruct SX].
Qed.

Lemma init_inv2 n p d others : (0 < n)%nat -> Forall sw p -> Forall (Forall sub) others -> (d = [] \/ d = dtor /\ others = []) -> inv2 d (init n ((p ++ d) :: others)).
Proof.
  intros Hn H1 H2 H3. split; [apply init_inv|]. split.
  - assert (L : zlen (repeat WStart n) = Z.of_nat n) by (unfold zlen; rewrite repeat_length; lia). split; [cbn; lia|]. split; [|discriminate]. intros _. split; [|now left].
    cbn. clear. induction n; [reflexivity|]. cbn [repeat]. rewrite sm_cons, IHn. reflexivity.
  - exists (CRun (p ++ d)), (map CRun others). split; [reflexivity|]. split.
    + rewrite Forall_map. exact H2.
    + apply ck_run; auto. destruct H3 as [H3|(H3 & ->)]; auto.
Qed.
Lemma run_inv2 d h : forall s s', run h s = Some s' -> inv2 d s -> inv2 d s'.
Proof. induction h as [|c h IH]; intros s s'; cbn; [congruence|]. destruct (step c s) eqn:E; [|discriminate]. intros H I. eapply IH; eauto. eapply step_inv2; eauto. Qed.

Lemma submit_enabled s t : 0 < zlen (s_ws s) -> exists iw s', submit s t iw = Some s'.
Proof. intros H. unfold submit. replace (0 <? zlen (s_ws s)) with true by lia. destruct (notify_ok w_waits w_wake (s_ws s)) as (i & ws & E). exists i. rewrite E. eauto. Qed.
Lemma head_enabled s i w : rd (s_ws s) i = Some w -> w_waits w = false -> exists iw s', loop_head s i iw = Some s'.
Proof.
  intros Hi NW. unfold loop_head. destruct (s_keep s).
  - destruct (s_queue s) as [|[id subs] q].
    + exists 0. destruct (wr_ok _ _ _ WWait Hi) as (ws & ->). eauto.
    + destruct q as [|t q].
      * exists 0. destruct (wr_ok _ _ _ (WRun id subs) Hi) as (ws & ->). eauto.
      * destruct (notify_ok w_waits w_wake (s_ws s)) as (j & ws & E). exists j. rewrite E.
        assert (Hi' : rd ws i = Some w) by (eapply notify_rd; eauto). destruct (wr_ok _ _ _ (WRun id subs) Hi') as (ws' & ->). eauto.
  - exists 0. destruct (wr_ok _ _ _ WExit Hi) as (ws & ->). eauto.
Qed.

(** C48: the pool never gets stuck: when no thread can take a step (not counting
    spurious wakeups), every thread that uses the pool has finished its program and
    all tasks are done; if the pool was destroyed, all workers have returned.
    With C48_terminates: every schedule that goes on as long as it can runs every
    task. *)
Theorem C48_no_deadlock : forall n progs h s, (0 < n)%nat -> progs_ok progs -> run h (init n progs) = Some s ->
  (forall c, nonspurious c -> step c s = None) ->
  (forall c, In c (s_cs s) -> c = CRun []) /\ s_queue s = [] /\ Permutation (h_sub s) (h_done s) /\
  (s_keep s = false -> forall w, In w (s_ws s) -> w = WExit).
Proof.
  intros n progs h s Hn HP HR ST. pose proof (C48_exactly_once _ _ _ _ HR) as (PM & _).
  destruct HP as (p0 & d & others & -> & HP1 & HP2 & HP3). apply (run_inv2 d) in HR; [|now apply init_inv2]. destruct HR as ((I1 & I2 & I3 & I4) & (P & K1 & K2) & c0 & os & EC & SO & CK).
  assert (WS : forall w, In w (s_ws s) -> w = WWait \/ w = WExit).
  { intros w Hw. apply In_rd in Hw. destruct Hw as (i & _ & Hi). destruct w as [| |id [|t subs]| |]; auto; exfalso.
    - destruct (head_enabled s i WStart Hi eq_refl) as (iw & s' & E). specialize (ST (Ch (Worker i) iw 0) Logic.I). unfold step, step_worker in ST. cbn in ST. rewrite Hi in ST. congruence.
    - specialize (ST (Ch (Worker i) 0 0) Logic.I). unfold step, step_worker in ST. cbn in ST. rewrite Hi in ST. unfold set_w in ST. destruct (wr_ok _ _ _ WPost Hi) as (ws & E). rewrite E in ST. discriminate.
    - destruct (submit_enabled s t P) as (iw & s1 & E). specialize (ST (Ch (Worker i) iw 0) Logic.I). unfold step, step_worker in ST. cbn in ST. rewrite Hi, E in ST. unfold set_w in ST.
      assert (Hi' : rd (s_ws s1) i = Some (WRun id (t :: subs))).
      { unfold submit in E. destruct (0 <? zlen (s_ws s)); [|discriminate]. destruct (notify_one w_waits w_wake (s_ws s) iw) eqn:N; [|discriminate]. injection E as <-. cbn. eapply notify_rd; eauto. }
      destruct (wr_ok _ _ _ (WRun id subs) Hi') as (ws & E2). rewrite E2 in ST. discriminate.
    - destruct (notify_ok c_waits c_wake (s_cs s)) as (ic & cs & N).
      assert (exists s1, post s ic = Some s1 /\ s_ws s1 = s_ws s) as (s1 & E1 & E2).
      { unfold post. rewrite N. destruct (s_queue s); [destruct (s_run s - 1 =? 0)|]; eauto. }
      rewrite <- E2 in Hi. destruct (head_enabled s1 i WPost Hi eq_refl) as (iw & s' & E). specialize (ST (Ch (Worker i) iw ic) Logic.I). unfold step, step_worker in ST. cbn in ST. rewrite E2 in Hi. rewrite Hi, E1 in ST. congruence. }
  assert (RUN0 : s_run s = 0).
  { rewrite I3. assert (Z0 : forall w, In w (s_ws s) -> busy w = 0) by (intros w Hw; destruct (WS w Hw) as [-> | ->]; reflexivity).
    clear -Z0. induction (s_ws s) as [|w ws IH]; [reflexivity|]. rewrite sm_cons. rewrite (Z0 w (or_introl eq_refl)), Z.add_0_l. apply IH. intros; apply Z0; now right. }
  assert (Q0 : s_queue s = []).
  { destruct (s_keep s) eqn:K.
    - destruct (K1 eq_refl) as (X & [Q|Q]); auto. apply sm_pos in Q; [|apply nw_nonneg]. destruct Q as (w & W1 & W2). destruct (WS w W1) as [-> | ->]; [cbn in W2; lia|].
      pose proof (sm_0 xw _ ltac:(intros []; cbn; lia) X _ W1) as Y. discriminate.
    - inversion CK; subst; try congruence; now apply I4. }
  assert (F1 : s_fin s = true) by (apply I4; auto).
  assert (CL : forall i c, rd (s_cs s) i = Some c -> c = CRun []).
  { intros i c Hc. assert (NS : forall iw, step_client s i iw = None) by (intros iw; exact (ST (Ch (Client i) iw 0) Logic.I)).
    unfold step_client in NS. rewrite Hc in NS. unfold set_c in NS. destruct (wr_ok _ _ _ (CRun []) Hc) as (tmp & _).
    destruct c as [[|[t| | |] p]|p]; auto; exfalso.
    - destruct (submit_enabled s t P) as (iw & s1 & E). specialize (NS iw). rewrite E in NS.
      assert (Hc' : rd (s_cs s1) i = Some (CRun (CSubmit t :: p))).
      { unfold submit in E. destruct (0 <? zlen (s_ws s)); [|discriminate]. destruct (notify_one w_waits w_wake (s_ws s) iw) eqn:N; [|discriminate]. injection E as <-. exact Hc. }
      destruct (wr_ok _ _ _ (CRun p) Hc') as (cs & E2). rewrite E2 in NS. discriminate.
    - specialize (NS 0). destruct (wr_ok _ _ _ (if s_fin s then CRun p else CBlocked p) Hc) as (cs & E2). rewrite E2 in NS. discriminate.
    - specialize (NS 0). destruct (wr_ok _ _ _ (CRun p) Hc) as (cs & E2). rewrite E2 in NS. discriminate.
    - specialize (NS 0). destruct (wr_ok _ _ _ (CRun p) Hc) as (cs & E2). rewrite E2 in NS.
      destruct (forallb _ (s_ws s)) eqn:FB; [discriminate|].
      assert (KF : s_keep s = false).
      { rewrite EC in Hc. destruct (Z.eq_dec i 0) as [-> | Hi0].
        - rewrite rd_cons_0 in Hc. injection Hc as ->. inversion CK as [p' o' H1 H2 H3 H4| | | | |]; subst; auto.
          destruct p' as [|o p']; [cbn in H4; subst d; destruct H3 as [H3|(H3 & _)]; discriminate|]. injection H4 as -> <-. inversion H2; subst. contradiction.
        - rewrite rd_cons in Hc. destruct (i =? 0) eqn:?; [lia|]. rewrite Forall_forall in SO. specialize (SO _ (rd_In _ _ _ Hc)). cbn in SO. inversion SO; subst. contradiction. }
      pose proof (nw_full _ (K2 KF)) as NF. assert (forallb (fun w => match w with WExit => true | _ => false end) (s_ws s) = true); [|congruence].
      apply forallb_forall. intros w Hw. destruct (WS w Hw) as [-> | ->]; auto. specialize (NF _ Hw). discriminate.
    - rewrite EC in Hc. destruct (Z.eq_dec i 0) as [-> | Hi0].
      + rewrite rd_cons_0 in Hc. injection Hc as ->. inversion CK; subst; congruence.
      + rewrite rd_cons in Hc. destruct (i =? 0) eqn:?; [lia|]. rewrite Forall_forall in SO. exact (SO _ (rd_In _ _ _ Hc)). }
  split; [|split; [auto|split]].
  - intros c Hc. apply In_rd in Hc. destruct Hc as (i & _ & Hc). eapply CL; eauto.
  - rewrite Q0 in PM. cbn in PM. replace (flat_map rid (s_ws s)) with (@nil Z) in PM; auto.
    clear -WS. induction (s_ws s) as [|w ws IH]; auto. cbn. rewrite <- IH by (intros; apply WS; now right). destruct (WS w (or_introl eq_refl)) as [-> | ->]; reflexivity.
  - intros K w Hw. destruct (WS w Hw) as [-> | ->]; auto. pose proof (nw_full _ (K2 K) _ Hw). discriminate.
Qed.
Print Assumptions C48_no_deadlock.

(** C48: destroying the pool does not lose tasks. *)
Theorem C48_destructor : forall n p h s, (0 < n)%nat -> Forall sw p -> run h (init n [p ++ dtor]) = Some s ->
  rd (s_cs s) 0 = Some (CRun []) ->
  s_queue s = [] /\ Permutation (h_sub s) (h_done s) /\ s_keep s = false.
Proof.
  intros n p h s Hn Hp HR HE. pose proof (C48_exactly_once _ _ _ _ HR) as (PM & _).
  apply (run_inv2 dtor) in HR; [|apply init_inv2; auto]. destruct HR as ((I1 & I2 & I3 & I4) & _ & c0 & os & EC & SO & CK).
  rewrite EC, rd_cons_0 in HE. injection HE as ->.
  inversion CK as [q o' H1 H2 H3 H4| | | | |]; subst; [destruct q; discriminate|].
  destruct (proj1 I4 H1) as (Q & R). split; auto. split; auto. rewrite Q in PM. cbn in PM.
  assert (B : forall w, In w (s_ws s) -> busy w = 0) by (apply sm_0; [apply busy_nonneg|lia]).
  replace (flat_map rid (s_ws s)) with (@nil Z) in PM; auto. clear -B. induction (s_ws s) as [|w ws IH]; auto. cbn.
  rewrite <- IH by (intros x Hx; apply B; now right). specialize (B w (or_introl eq_refl)). destruct w; cbn in B; (reflexivity || lia).
Qed.
Print Assumptions C48_destructor.

(** Two workers; the first task submits another one; the owner submits two tasks
    and destroys the pool.  A schedule with a sleeping worker, a wakeup and a
    spurious one. *)
Definition p48 : list cop := [CSubmit (Task 1 [Task 2 []]); CSubmit (Task 3 [])].
Definition h48 : list choice :=
  [Ch (Worker 1) 0 0; Ch (Client 0) 1 0; Ch (Worker 0) 0 0; Ch (Client 0) 0 0; Ch (Worker 1) 0 0; Ch (Client 0) 0 0; Ch (SpurC 0) 0 0; Ch (Client 0) 0 0;
   Ch (Worker 1) 0 0; Ch (Worker 1) 0 0; Ch (Worker 0) 1 0; Ch (Worker 0) 0 0; Ch (Worker 0) 0 0; Ch (Worker 0) 0 0; Ch (Worker 0) 0 0; Ch (Worker 1) 0 0;
   Ch (Client 0) 0 0; Ch (Client 0) 0 0; Ch (Worker 0) 0 0; Ch (Worker 1) 0 0; Ch (Client 0) 0 0].
Example C48_ex : progs_ok [p48 ++ dtor] /\ exists s, run h48 (init 2 [p48 ++ dtor]) = Some s /\
  h_sub s = [1; 3; 2] /\ h_done s = [3; 1; 2] /\ s_cs s = [CRun []] /\ s_ws s = [WExit; WExit] /\
  forall c, nonspurious c -> step c s = None.
Proof.
  split; [exists p48, dtor, []; repeat split; auto; repeat constructor|].
  eexists. split; [vm_compute; reflexivity|]. repeat split.
  intros c Hc. unfold nonspurious in Hc. unfold step. destruct (who c) as [i|i|i|i]; try contradiction.
  - unfold step_worker. destruct (rd _ i) as [w|] eqn:E; auto. apply rd_In in E. destruct E as [<- | [<- | []]]; reflexivity.
  - unfold step_client. destruct (rd _ i) as [w|] eqn:E; auto. apply rd_In in E. destruct E as [<- | []]; reflexivity.
Qed.

(** C48, refuted for two threads that wait at the same time: empty_cond_ is
    notified with notify_one, and the thread that is woken does not pass it on; the
    other one sleeps for ever although all tasks are done. *)
Theorem C48_two_waiters_refuted : exists h s,
  run h (init 1 [[CSubmit (Task 7 []); CWait]; [CWait]]) = Some s /\ Forall nonspurious h /\
  (forall c, nonspurious c -> step c s = None) /\ h_sub s = [7] /\ h_done s = [7] /\ s_fin s = true /\ rd (s_cs s) 1 = Some (CBlocked []).
Proof.
  exists [Ch (Client 0) 0 0; Ch (Client 0) 0 0; Ch (Client 1) 0 0; Ch (Worker 0) 0 0; Ch (Worker 0) 0 0; Ch (Worker 0) 0 0; Ch (Client 0) 0 0].
  eexists. split; [vm_compute; reflexivity|]. split; [repeat constructor|]. split; [|repeat split].
  intros c Hc. unfold nonspurious in Hc. unfold step. destruct (who c) as [i|i|i|i]; try contradiction.
  - unfold step_worker. destruct (rd _ i) as [w|] eqn:E; auto. apply rd_In in E. destruct E as [<- | []]; reflexivity.
  - unfold step_client. destruct (rd _ i) as [w|] eqn:E; auto. apply rd_In in E. destruct E as [<- | [<- | []]]; reflexivity.
Qed.
Print Assumptions C48_two_waiters_refuted.

(** C48, refuted for a task submitted by another thread while the pool is being
    destroyed (between the wait and the stop): it is lost. *)
Theorem C48_submit_during_destruction_refuted : exists h s,
  run h (init 1 [dtor; [CSubmit (Task 7 [])]]) = Some s /\ s_cs s = [CRun []; CRun []] /\ s_ws s = [WExit] /\
  h_sub s = [7] /\ h_done s = [].
Proof.
  exists [Ch (Client 0) 0 0; Ch (Client 1) 0 0; Ch (Client 0) 0 0; Ch (Worker 0) 0 0; Ch (Client 0) 0 0].
  eexists. split; [vm_compute; reflexivity|]. repeat split.
Qed.
Print Assumptions C48_submit_during_destruction_refuted.
