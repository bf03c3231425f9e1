(** * Proofs about the thread pool *)
From Coq Require Import ZArith List Lia Bool Permutation.
From Coq Require Import ZifyBool.
From Verif Require Import Base ThreadPoolModel.
Import ListNotations.
Open Scope Z_scope.

Definition sm {A} (g : A -> Z) (l : list A) : Z := zsum (map g l).
Arguments sm : simpl never.
Lemma sm_nil {A} (g : A -> Z) : sm g [] = 0. Proof. reflexivity. Qed.
Lemma sm_cons {A} (g : A -> Z) x l : sm g (x :: l) = g x + sm g l. Proof. reflexivity. Qed.
Lemma sm_app {A} (g : A -> Z) l l' : sm g (l ++ l') = sm g l + sm g l'.
Proof. induction l as [|x l IH]; [reflexivity|]. cbn [app]. rewrite !sm_cons, IH. lia. Qed.
Lemma sm_nonneg {A} (g : A -> Z) l : (forall x, 0 <= g x) -> 0 <= sm g l.
Proof. intros H. induction l as [|x l IH]; [rewrite sm_nil; lia|]. rewrite sm_cons. specialize (H x). lia. Qed.
Lemma sm_In {A} (g : A -> Z) l x : (forall y, 0 <= g y) -> In x l -> g x <= sm g l.
Proof. intros H. induction l as [|y l IH]; [intros []|]; intros [-> | Hi]; rewrite sm_cons; [pose proof (sm_nonneg g l H); lia|]. specialize (IH Hi). specialize (H y). lia. Qed.
Lemma sm_map {A B} (g : B -> Z) (f : A -> B) l : sm g (map f l) = sm (fun x => g (f x)) l.
Proof. unfold sm. now rewrite map_map. Qed.
Lemma sm_ext {A} (g h : A -> Z) l : (forall x, In x l -> g x = h x) -> sm g l = sm h l.
Proof. intros H. unfold sm. f_equal. now apply map_ext_in. Qed.
Lemma sm_0 {A} (g : A -> Z) l : (forall x, 0 <= g x) -> sm g l = 0 -> forall x, In x l -> g x = 0.
Proof. intros H E x Hx. pose proof (sm_In g l x H Hx). specialize (H x). lia. Qed.
Lemma sm_pos {A} (g : A -> Z) l : (forall x, 0 <= g x) -> 0 < sm g l -> exists x, In x l /\ 0 < g x.
Proof.
  intros H. induction l as [|y l IH]; [rewrite sm_nil; lia|]. rewrite sm_cons. intros P.
  destruct (Z_lt_ge_dec 0 (g y)); [exists y; split; [now left|lia]|].
  destruct IH as (x & X1 & X2); [specialize (H y); lia|]. exists x. split; [now right|lia].
Qed.
Lemma sm_le {A} (g h : A -> Z) l : (forall x, g x <= h x) -> sm g l <= sm h l.
Proof. intros H. induction l as [|x l IH]; [rewrite !sm_nil; lia|]. rewrite !sm_cons. specialize (H x). lia. Qed.

Lemma wr_sum {A} (l : list A) i x v l' : rd l i = Some x -> wr l i v = Some l' ->
  (forall g, sm g l' = sm g l - g x + g v) /\ zlen l' = zlen l /\ (forall y, In y l' -> In y l \/ y = v) /\
  forall j, rd l' j = if j =? i then Some v else rd l j.
Proof.
  intros Hi Hw. destruct (wr_Some l i v (rd_Some_bound _ _ _ Hi)) as (l'' & E1 & E2 & E3).
  assert (l'' = l') by congruence. subst l''. split; [|split; auto; split; auto].
  - intros g. unfold rd in Hi. unfold wr in Hw. destruct (i <? 0); [discriminate|]. revert Hi Hw. generalize (Z.to_nat i). clear. intros n. revert n l'.
    induction l as [|y l IH]; intros [|n] l'; cbn; try discriminate.
    + intros [= ->] [= <-]. rewrite !sm_cons. lia.
    + intros H. destruct (wr_nat l n v) eqn:E; [|discriminate]. intros [= <-]. rewrite !sm_cons. rewrite (IH _ _ H E). lia.
  - intros y Hy. apply In_rd in Hy. destruct Hy as (j & _ & Hj). rewrite E3 in Hj. destruct (j =? i); [right; congruence|left; eapply rd_In; eauto].
Qed.
Lemma wr_ok {A} (l : list A) i x v : rd l i = Some x -> exists l', wr l i v = Some l'.
Proof. intros H. destruct (wr_Some l i v (rd_Some_bound _ _ _ H)) as (l' & E & _). eauto. Qed.

Lemma notify_sum {A} (waits : A -> bool) wake (l : list A) i l' : notify_one waits wake l i = Some l' ->
  (l' = l /\ forall x, In x l -> waits x = false) \/
  exists x, rd l i = Some x /\ waits x = true /\ wr l i (wake x) = Some l'.
Proof.
  unfold notify_one. destruct (existsb waits l) eqn:E.
  - destruct (rd l i) as [x|] eqn:R; [|discriminate]. destruct (waits x) eqn:W; [|discriminate]. intros H. right. eauto.
  - intros [= <-]. left. split; auto. intros x Hx. destruct (waits x) eqn:W; auto. assert (existsb waits l = true) by (apply existsb_exists; eauto). congruence.
Qed.
Lemma notify_ok {A} (waits : A -> bool) wake (l : list A) : exists i l', notify_one waits wake l i = Some l'.
Proof.
  unfold notify_one. destruct (existsb waits l) eqn:E; [|exists 0, l; reflexivity].
  apply existsb_exists in E. destruct E as (x & Hx & W). apply In_rd in Hx. destruct Hx as (i & _ & Hi). exists i. rewrite Hi, W. eapply wr_ok; eauto.
Qed.
Lemma notify_rd {A} (waits : A -> bool) wake (l : list A) i l' j x : notify_one waits wake l i = Some l' -> rd l j = Some x -> waits x = false -> rd l' j = Some x.
Proof.
  intros H Hj W. apply notify_sum in H. destruct H as [(-> & _)|(y & Y1 & Y2 & Y3)]; auto.
  destruct (wr_sum _ _ _ _ _ Y1 Y3) as (_ & _ & _ & E). rewrite E. destruct (j =? i) eqn:C; auto. assert (j = i) by lia. subst. congruence.
Qed.

(** ** Counting tasks *)
Definition one (z y : Z) : Z := if y =? z then 1 else 0.
Definition cn (z : Z) (l : list Z) : Z := sm (one z) l.
Lemma cn_perm l l' : (forall z, cn z l = cn z l') <-> Permutation l l'.
Proof.
  assert (G : forall z m, cn z m = Z.of_nat (count_occ Z.eq_dec m z)).
  { intros z m. induction m as [|x m IH]; [reflexivity|]. unfold cn in *. rewrite sm_cons, IH. unfold one. cbn [count_occ].
    destruct (Z.eq_dec x z); destruct (x =? z) eqn:?; lia. }
  rewrite (Permutation_count_occ Z.eq_dec). split; intros H x; specialize (H x); rewrite ?G in *; lia.
Qed.
Definition rid (w : wst) : list Z := match w with WRun id _ => [id] | _ => [] end.
Definition busy (w : wst) : Z := match w with WRun _ _ | WPost => 1 | _ => 0 end.
Definition rcn (z : Z) (w : wst) : Z := cn z (rid w).
Lemma rcn_flat z ws : sm (rcn z) ws = cn z (flat_map rid ws).
Proof. induction ws as [|w ws IH]; [reflexivity|]. cbn [flat_map]. unfold cn. rewrite sm_cons, sm_app, IH. reflexivity. Qed.

(* d: a worker that has already left the count *)
Definition inv1o (d : Z) (s : st) : Prop :=
  (forall z, cn z (h_sub s) = sm (fun t => one z (tid t)) (s_queue s) + cn z (h_start s)) /\
  (forall z, cn z (h_start s) = sm (rcn z) (s_ws s) + cn z (h_done s)) /\
  s_run s = sm busy (s_ws s) - d /\
  (s_fin s = true <-> s_queue s = [] /\ s_run s = 0).

Definition inv1 := inv1o 0.
Lemma busy_nonneg w : 0 <= busy w. Proof. destruct w; cbn; lia. Qed.
Lemma notify_w_sum ws i ws' : notify_one w_waits w_wake ws i = Some ws' -> zlen ws' = zlen ws /\
  ((forall x, In x ws -> w_waits x = false) /\ ws' = ws \/ forall g, sm g ws' = sm g ws - g WWait + g WStart).
Proof.
  intros H. apply notify_sum in H. destruct H as [(-> & H)|(x & X1 & X2 & X3)]; [auto|]. destruct x; try discriminate.
  destruct (wr_sum _ _ _ _ _ X1 X3) as (G1 & G2 & _). split; auto.
Qed.
Lemma notify_w_same ws i ws' g : notify_one w_waits w_wake ws i = Some ws' -> g WWait = g WStart -> sm g ws' = sm g ws.
Proof. intros H E. apply notify_w_sum in H. destruct H as (_ & [(_ & ->)|H]); auto. rewrite H. lia. Qed.

Lemma submit_inv s t iw s' : submit s t iw = Some s' -> inv1 s -> inv1 s' /\ s_cs s' = s_cs s /\
  s_queue s' = s_queue s ++ [t] /\ s_keep s' = s_keep s /\ s_fin s' = false /\ s_run s' = s_run s /\
  notify_one w_waits w_wake (s_ws s) iw = Some (s_ws s').
Proof.
  unfold submit. destruct (0 <? zlen (s_ws s)); [|discriminate]. destruct (notify_one w_waits w_wake (s_ws s) iw) as [ws|] eqn:N; [|discriminate].
  intros [= <-] (I1 & I2 & I3 & I4). split; [|cbn; repeat split; auto].
  split; [|split; [|split]]; cbn.
  - intros z. unfold cn in *. rewrite !sm_app, I1, !sm_cons, !sm_nil. lia.
  - intros z. rewrite I2. now rewrite (notify_w_same _ _ _ (rcn z) N).
  - rewrite I3. now rewrite (notify_w_same _ _ _ busy N).
  - split; [discriminate|]. intros (H & _). now destruct (s_queue s).
Qed.
Lemma set_w_inv s i w w' s' : rd (s_ws s) i = Some w -> set_w s i w' = Some s' -> (forall z, rcn z w' = rcn z w) -> busy w' = busy w -> inv1 s -> inv1 s'.
Proof.
  unfold set_w. intros Hi. destruct (wr (s_ws s) i w') as [ws|] eqn:W; [|discriminate]. intros [= <-] E1 E2 (I1 & I2 & I3 & I4).
  destruct (wr_sum _ _ _ _ _ Hi W) as (G & _). split; [exact I1|]. split; [|split]; cbn.
  - intros z. rewrite G, I2, E1. lia.
  - rewrite G. lia.
  - exact I4.
Qed.
Lemma set_c_inv s i c s' : set_c s i c = Some s' -> inv1 s -> inv1 s'.
Proof. unfold set_c. destruct (wr (s_cs s) i c); [|discriminate]. intros [= <-]. auto. Qed.

Lemma head_inv s i iw w s' : rd (s_ws s) i = Some w -> rid w = [] -> w_waits w = false -> loop_head s i iw = Some s' -> inv1o (busy w) s -> inv1 s'.
Proof.
  intros Hi R NW H (I1 & I2 & I3 & I4). unfold loop_head in H. destruct (s_keep s).
  - destruct (s_queue s) as [|[id subs] q] eqn:Q.
    + destruct (wr (s_ws s) i WWait) as [ws|] eqn:W; [|discriminate]. injection H as <-. destruct (wr_sum _ _ _ _ _ Hi W) as (G & _).
      split; [|split; [|split]]; cbn.
      * exact I1.
      * intros z. rewrite G, I2. unfold rcn. rewrite R. cbn. lia.
      * rewrite G, I3. cbn. lia.
      * exact I4.
    + destruct (match q with [] => Some (s_ws s) | _ :: _ => _ end) as [ws1|] eqn:N; [|discriminate].
      destruct (wr ws1 i (WRun id subs)) as [ws2|] eqn:W; [|discriminate]. injection H as <-.
      assert (N1 : forall g, g WWait = g WStart -> sm g ws1 = sm g (s_ws s)).
      { intros g E. destruct q; [congruence|]. eapply notify_w_same; eauto. }
      assert (N2 : rd ws1 i = Some w).
      { destruct q; [congruence|]. eapply notify_rd; eauto. }
      destruct (wr_sum _ _ _ _ _ N2 W) as (G & _).
      split; [|split; [|split]]; cbn.
      * intros z. rewrite I1. unfold cn. rewrite sm_app, !sm_cons, sm_nil. cbn. lia.
      * intros z. unfold cn. rewrite sm_app. fold (cn z (h_start s)). fold (cn z (h_done s)). rewrite I2, G. rewrite N1 by reflexivity. unfold rcn at 3 4. rewrite R. cbn [rid]. unfold cn. rewrite sm_nil, !sm_cons, sm_nil. lia.
      * rewrite I3, G, N1 by reflexivity. cbn. lia.
      * assert (0 <= s_run s) by (rewrite I3; pose proof (sm_In busy _ _ busy_nonneg (rd_In _ _ _ Hi)); lia). rewrite I4. split; [intros (? & _); discriminate|]. lia.
  - destruct (wr (s_ws s) i WExit) as [ws|] eqn:W; [|discriminate]. injection H as <-. destruct (wr_sum _ _ _ _ _ Hi W) as (G & _).
    split; [|split; [|split]]; cbn.
    + exact I1.
    + intros z. rewrite G, I2. unfold rcn. rewrite R. cbn. lia.
    + rewrite G, I3. cbn. lia.
    + exact I4.
Qed.
Lemma post_inv s ic s' : (0 < sm busy (s_ws s)) -> post s ic = Some s' -> inv1 s -> inv1o 1 s' /\ s_ws s' = s_ws s.
Proof.
  intros P H (I1 & I2 & I3 & I4). unfold post in H. destruct (s_queue s) as [|t q] eqn:Q; [destruct (s_run s - 1 =? 0) eqn:C|].
  - destruct (notify_one c_waits c_wake (s_cs s) ic); [|discriminate]. injection H as <-. split; [|reflexivity].
    split; [exact I1|]. split; [exact I2|]. split; cbn; [lia|]. split; auto. intros _. split; auto. lia.
  - injection H as <-. split; [|reflexivity]. split; [exact I1|]. split; [exact I2|]. split; cbn; [lia|]. rewrite I4. lia.
  - injection H as <-. split; [|reflexivity]. split; [exact I1|]. split; [exact I2|]. split; cbn; [lia|]. rewrite I4. split; intros (? & _); discriminate.
Qed.

Lemma step_inv c s s' : step c s = Some s' -> inv1 s -> inv1 s'.
Proof.
  unfold step. destruct (who c) as [i|i|i|i].
  - unfold step_worker. destruct (rd (s_ws s) i) as [w|] eqn:Hi; [|discriminate]. destruct w as [| |id [|t subs]| |]; try discriminate; intros H I.
    + eapply head_inv; eauto; reflexivity.
    + destruct (set_w s i WPost) as [s1|] eqn:E; [|discriminate]. injection H as <-. unfold set_w in E. destruct (wr (s_ws s) i WPost) as [ws|] eqn:W; [|discriminate].
      injection E as <-. destruct I as (I1 & I2 & I3 & I4). destruct (wr_sum _ _ _ _ _ Hi W) as (G & _). split; [exact I1|]. split; [|split]; cbn.
      * intros z. rewrite G, I2. unfold cn. rewrite sm_app, sm_cons, sm_nil. change (rcn z (WRun id [])) with (one z id + 0). change (rcn z WPost) with 0. lia.
      * rewrite G, I3. cbn. lia.
      * exact I4.
    + destruct (submit s t (wake_w c)) as [s1|] eqn:E; [|discriminate]. destruct (submit_inv _ _ _ _ E I) as (I' & _ & _ & _ & _ & _ & N).
      eapply (set_w_inv s1 i (WRun id (t :: subs))); eauto; try reflexivity. eapply notify_rd; eauto.
    + destruct (post s (wake_c c)) as [s1|] eqn:E; [|discriminate].
      assert (P0 : 0 < sm busy (s_ws s)) by (pose proof (sm_In busy _ _ busy_nonneg (rd_In _ _ _ Hi)) as X; change (busy WPost) with 1 in X; lia). destruct (post_inv _ _ _ P0 E I) as (I' & EW).
      eapply (head_inv s1 i _ WPost); eauto; try reflexivity. now rewrite EW.
  - unfold step_client. destruct (rd (s_cs s) i) as [x|] eqn:Hi; [|discriminate]. destruct x as [[|[t| | |] p]|p]; try discriminate; intros H I.
    + destruct (submit s t (wake_w c)) as [s1|] eqn:E; [|discriminate]. destruct (submit_inv _ _ _ _ E I) as (I' & _). eapply set_c_inv; eauto.
    + eapply set_c_inv; eauto.
    + destruct (set_c s i (CRun p)) as [s1|] eqn:E; [|discriminate]. injection H as <-. pose proof (set_c_inv _ _ _ _ E I) as (I1 & I2 & I3 & I4).
      split; [exact I1|]. split; [|split; [|exact I4]]; cbn.
      * intros z. rewrite I2, sm_map. f_equal. apply sm_ext. intros [] _; reflexivity.
      * rewrite I3, sm_map. f_equal. apply sm_ext. intros [] _; reflexivity.
    + destruct (forallb _ (s_ws s)); [|discriminate]. eapply set_c_inv; eauto.
  - destruct (rd (s_ws s) i) as [w|] eqn:Hi; [|discriminate]. destruct (w_waits w) eqn:W; [|discriminate]. destruct w; try discriminate. intros H I.
    eapply set_w_inv; eauto; reflexivity.
  - destruct (rd (s_cs s) i) as [x|] eqn:Hi; [|discriminate]. destruct (c_waits x); [|discriminate]. intros H I. eapply set_c_inv; eauto.
Qed.
Lemma init_inv n progs : inv1 (init n progs).
Proof.
  assert (G : forall g, g WStart = 0 -> sm g (repeat WStart n) = 0).
  { intros g E. induction n; [reflexivity|]. cbn [repeat]. rewrite sm_cons, IHn. lia. }
  split; [|split; [|split]]; cbn.
  - reflexivity.
  - intros z. rewrite G by reflexivity. reflexivity.
  - now rewrite G.
  - tauto.
Qed.
Lemma run_inv h : forall s s', run h s = Some s' -> inv1 s -> inv1 s'.
Proof. induction h as [|c h IH]; intros s s'; cbn; [congruence|]. destruct (step c s) eqn:E; [|discriminate]. intros H I. eapply IH; eauto. eapply step_inv; eauto. Qed.
