(** * C47: the concurrent hash is a linearizable map *)
From Coq Require Import ZArith List Lia Bool Permutation.
From Coq Require Import ZifyBool.
From Verif Require Import Base HashModel HashSpec ThreadPoolProofs HashProofs.
Import ListNotations.
Open Scope Z_scope.

(** Any number of threads, each making any calls, interleaved in any way: the
    finished calls, in the order in which they finished, are a sequential
    execution of a map with the results the threads saw; and each thread's calls
    occur in it in the order it made them.  (A call takes effect at the step at
    which it finishes, so a call that returns before another starts comes first.) *)
Theorem C47_linearizable c progs sched s :
  cfg_ok c -> Forall (Forall (op_ok c)) progs ->
  run c sched (init c progs) = Some s ->
  (exists m, sequential [] (log s) m) /\
  forall t p, rd progs t = Some p ->
    exists th, rd (threads s) t = Some th /\ calls_of t (log s) ++ todo th = p.
Proof.
  intros OK F H. pose proof (run_inv c OK progs sched [] _ _ (inv_init c OK progs F) H) as (HL & (m & R & S) & HE & HT).
  split; [eauto|]. intros t p Hp. destruct (rd_in_bound (threads s) t) as (th & Ht); [rewrite HL; eapply rd_Some_bound; eauto|].
  exists th. split; auto. pose proof (t_prog _ _ _ _ _ _ (HT t th Ht)) as E. congruence.
Qed.
Print Assumptions C47_linearizable.

(** What this means for one key: at most one Insert of it succeeds.  Before that
    one, no Insert of the key has finished and no Find sees it; afterwards every
    Insert of the key is refused and, like every Find, gets the winner's value. *)
Definition on_key (k : Z) (e : event) : Prop := op_key (e_op e) = k.

Lemma seq_present m l m' k v : sequential m l m' -> lookup m k = Some v ->
  forall e, In e l -> on_key k e -> match e_op e with Insert _ _ => e_res e = Lost v | Find _ => e_res e = Found v end.
Proof.
  intros S. induction S; intros L e' Hi Hk; [destruct Hi|].
  assert (L1 : lookup m1 k = Some v).
  { unfold seq_op in H. destruct (e_op e) as [k' v'|k'] eqn:Eo; destruct (lookup m k') as [w|] eqn:E'; injection H as <- _; auto.
    cbn. destruct (k' =? k) eqn:Q; auto. assert (k' = k) by lia. congruence. }
  destruct Hi as [<-|Hi]; [|now apply IHS]. unfold on_key in Hk. unfold seq_op in H.
  destruct (e_op e) as [k' v'|k']; cbn in Hk; subst k'; rewrite L in H; injection H as _ H; now rewrite <- H.
Qed.

Lemma seq_absent m l m' k : sequential m l m' -> lookup m k = None ->
  (forall e, In e l -> on_key k e -> e_op e = Find k /\ e_res e = Missing) \/
  exists l1 w v l2, l = l1 ++ w :: l2 /\ e_op w = Insert k v /\ e_res w = Won /\
    (forall e, In e l1 -> on_key k e -> e_op e = Find k /\ e_res e = Missing) /\
    forall e, In e l2 -> on_key k e -> match e_op e with Insert _ _ => e_res e = Lost v | Find _ => e_res e = Found v end.
Proof.
  intros S. induction S; intros L; [left; intros e []|].
  assert (C : (m1 = m \/ op_key (e_op e) <> k /\ lookup m1 k = None) /\ (on_key k e -> e_op e = Find k /\ e_res e = Missing) \/
              exists v, e_op e = Insert k v /\ e_res e = Won /\ lookup m1 k = Some v).
  { unfold seq_op in H. unfold on_key. destruct (e_op e) as [k' v'|k'] eqn:Eo; destruct (Z.eq_dec k' k) as [->|Q].
    - rewrite L in H. injection H as <- H. right. exists v'. cbn. rewrite Z.eqb_refl. auto.
    - left. split; [|cbn; tauto]. destruct (lookup m k'); injection H as <- _; auto. right. cbn. replace (k' =? k) with false by lia. auto.
    - rewrite L in H. injection H as <- H. left. auto.
    - left. split; [|cbn; tauto]. destruct (lookup m k'); injection H as <- _; auto. }
  destruct C as [(C1 & C2)|(v & C1 & C2 & C3)].
  - assert (L1 : lookup m1 k = None) by (destruct C1 as [->|(_ & C1)]; auto). destruct (IHS L1) as [A|(l1 & w & v & l2 & -> & A2 & A3 & A4 & A5)].
    + left. intros e' [<-|Hi]; auto.
    + right. exists (e :: l1), w, v, l2. split; [reflexivity|]. split; auto. split; auto. split; auto. intros e' [<-|Hi]; auto.
  - right. exists [], e, v, l. split; [reflexivity|]. split; auto. split; auto. split; [intros e' []|]. eapply seq_present; eauto.
Qed.

Theorem C47_one_winner c progs sched s k :
  cfg_ok c -> Forall (Forall (op_ok c)) progs ->
  run c sched (init c progs) = Some s ->
  (forall e, In e (log s) -> on_key k e -> e_op e = Find k /\ e_res e = Missing) \/
  exists before w v after, log s = before ++ w :: after /\
    e_op w = Insert k v /\ e_res w = Won /\
    (forall e, In e before -> on_key k e -> e_op e = Find k /\ e_res e = Missing) /\
    forall e, In e after -> on_key k e ->
      match e_op e with
      | Insert _ _ => e_res e = Lost v
      | Find _ => e_res e = Found v
      end.
Proof.
  intros OK F H. destruct (C47_linearizable c progs sched s OK F H) as ((m & S) & _). now apply (seq_absent [] (log s) m k S).
Qed.
Print Assumptions C47_one_winner.

(** No call can be blocked, and if there is room in the hash every call finishes
    within 2 * group_size + 1 steps of its own thread, whatever the others do. *)
Theorem C47_wait_free c progs sched s :
  cfg_ok c -> Forall (Forall (op_ok c)) progs ->
  run c sched (init c progs) = Some s ->
  (forall t th, rd (threads s) t = Some th -> todo th <> [] -> exists s', step c t s = Some s') /\
  (roomy c progs -> forall t p, rd progs t = Some p ->
     Z.of_nat (count_occ Z.eq_dec sched t) <= (2 * group_size c + 1) * zlen p).
Proof.
  intros OK F H. pose proof (run_inv c OK progs sched [] _ _ (inv_init c OK progs F) H) as HI. split.
  - intros t th Ht Ho. eapply step_some; eauto.
  - intros Ro t p Hp. pose proof (proj1 HI) as HL. destruct HI as (_ & (m & R & S) & HE & HT). cbn [app] in HT.
    destruct (rd_in_bound (threads s) t) as (th & Ht); [rewrite HL; eapply rd_Some_bound; eauto|].
    destruct (HT t th Ht) as [T1 T2 (n & T3 & T4 & T5)]. specialize (T5 Ro).
    assert (CN : cnt t sched = Z.of_nat (count_occ Z.eq_dec sched t)).
    { clear. unfold cnt. induction sched as [|x l IH]; [reflexivity|]. unfold cn in *. rewrite sm_cons, IH. unfold one. cbn [count_occ]. destruct (Z.eq_dec x t); destruct (x =? t) eqn:?; lia. }
    rewrite CN in T5. rewrite Hp in T2. injection T2 as ->. rewrite zlen_app.
    pose proof (grp_pos c OK) as GP. unfold cost in T5. unfold used in T5. destruct (at_ th) as [[cur cas]|].
    + destruct (T4 cur cas eq_refl) as (o & rest & E & _ & P). rewrite E, zlen_cons. pose proof (zlen_nonneg rest).
      assert (n < group_size c).
      { eapply room_bound; eauto. eapply keys_inserted; eauto. }
      destruct cas; nia.
    + pose proof (zlen_nonneg (todo th)). nia.
Qed.
Print Assumptions C47_wait_free.

(** The pairs in the buckets, decoded as Resize and CopyDataFrom do, are exactly
    the pairs of the map, each key once. *)
Lemma copy_elem c k v i : cfg_ok c -> key_ok c k -> k mod 2 ^ impl c = i mod 2 ^ impl c -> copy_prog c i (new_elem c k v) = [Insert k v].
Proof.
  intros OK Hk Hg. unfold copy_prog. pose proof (new_elem_nonempty c OK k v Hk) as NE. replace (new_elem c k v =? EMPTY) with false by lia.
  pose proof (i_pos c OK). pose proof (kb_pos c OK). pose proof (G_pos c OK).
  unfold kept_mask. rewrite !land_mask by lia. rewrite new_elem_mod by auto. rewrite value_elem by auto.
  rewrite lor_add by (try lia; apply Z.mod_pos_bound; lia). rewrite <- Hg. f_equal. f_equal.
  rewrite (Z.div_mod k (2 ^ impl c)) at 3 by lia. lia.
Qed.
Lemma in_imap {A B} (f : Z -> A -> B) l y : forall k, In y (imap f k l) <-> exists i x, rd l i = Some x /\ y = f (k + i) x.
Proof.
  intros k. split.
  - intros H. apply In_rd in H. destruct H as (i & Hi & H). rewrite rd_imap in H. destruct (rd l i) as [x|] eqn:E; [|discriminate]. injection H as <-. eauto.
  - intros (i & x & H & ->). apply (rd_In _ i). rewrite rd_imap, H. reflexivity.
Qed.
Lemma rep_decode c d m j w : cfg_ok c -> rep c d m -> rd d j = Some w ->
  copy_prog c j w = [] \/ exists k v, copy_prog c j w = [Insert k v] /\ In (k, v) m /\ w = new_elem c k v /\ key_ok c k /\ k mod 2 ^ impl c = j mod 2 ^ impl c.
Proof.
  intros OK R H. destruct (Z.eq_dec w EMPTY) as [->|Q]; [left; unfold copy_prog; now rewrite Z.eqb_refl|]. right.
  destruct (r_slot _ _ _ R _ _ H Q) as (k & v & S1 & -> & S3). destruct (r_ok _ _ _ R _ _ S1) as (Hk & _). exists k, v. repeat split; auto; try apply Hk. apply copy_elem; auto.
Qed.
Lemma rep_contents c d m : cfg_ok c -> rep c d m ->
  Permutation (concat (copy_progs c d)) (map (fun p => Insert (fst p) (snd p)) m).
Proof.
  intros OK R. apply NoDup_Permutation.
  - unfold copy_progs.
    assert (G : forall l k, (forall i x, rd l i = Some x -> rd d (k + i) = Some x) -> NoDup (concat (imap (copy_prog c) k l))).
    { intros l. induction l as [|x l IH]; intros k H; [constructor|]. cbn [imap concat].
      assert (Hl : forall i y, rd l i = Some y -> rd d (k + 1 + i) = Some y).
      { intros i y Hy. specialize (H (i + 1) y). rewrite rd_cons_S in H by (apply rd_Some_bound in Hy; lia). rewrite <- (H Hy). f_equal. lia. }
      specialize (IH (k + 1) Hl).
      assert (Hx : rd d k = Some x) by (rewrite <- (H 0 x (rd_cons_0 _ _)); f_equal; lia).
      destruct (rep_decode c d m k x OK R Hx) as [->|(k1 & v1 & -> & D1 & D2 & D3 & D4)]; [exact IH|]. cbn [app]. constructor; auto.
      intros Hi. apply in_concat in Hi. destruct Hi as (q & Q1 & Q2). apply in_imap in Q1. destruct Q1 as (i & y & Hy & ->).
      destruct (rep_decode c d m (k + 1 + i) y OK R (Hl i y Hy)) as [E|(k2 & v2 & E & E1 & E2 & E3 & E4)]; rewrite E in Q2; [destruct Q2|].
      destruct Q2 as [[= -> ->]|[]]. subst x y.
      assert (k = k + 1 + i) by (eapply (r_uniq _ _ _ R k1 v1 v1); eauto). apply rd_Some_bound in Hy. lia. }
    apply (G d 0). intros i x Hx. exact Hx.
  - pose proof (r_nd _ _ _ R) as ND. revert ND. generalize m. clear. intros m. induction m as [|[k v] m IH]; cbn; [constructor|]. intros ND. inversion ND; subst. constructor; auto.
    intros Hi. apply in_map_iff in Hi. destruct Hi as ([k' v'] & [= -> ->] & Hi). apply H1. apply in_map_iff. exists (k, v). auto.
  - intros o. rewrite in_concat. split.
    + intros (q & Q1 & Q2). apply in_imap in Q1. destruct Q1 as (i & y & Hy & ->). destruct (rep_decode c d m (0 + i) y OK R Hy) as [E|(k2 & v2 & E & E1 & _)]; rewrite E in Q2; [destruct Q2|].
      destruct Q2 as [<-|[]]. apply in_map_iff. exists (k2, v2). auto.
    + intros Hi. apply in_map_iff in Hi. destruct Hi as ([k v] & <- & Hi). cbn [fst snd]. destruct (r_at _ _ _ R _ _ Hi) as (n & Hn & Ha & _). destruct (r_ok _ _ _ R _ _ Hi) as (Hk & _).
      exists [Insert k v]. split; [|now left]. apply in_imap. exists (probe c k n), (new_elem c k v). split; auto. symmetry. apply copy_elem; auto. rewrite Z.add_0_l; symmetry; now apply probe_group.
Qed.

(** Resize with copying: from any state of any run, and any new size and split of
    the bits that can hold the keys and values, the copying threads - in every
    interleaving - are all told "inserted" (so K2_CHECK_EQ holds), and when they
    are done the new hash holds the same map. *)
Definition done (s : st) : Prop := forall t th, rd (threads s) t = Some th -> todo th = [].

Lemma seq_fresh l : forall m m', sequential m l m' ->
  NoDup (map e_op l) -> (forall e, In e l -> exists k v, e_op e = Insert k v) ->
  (forall e e', In e l -> In e' l -> op_key (e_op e) = op_key (e_op e') -> e_op e = e_op e') ->
  (forall e, In e l -> lookup m (op_key (e_op e)) = None) ->
  (forall e, In e l -> e_res e = Won) /\
  forall k, lookup m' k = match lookup m k with Some v => Some v | None => lookup m' k end /\
    (lookup m k = None -> forall v, lookup m' k = Some v <-> In (Insert k v) (map e_op l)).
Proof.
  induction l as [|e l IH]; intros m m' S ND HI HU HN; inversion S as [|? ? ? m1 ? S1 S2]; subst.
  - split; [intros e []|]. intros k. split; [now destruct (lookup m' k)|]. intros L v. rewrite L. split; [discriminate|intros []].
  - destruct (HI e (or_introl eq_refl)) as (k & v & E). cbn [map] in ND. inversion ND; subst. rewrite E in S1. cbn in S1.
    pose proof (HN e (or_introl eq_refl)) as L. rewrite E in L. cbn in L. rewrite L in S1. injection S1 as <- Hr.
    assert (HN1 : forall e', In e' l -> op_key (e_op e') <> k).
    { intros e' He' Q. apply H1. assert (E' : e_op e = e_op e') by (apply HU; [now left|now right|rewrite E; auto]). rewrite E'. now apply in_map. }
    destruct (IH _ _ S2) as (A & B); auto.
    + intros e' He'. apply HI. now right.
    + intros e1 e2 H1' H2'. apply HU; now right.
    + intros e' He'. cbn. specialize (HN1 e' He'). replace (k =? op_key (e_op e')) with false by lia. apply HN. now right.
    + split; [intros e' [<-|He']; auto|]. intros k'. destruct (B k') as (B1 & B2). cbn [lookup] in B1, B2. destruct (k =? k') eqn:Q.
      * assert (k = k') by lia. subst k'. split; [rewrite L; reflexivity|]. intros _ v'. rewrite B1. cbn [map]. split.
        -- intros [= ->]. left. auto.
        -- intros [H'|H']; [congruence|]. exfalso. apply in_map_iff in H'. destruct H' as (e' & E' & He'). apply (HN1 e' He'). now rewrite E'.
      * split; [exact B1|]. intros L' v'. rewrite (B2 L' v'). cbn [map]. split; [now right|]. intros [H'|H']; auto. rewrite E in H'. injection H' as -> ->. lia.
Qed.

Theorem C47_resize c progs sched s c' sched' s' :
  cfg_ok c -> Forall (Forall (op_ok c)) progs ->
  run c sched (init c progs) = Some s ->
  cfg_ok c' -> Forall (Forall (op_ok c')) progs ->
  run c' sched' (init c' (copy_progs c (data s))) = Some s' -> done s' ->
  (forall e, In e (log s') -> e_res e = Won) /\
  forall m m', sequential [] (log s) m -> sequential [] (log s') m' ->
    forall k, lookup m' k = lookup m k.
Proof.
  intros OK F H OK' F' H' Hd.
  pose proof (run_inv c OK progs sched [] _ _ (inv_init c OK progs F) H) as (HL & (m & R & S) & HE & HT).
  pose proof (rep_contents c (data s) m OK R) as PM.
  set (cp := copy_progs c (data s)) in *.
  assert (MI : forall k v, In (k, v) m -> key_ok c' k /\ value_ok c' v).
  { intros k v Hi. destruct (sequential_In _ _ _ _ _ S Hi) as [[]|(e & E1 & E2)]. destruct (HE e E1) as (p & P1 & P2).
    rewrite Forall_forall in F'. specialize (F' p (rd_In _ _ _ P1)). rewrite Forall_forall in F'. specialize (F' _ P2). now rewrite E2 in F'. }
  assert (FC : Forall (Forall (op_ok c')) cp).
  { apply Forall_forall. intros p Hp. apply Forall_forall. intros o Ho.
    assert (Hi : In o (concat cp)) by (apply in_concat; eauto). eapply Permutation_in in Hi; [|exact PM].
    apply in_map_iff in Hi. destruct Hi as ([k v] & <- & Hi). cbn. now apply MI. }
  pose proof (run_inv c' OK' cp sched' [] _ _ (inv_init c' OK' cp FC) H') as (HL' & (m1 & R' & S') & HE' & HT').
  (* the calls made are exactly the pairs of the map *)
  assert (PL : Permutation (map e_op (log s')) (concat cp)).
  { assert (EC : forall t p, rd cp t = Some p -> calls_of t (log s') = p).
    { intros t p Hp. destruct (rd_in_bound (threads s') t) as (th & Ht); [rewrite HL'; eapply rd_Some_bound; eauto|].
      pose proof (t_prog _ _ _ _ _ _ (HT' t th Ht)) as E. rewrite (Hd t th Ht), app_nil_r in E. congruence. }
    assert (EB : forall e, In e (log s') -> 0 <= e_thread e < zlen cp).
    { intros e He. destruct (HE' e He) as (p & P1 & _). eapply rd_Some_bound; eauto. }
    revert EC EB. generalize (log s') as l. generalize cp. clear. intros ll. induction ll as [|p ll IH] using rev_ind; intros l EC EB.
    - destruct l as [|e l]; [constructor|]. specialize (EB e (or_introl eq_refl)). change (zlen (@nil (list op))) with 0 in EB. lia.
    - rewrite concat_app. cbn [concat]. rewrite app_nil_r.
      assert (SP : forall f : event -> bool, Permutation l (filter f l ++ filter (fun e => negb (f e)) l)).
      { intros f. clear. induction l as [|e l IH]; [constructor|]. cbn [filter]. destruct (f e); cbn [negb app].
        - now constructor.
        - now apply Permutation_cons_app. }
      pose proof (SP (fun e => negb (e_thread e =? zlen ll))) as SPn. etransitivity; [apply Permutation_map, SPn|]. rewrite map_app. apply Permutation_app.
      + apply IH.
        * intros t q Hq. rewrite <- (EC t q) by (rewrite rd_app_l; auto; apply rd_Some_bound in Hq; lia). unfold calls_of. f_equal.
          apply rd_Some_bound in Hq. clear -Hq. induction l as [|e l IH]; [reflexivity|]. cbn [filter]. destruct (e_thread e =? zlen ll) eqn:E1; cbn [negb filter].
          -- rewrite IH. replace (e_thread e =? t) with false by lia. reflexivity.
          -- destruct (e_thread e =? t); now rewrite IH.
        * intros e He. apply filter_In in He. destruct He as (He & Hn). specialize (EB e He). rewrite zlen_app in EB. change (zlen [p]) with 1 in EB. lia.
      + rewrite <- (EC (zlen ll) p) by (rewrite rd_app_r by lia; replace (zlen ll - zlen ll) with 0 by lia; reflexivity).
        unfold calls_of. assert (Eq : filter (fun e => negb (negb (e_thread e =? zlen ll))) l = filter (fun e => e_thread e =? zlen ll) l) by (apply filter_ext; intros a; apply negb_involutive). rewrite Eq. reflexivity. }
  assert (NDm : NoDup (map (fun p => Insert (fst p) (snd p)) m)).
  { eapply FinFun.Injective_map_NoDup; [|eapply NoDup_map_inv, (r_nd _ _ _ R)]. intros [a b] [a' b']; cbn; congruence. }
  assert (PA : Permutation (map e_op (log s')) (map (fun p => Insert (fst p) (snd p)) m)) by (etransitivity; eauto).
  assert (IN : forall e, In e (log s') -> exists k v, e_op e = Insert k v /\ In (k, v) m).
  { intros e He. assert (Hi : In (e_op e) (map e_op (log s'))) by now apply in_map. eapply Permutation_in in Hi; [|exact PA].
    apply in_map_iff in Hi. destruct Hi as ([k v] & E & Hi). exists k, v. split; auto. }
  destruct (seq_fresh _ _ _ S') as (A & B).
  - eapply Permutation_NoDup; [apply Permutation_sym, PA|exact NDm].
  - intros e He. destruct (IN e He) as (k & v & E & _). eauto.
  - intros e e' He He'. destruct (IN e He) as (k & v & -> & Hi). destruct (IN e' He') as (k' & v' & -> & Hi'). cbn. intros ->.
    f_equal. assert (lookup m k' = Some v) by (apply In_lookup; auto; apply R). assert (lookup m k' = Some v') by (apply In_lookup; auto; apply R). congruence.
  - intros e He. reflexivity.
  - split; auto. intros m2 m2' Q Q' k.
    assert (DET : forall l a b b', sequential a l b -> sequential a l b' -> b = b').
    { clear. intros l. induction l as [|e l IH]; intros a b b' X Y; inversion X as [|? ? ? a1 ? X1 X2]; inversion Y as [|? ? ? a2 ? Y1 Y2]; subst; auto. assert (a1 = a2) by congruence. subst. eauto. }
    rewrite (DET _ _ _ _ Q S), (DET _ _ _ _ Q' S'). destruct (B k) as (_ & B2). specialize (B2 eq_refl).
    assert (CH : forall v, lookup m1 k = Some v <-> lookup m k = Some v).
    { intros v. rewrite B2. split; intros X.
      - eapply Permutation_in in X; [|exact PA]. apply in_map_iff in X. destruct X as ([k' v'] & [= -> ->] & X). apply In_lookup; auto. apply R.
      - eapply Permutation_in; [apply Permutation_sym, PA|]. apply in_map_iff. exists (k, v). split; auto. now apply lookup_In. }
    destruct (lookup m1 k) as [v|] eqn:E1.
    + symmetry. now apply CH.
    + destruct (lookup m k) as [v|] eqn:E2; auto. destruct (CH v) as (_ & X). now apply X.
Qed.
Print Assumptions C47_resize.

(** A concrete run: 128 buckets, 60-bit keys stored in 58 bits.  Threads 0 and 1
    insert key 5 with different values, thread 2 inserts 133 (same first bucket)
    and looks up 5.  Thread 0 reads the empty bucket first, but thread 1 wins the
    compare-and-swap. *)
Definition ex_c := mkCfg 7 58 2.
Definition ex_progs := [[Insert 5 1; Find 133]; [Insert 5 2]; [Insert 133 3; Find 5]].
Definition ex_sched := [0; 0; 1; 1; 1; 0; 2; 2; 2; 2; 0; 0; 0; 2; 2].
Example C47_ex :
  cfg_ok ex_c /\ Forall (Forall (op_ok ex_c)) ex_progs /\ roomy ex_c ex_progs /\
  exists s, run ex_c ex_sched (init ex_c ex_progs) = Some s /\ done s /\
    log s = [mkE 1 (Insert 5 2) Won; mkE 0 (Insert 5 1) (Lost 2); mkE 2 (Insert 133 3) Won;
             mkE 0 (Find 133) (Found 3); mkE 2 (Find 5) (Found 2)] /\
    rd (data s) 5 = Some (2 * 2 ^ 58 + 1) /\ rd (data s) 33 = Some (3 * 2 ^ 58 + 33).
Proof.
  split; [unfold cfg_ok; cbn; lia|]. split; [repeat constructor; vm_compute; intuition discriminate|]. split.
  - intros r ks ND H. change (group_size ex_c) with 32.
    assert (incl ks [5; 133]).
    { intros k Hk. destruct (H k Hk) as (_ & p & v & P1 & P2). cbn in P1. destruct P1 as [<-|[<-|[<-|[]]]]; cbn in P2; intuition (try discriminate); injection H0 as <- _; cbn; auto. }
    pose proof (NoDup_incl_length ND H0). cbn in H1. unfold zlen. lia.
  - eexists. split; [vm_compute; reflexivity|]. split; [|split; [reflexivity|split; reflexivity]].
    intros t th Ht. apply rd_In in Ht. cbn in Ht. intuition (subst; auto).
Qed.

(** The documentation of Insert only rules out that key AND value have all bits
    set.  A key with all bits set and another value is nevertheless refused by an
    empty hash, with an old value nobody has stored; the constructor's comment
    (keys below 2^num_key_bits - 1), which [key_ok] follows, is the right one. *)
Theorem C47_all_ones_key_refuted :
  exists s, run (mkCfg 7 32 0) [0; 0] (init (mkCfg 7 32 0) [[Insert (2 ^ 32 - 1) 7]]) = Some s /\
    log s = [mkE 0 (Insert (2 ^ 32 - 1) 7) (Lost (2 ^ 32 - 1))].
Proof. eexists. split; vm_compute; reflexivity. Qed.
Print Assumptions C47_all_ones_key_refuted.
