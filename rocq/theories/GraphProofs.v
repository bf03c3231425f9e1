From Coq Require Import ZArith List Lia Bool Permutation.
From Coq Require Import ZifyBool ZifyNat.
From Verif Require Import Base RaggedModel RaggedSpec RaggedProofs FsaSpec FsaLemmas FsaOpsModel FsaOpsProofs FstSpec GraphModel.
Import ListNotations.
Open Scope Z_scope.

(** ** Shapes *)

Lemma splits_of_map_map {A B} (g : A -> B) (ll : list (list A)) : splits_of (map (map g) ll) = splits_of ll.
Proof. unfold splits_of. rewrite map_map. f_equal. apply map_ext. intros; apply zlen_map. Qed.
Lemma vec_of_eq {B} (ts : list (list (list (arc * B)))) :
  vec_of ts = mkVec (splits_of ts) (splits_of (concat ts)) (map fst (concat (concat ts))).
Proof.
  unfold vec_of, flat_vec. rewrite splits_of_map_map, <- concat_map, splits_of_map_map, <- concat_map. reflexivity.
Qed.

Lemma mapM_zrange {A} (l : list A) body : (forall i x, rd l i = Some x -> body i = Some x) ->
  mapM body (zrange (zlen l)) = Some l.
Proof.
  intros H. pose proof (zlen_nonneg l).
  destruct l as [|d l']; [reflexivity|]. set (l := d :: l') in *.
  rewrite (mapM_Some_map body (fun i => match rd l i with Some x => x | None => d end)).
  - f_equal. symmetry. apply tab_rd. intros i Hi. destruct (rd_in_bound l i Hi) as (x & ->). reflexivity.
  - intros i Hi. apply in_zrange in Hi. destruct (rd_in_bound l i Hi) as (x & E). rewrite E. now apply H.
Qed.

(** Facts about position (k, r, j) of a doubly nested list. *)
Lemma pos_facts {A} (ts : list (list (list A))) k t r st : rd ts k = Some t -> rd t r = Some st ->
  rd (ids_of ts) (off1 ts k + r) = Some k /\ rd (splits_of ts) k = Some (off1 ts k) /\
  rd (splits_of ts) (k + 1) = Some (off1 ts k + zlen t) /\
  rd (splits_of (concat ts)) (off1 ts k + r) = Some (off1 (concat ts) (off1 ts k + r)) /\
  rd (concat ts) (off1 ts k + r) = Some st.
Proof.
  intros Hk Hr. pose proof (rd_Some_bound _ _ _ Hk). pose proof (rd_Some_bound _ _ _ Hr).
  destruct (rd_concat_off ts k t r st Hk Hr) as (E1 & E2). pose proof (rd_Some_bound _ _ _ E1).
  split; auto. split; [apply rd_splits_off; lia|]. split.
  { rewrite <- (off1_next _ _ _ Hk). apply rd_splits_off; lia. }
  split; auto. apply rd_splits_off. lia.
Qed.

Lemma build_vec_ok {B} (ts : list (list (list (arc * B)))) narcs arc_at :
  (forall k t r st, rd ts k = Some t -> rd t r = Some st -> narcs (ids_of ts) (off1 ts k + r) = Some (zlen st)) ->
  (forall k t r st j x, rd ts k = Some t -> rd t r = Some st -> rd st j = Some x ->
     rd (ids_of (concat ts)) (off1 (concat ts) (off1 ts k + r) + j) = Some (off1 ts k + r) ->
     arc_at (ids_of ts) (splits_of (concat ts)) (ids_of (concat ts)) (off1 (concat ts) (off1 ts k + r) + j) = Some x) ->
  build_vec (splits_of ts) narcs arc_at = Some (vec_of ts, map snd (concat (concat ts))).
Proof.
  intros H1 H2. unfold build_vec. pose proof (zlen_nonneg ts).
  rewrite zlen_splits_of. replace (zlen ts + 1 - 1) with (zlen ts) by lia.
  assert (L : forall {A} (ll : list (list A)), rd (splits_of ll) (zlen ll) = Some (zlen (concat ll))).
  { intros A ll. pose proof (zlen_nonneg ll). rewrite rd_splits_of by lia. rewrite firstn_all2; auto. unfold zlen. lia. }
  rewrite L, row_ids_of_splits.
  assert (E : mapM (narcs (ids_of ts)) (zrange (zlen (concat ts))) = Some (map zlen (concat ts))).
  { rewrite <- (zlen_map zlen (concat ts)). apply mapM_zrange. intros i n Hi. rewrite rd_map in Hi.
    destruct (rd (concat ts) i) as [st|] eqn:Es; [|discriminate]. injection Hi as <-.
    destruct (rd_concat_inv _ _ _ Es) as (k & t & r & K1 & K2 & -> & K4). eauto. }
  rewrite E. fold (splits_of (concat ts)). rewrite L, row_ids_of_splits.
  rewrite (mapM_zrange (concat (concat ts))).
  - now rewrite vec_of_eq.
  - intros i x Hi. destruct (rd_concat_inv _ _ _ Hi) as (s & st & j & S1 & S2 & -> & S4).
    destruct (rd_concat_inv _ _ _ S1) as (k & t & r & K1 & K2 & -> & K4). eauto.
Qed.

Lemma off1_tab_sizes {A B} (ll : list (list A)) (g : list A -> list B) (a b : Z) :
  (forall l, In l ll -> zlen (g l) = a * zlen l + b) -> forall k, 0 <= k <= zlen ll ->
  off1 (map g ll) k = a * off1 ll k + b * k.
Proof.
  intros H k Hk. unfold off1. rewrite firstn_map.
  assert (E : zlen (firstn (Z.to_nat k) ll) = k). { unfold zlen. rewrite firstn_length. unfold zlen in Hk. lia. }
  rewrite <- E at 3. assert (H' : forall l, In l (firstn (Z.to_nat k) ll) -> zlen (g l) = a * zlen l + b).
  { intros l Hl. apply H. rewrite <- (firstn_skipn (Z.to_nat k) ll). apply in_or_app. now left. }
  clear E. induction (firstn (Z.to_nat k) ll) as [|l t IH]; cbn [map concat].
  - change (zlen (@nil B)) with 0. change (zlen (@nil A)) with 0. change (zlen (@nil (list A))) with 0. lia.
  - rewrite !zlen_app, zlen_cons, IH, (H' l); [lia|now left|]. intros; apply H'; now right.
Qed.

Lemma splits_map_sizes {A B} (ll : list (list A)) (g : list A -> list B) (a b : Z) :
  (forall l, In l ll -> zlen (g l) = a * zlen l + b) ->
  splits_of (map g ll) = imap (fun i x => a * x + b * i) 0 (splits_of ll).
Proof.
  intros H. apply list_ext_rd.
  { now rewrite zlen_imap, !zlen_splits_of, zlen_map. }
  intros i Hi. rewrite zlen_splits_of, zlen_map in Hi. rewrite rd_imap.
  rewrite !rd_splits_off by (rewrite ?zlen_map; lia). cbn [option_map]. rewrite (off1_tab_sizes ll g a b) by (auto; lia). reflexivity.
Qed.

(** ** Paths of transducers *)
Lemma tpath_inv {B} (T : list (arc * B)) s p t : tpath T s p t ->
  (p = [] /\ s = t) \/
  exists a p', p = a :: p' /\ In a T /\ src (fst a) = s /\ tpath T (dst (fst a)) p' t.
Proof. intros H; inversion H; subst; eauto 10. Qed.
Lemma tpath_step {B} (T : list (arc * B)) s a p t : In a T -> src (fst a) = s -> tpath T (dst (fst a)) p t -> tpath T s (a :: p) t.
Proof. intros H <- H1; now constructor. Qed.
Lemma tpath_app {B} (T : list (arc * B)) s p m q t : tpath T s p m -> tpath T m q t -> tpath T s (p ++ q) t.
Proof. induction 1; simpl; auto. intros; constructor; auto. Qed.

Lemma tpath_path {B} (T : list (arc * B)) s p t : tpath T s p t -> path (map fst T) s (map fst p) t.
Proof. induction 1; cbn; constructor; auto. now apply in_map. Qed.

Lemma in_concat_tab {A} n (g : Z -> list A) x : In x (concat (tab n g)) <-> exists s, 0 <= s < n /\ In x (g s).
Proof.
  rewrite in_concat. split.
  - intros (l & Hl & Hx). unfold tab in Hl. apply in_map_iff in Hl as (s & <- & Hs). apply in_zrange in Hs. eauto.
  - intros (s & Hs & Hx). exists (g s). split; auto. unfold tab. apply in_map. now apply in_zrange.
Qed.

Lemma rd_tab_Some {A} n (v : Z -> A) i x : rd (tab n v) i = Some x -> 0 <= i < n /\ x = v i.
Proof.
  intros H. pose proof (rd_Some_bound _ _ _ H) as B.
  assert (0 <= n) by (unfold tab, zlen in B; rewrite map_length, zrange_length in B; lia).
  rewrite zlen_tab in B by auto. rewrite rd_tab in H by auto. split; auto. congruence.
Qed.

(** ** CtcGraphs *)
Definition at_or (syms : list Z) (k : Z) : Z := match rd syms k with Some x => x | None => -1 end.
Definition ctc_state (modified : bool) (syms : list Z) (s : Z) : list tarc :=
  let k := s / 2 in
  let cur := at_or syms k in
  let nxt := at_or syms (k + 1) in
  if s mod 2 =? 0 then [(mkArc s s 0 0, 0); (mkArc s (s + 1) cur 0, cur)]
  else if k =? zlen syms then []
  else [(mkArc s (s + 1) 0 0, 0); (mkArc s s cur 0, 0)] ++
       (if (cur =? nxt) && negb modified then [] else [(mkArc s (s + 2) nxt 0, nxt)]).
Definition ctc_nested (modified : bool) (syms : list Z) : nfst :=
  tab (2 * zlen syms + 2) (ctc_state modified syms).

Lemma zlen_ctc_nested m syms : zlen (ctc_nested m syms) = 2 * zlen syms + 2.
Proof. unfold ctc_nested. pose proof (zlen_nonneg syms). apply zlen_tab. lia. Qed.

Lemma at_or_concat (y : list (list Z)) k syms j : rd y k = Some syms -> 0 <= j < zlen syms ->
  rd (concat y) (off1 y k + j) = Some (at_or syms j).
Proof.
  intros H Hj. unfold at_or. destruct (rd_in_bound syms j Hj) as (x & E). rewrite E.
  apply (rd_concat_off y k syms j x H E).
Qed.
Lemma at_or_end syms j : zlen syms <= j -> at_or syms j = -1.
Proof. intros H. unfold at_or. replace (rd syms j) with (@None Z); auto. symmetry. apply rd_None. lia. Qed.

Lemma mod2 s : s mod 2 = 0 \/ s mod 2 = 1.
Proof. pose proof (Z.mod_pos_bound s 2). lia. Qed.

Lemma ctc_graphs_ok modified (y : list (list Z)) : ~ In (-1) (concat y) ->
  ctc_graphs (splits_of y) (concat y) modified =
  Some (vec_of (map (ctc_nested modified) y), map snd (concat (concat (map (ctc_nested modified) y)))).
Proof.
  intros Hn. unfold ctc_graphs. set (ts := map (ctc_nested modified) y).
  assert (Hsz : forall l, In l y -> zlen (ctc_nested modified l) = 2 * zlen l + 2) by (intros; apply zlen_ctc_nested).
  rewrite zlen_splits_of. replace (zlen y + 1 - 1) with (zlen y) by lia.
  assert (E : mapM (fun f => a <- rd (splits_of y) f;; b <- rd (splits_of y) (f + 1);; Some ((b - a) * 2 + 2)) (zrange (zlen y)) =
              Some (map zlen ts)).
  { rewrite <- (zlen_map (fun l => zlen (ctc_nested modified l)) y). unfold ts. rewrite map_map. apply mapM_zrange.
    intros i x Hx. rewrite rd_map in Hx. destruct (rd y i) as [l|] eqn:El; [|discriminate]. injection Hx as <-.
    pose proof (rd_Some_bound _ _ _ El). rewrite !rd_splits_off by lia. rewrite (off1_next _ _ _ El), zlen_ctc_nested. f_equal. lia. }
  rewrite E. fold (splits_of ts).
  assert (Off : forall k, 0 <= k <= zlen y -> off1 ts k = 2 * off1 y k + 2 * k).
  { intros k Hk. unfold ts. now apply off1_tab_sizes. }
  assert (Get : forall k t r st, rd ts k = Some t -> rd t r = Some st ->
     exists l, rd y k = Some l /\ t = ctc_nested modified l /\ 0 <= k < zlen y /\ 0 <= r < 2 * zlen l + 2 /\ st = ctc_state modified l r /\
       (off1 ts k + r) / 2 - k = off1 y k + r / 2 /\ (off1 ts k + r) mod 2 = r mod 2 /\
       rd (splits_of y) (k + 1) = Some (off1 y k + zlen l)).
  { intros k t r st Hk Hr. unfold ts in Hk. rewrite rd_map in Hk. destruct (rd y k) as [l|] eqn:El; [|discriminate].
    injection Hk as <-. apply rd_tab_Some in Hr as (Hr & ->). pose proof (rd_Some_bound _ _ _ El).
    exists l. rewrite Off by lia. replace (2 * off1 y k + 2 * k + r) with (r + (off1 y k + k) * 2) by lia.
    rewrite Z.div_add, Z.mod_add by lia. repeat (split; [first [reflexivity|lia|auto]|]).
    rewrite <- (off1_next _ _ _ El). apply rd_splits_off. lia. }
  assert (NN : forall k l j, rd y k = Some l -> 0 <= j < zlen l -> at_or l j <> -1).
  { intros k l j Hk Hj E1. apply Hn. rewrite <- E1. eapply rd_In. apply (at_or_concat y k l j Hk Hj). }
  apply (build_vec_ok ts).
  - intros k t r st Hk Hr. destruct (pos_facts ts k t r st Hk Hr) as (P1 & P2 & P3 & P4 & P5).
    destruct (Get k t r st Hk Hr) as (l & G1 & -> & G2 & G3 & -> & G4 & G5 & G6).
    unfold ctc_num_arcs. rewrite P1, G4, G5. unfold ctc_state. destruct (r mod 2 =? 0) eqn:Em; [reflexivity|].
    rewrite G6. pose proof (Z.div_mod r 2). destruct (mod2 r); [lia|].
    destruct (off1 y k + r / 2 =? off1 y k + zlen l) eqn:Ef.
    { replace (r / 2 =? zlen l) with true by lia. reflexivity. }
    replace (r / 2 =? zlen l) with false by lia.
    assert (0 <= r / 2 < zlen l) by lia.
    destruct modified.
    { cbn [negb]. rewrite andb_false_r. reflexivity. }
    rewrite (at_or_concat y k l _ G1) by lia.
    replace (if off1 y k + r / 2 + 1 =? off1 y k + zlen l then Some (-1) else rd (concat y) (off1 y k + r / 2 + 1))
      with (Some (at_or l (r / 2 + 1))).
    2:{ destruct (off1 y k + r / 2 + 1 =? off1 y k + zlen l) eqn:E1.
        - rewrite at_or_end by lia. reflexivity.
        - replace (off1 y k + r / 2 + 1) with (off1 y k + (r / 2 + 1)) by lia. rewrite (at_or_concat y k l _ G1); auto. lia. }
    assert (N := NN k l (r / 2) G1 ltac:(lia)). replace (at_or l (r / 2) =? -1) with false by lia. cbn [negb andb].
    rewrite andb_true_r. destruct (at_or l (r / 2) =? at_or l (r / 2 + 1)); reflexivity.
  - intros k t r st j x Hk Hr Hj HI. destruct (pos_facts ts k t r st Hk Hr) as (P1 & P2 & P3 & P4 & P5).
    destruct (Get k t r st Hk Hr) as (l & G1 & -> & G2 & G3 & -> & G4 & G5 & G6).
    unfold ctc_arc. rewrite HI, P1, P2, P4, G4, G5, G6.
    replace (off1 ts k + r - off1 ts k) with r by lia.
    set (o := off1 (concat ts) (off1 ts k + r)). replace (o + j - o) with j by lia.
    pose proof (rd_Some_bound _ _ _ Hj) as Bj. unfold ctc_state in Hj, Bj.
    pose proof (Z.div_mod r 2). destruct (r mod 2 =? 0) eqn:Em; cbn [negb].
    + assert (0 <= r / 2 <= zlen l) by lia.
      replace (if off1 y k + zlen l =? off1 y k + r / 2 then Some (-1) else rd (concat y) (off1 y k + r / 2))
        with (Some (at_or l (r / 2))).
      2:{ destruct (off1 y k + zlen l =? off1 y k + r / 2) eqn:E1.
          - rewrite at_or_end by lia. reflexivity.
          - rewrite (at_or_concat y k l _ G1); auto. lia. }
      change (zlen [_; _]) with 2 in Bj.
      replace (j <? 2) with true by lia.
      assert (EE : (if (off1 y k + zlen l =? off1 y k + r / 2) && negb (j =? 0) then -1 else if j =? 0 then 0 else at_or l (r / 2)) =
              if j =? 0 then 0 else at_or l (r / 2)).
      { destruct (off1 y k + zlen l =? off1 y k + r / 2) eqn:E1; auto. destruct (j =? 0); auto. cbn. rewrite at_or_end by lia. reflexivity. }
      rewrite EE. destruct (Z.eq_dec j 0) as [->|].
      * rewrite rd_cons_0 in Hj. injection Hj as <-. reflexivity.
      * replace j with 1 in * by lia. injection Hj as <-. reflexivity.
    + destruct (mod2 r); [lia|].
      destruct (r / 2 =? zlen l) eqn:Ef; [change (zlen (@nil tarc)) with 0 in Bj; lia|].
      assert (0 <= r / 2 < zlen l) by lia.
      replace (off1 y k + zlen l =? off1 y k + r / 2) with false by lia. cbn [negb].
      rewrite (at_or_concat y k l _ G1) by lia.
      replace (if off1 y k + r / 2 + 1 =? off1 y k + zlen l then Some (-1) else rd (concat y) (off1 y k + r / 2 + 1))
        with (Some (at_or l (r / 2 + 1))).
      2:{ destruct (off1 y k + r / 2 + 1 =? off1 y k + zlen l) eqn:E1.
          - rewrite at_or_end by lia. reflexivity.
          - replace (off1 y k + r / 2 + 1) with (off1 y k + (r / 2 + 1)) by lia. rewrite (at_or_concat y k l _ G1); auto. lia. }
      destruct ((at_or l (r / 2) =? at_or l (r / 2 + 1)) && negb modified).
      * change (zlen _) with 2 in Bj. replace (j <? 2) with true by lia. destruct (Z.eq_dec j 0) as [->|].
        -- injection Hj as <-. reflexivity.
        -- replace j with 1 in * by lia. injection Hj as <-. reflexivity.
      * change (zlen _) with 3 in Bj. destruct (Z.eq_dec j 0) as [->|]; [injection Hj as <-; reflexivity|].
        destruct (Z.eq_dec j 1) as [->|]; [injection Hj as <-; reflexivity|].
        replace j with 2 in * by lia. injection Hj as <-. cbn [Z.eqb].
        replace (2 =? 0) with false by lia. replace (2 =? 1) with false by lia. replace (2 =? 2) with true by lia.
        destruct (off1 y k + r / 2 + 1 =? off1 y k + zlen l) eqn:E1; auto. rewrite at_or_end by lia. reflexivity.
Qed.

(** ** What the CTC graphs accept *)

(** What remains to be produced ([y]) while reading [x] after the symbol [prev];
    [m] selects the modified topology. *)
Fixpoint crel (m : bool) (prev : Z) (x y : list Z) : Prop :=
  match x with
  | [] => y = []
  | a :: x' =>
      if a =? 0 then crel m 0 x' y
      else (a = prev /\ crel m a x' y) \/
           ((m = true \/ a <> prev) /\ exists y', y = a :: y' /\ crel m a x' y')
  end.

Lemma merge_runs_ne a x : exists t, merge_runs (a :: x) = a :: t.
Proof.
  revert a; induction x as [|b x IH]; intros a; cbn [merge_runs]; eauto.
  destruct (a =? b) eqn:E; eauto. replace a with b by lia. apply IH.
Qed.
Lemma merge_runs_cons a x : merge_runs (a :: x) = match x with b :: _ => if a =? b then merge_runs x else a :: merge_runs x | [] => [a] end.
Proof. reflexivity. Qed.
Lemma crel_collapse x : forall prev y, crel false prev x y <->
  strip (merge_runs (prev :: x)) = (if prev =? 0 then [] else [prev]) ++ y.
Proof.
  induction x as [|a x IH]; intros prev y.
  - cbn. destruct (prev =? 0); cbn; split; intros H; subst; auto; try now injection H.
  - rewrite merge_runs_cons. cbn [crel]. destruct (a =? 0) eqn:Ea.
    + rewrite IH. replace a with 0 by lia. replace (0 =? 0) with true by lia. cbn [app].
      destruct (prev =? 0) eqn:Ep; [reflexivity|]. cbn [strip filter]. fold (strip (merge_runs (0 :: x))). rewrite Ep. cbn [negb app].
      split; [intros ->; reflexivity|]. intros H. now injection H.
    + destruct (prev =? a) eqn:Ep.
      * replace prev with a by lia. rewrite Ea. rewrite IH, Ea. split; [|tauto].
        intros [(_ & H)|([|] & _)]; auto; [discriminate|lia].
      * cbn [strip filter]. fold (strip (merge_runs (a :: x))). split.
        -- intros [(? & _)|(_ & y' & -> & H)]; [lia|]. rewrite IH, Ea in H. rewrite H. destruct (prev =? 0); reflexivity.
        -- intros H. right. split; [right; lia|].
           assert (H' : strip (merge_runs (a :: x)) = y).
           { destruct (prev =? 0); cbn [negb app] in H; [exact H|now injection H]. }
           destruct (merge_runs_ne a x) as (t & Et). exists (strip t). rewrite IH, Ea. rewrite Et in H' |- *.
           cbn [strip filter] in H' |- *. rewrite Ea in H' |- *. cbn [negb app] in *. split; auto.
Qed.
Lemma crel_false_0 x y : crel false 0 x y <-> collapse x = y.
Proof.
  rewrite crel_collapse. replace (0 =? 0) with true by lia. cbn [app]. unfold collapse.
  rewrite merge_runs_cons. destruct x as [|b x]; [reflexivity|]. destruct (0 =? b); reflexivity.
Qed.

Lemma strip_cons a l : strip (a :: l) = (if a =? 0 then [] else [a]) ++ strip l.
Proof. unfold strip. cbn. destruct (a =? 0); reflexivity. Qed.
Lemma strip_0 l : strip (0 :: l) = strip l. Proof. reflexivity. Qed.
Lemma strip_pos a l : a <> 0 -> strip (a :: l) = a :: strip l.
Proof. intros. rewrite strip_cons. replace (a =? 0) with false by lia. reflexivity. Qed.


(** while in a block of [prev] *)
Lemma crel_blocks x : forall prev y, crel true prev x y <->
  exists n x' y', x = repeat prev n ++ x' /\ blocks x' y' /\ y = y' /\ (prev = 0 -> n = 0%nat).
Proof.
  induction x as [|a x IH]; intros prev y.
  - cbn. split.
    + intros ->. exists 0%nat, [], []. split; auto. split; auto. exists []. split; [constructor|]. split; reflexivity.
    + intros (n & x' & y' & E & (bs & B1 & B2 & B3) & -> & _). symmetry in E. apply app_eq_nil in E as (_ & ->).
      subst y'. destruct bs as [|[c [|k]] bs]; auto; [inversion B1; cbn in *; lia|discriminate].
  - cbn [crel]. destruct (a =? 0) eqn:Ea.
    + assert (a = 0) by lia. subst a. rewrite IH. split.
      * intros (n & x' & y' & -> & (bs & B1 & B2 & B3) & -> & Hn). rewrite (Hn eq_refl). cbn [repeat app].
        exists 0%nat, (0 :: x'), y'. split; [reflexivity|]. split; auto. exists ((0, 1%nat) :: bs).
        split; [constructor; auto|]. subst x' y'. split; reflexivity.
      * intros (n & x' & y' & E & (bs & B1 & B2 & B3) & -> & Hn). destruct n as [|n].
        -- destruct bs as [|[c [|k]] bs]; [subst x'; discriminate|inversion B1; cbn in *; lia|].
           cbn in E, B2. rewrite B2 in E. clear x' B2. injection E as E1 E2. subst c. exists 0%nat, x, y'. split; [reflexivity|]. split; [|auto].
           destruct k as [|k].
           ++ exists bs. inversion B1; subst. split; auto.
           ++ exists ((0, S k) :: bs). inversion B1; subst. split; [constructor; auto; cbn; lia|]. split; reflexivity.
        -- exfalso. injection E as E _. specialize (Hn (eq_sym E)). discriminate.
    + split.
      * intros [(-> & H)|(_ & y1 & -> & H)].
        -- apply IH in H as (n & x' & y' & -> & B & -> & Hn). exists (S n), x', y'. split; [reflexivity|]. split; auto. split; auto. lia.
        -- apply IH in H as (n & x' & y' & -> & (bs & B1 & B2 & B3) & -> & Hn). exists 0%nat, (a :: repeat a n ++ x'), (a :: y').
           split; [reflexivity|]. split; [|split; auto]. exists ((a, S n) :: bs). split; [constructor; auto; cbn; lia|].
           subst. split; [reflexivity|]. cbn [map fst]. rewrite strip_cons, Ea. reflexivity.
      * intros (n & x' & y' & E & (bs & B1 & B2 & B3) & -> & Hn). destruct n as [|n].
        -- right. split; auto. destruct bs as [|[c [|k]] bs]; [subst x'; discriminate|inversion B1; cbn in *; lia|].
           cbn in E, B2. rewrite B2 in E. clear x' B2. injection E as E1 E2. subst c. subst y'. cbn [map fst]. rewrite strip_cons, Ea. cbn [app].
           exists (strip (map fst bs)). split; auto. apply IH. exists k, (concat (map (fun b => repeat (fst b) (snd b)) bs)), (strip (map fst bs)).
           split; auto. split; [exists bs; inversion B1; auto|]. split; auto. lia.
        -- left. injection E as E1 E2. split; auto. apply IH. subst prev. exists n, x', y'. split; auto. split; [exists bs; auto|]. split; auto. lia.
Qed.
Lemma crel_true_0 x y : crel true 0 x y <-> blocks x y.
Proof.
  rewrite crel_blocks. split.
  - intros (n & x' & y' & -> & B & -> & Hn). rewrite (Hn eq_refl). exact B.
  - intros B. exists 0%nat, x, y. auto.
Qed.

Section CtcLang.
  Variable m : bool.
  Variable syms : list Z.
  Hypothesis pos : Forall (fun a => 1 <= a) syms.
  Let n := zlen syms.
  Let T := concat (ctc_nested m syms).
  Let fin := 2 * n + 1.

  Definition prev_at (s : Z) : Z := if s mod 2 =? 0 then 0 else at_or syms (s / 2).
  Definition rest_at (s : Z) : list Z := skipn (Z.to_nat ((s + 1) / 2)) syms.

  Lemma at_or_pos k : 0 <= k < n -> 1 <= at_or syms k.
  Proof.
    intros H. unfold at_or. destruct (rd_in_bound syms k H) as (x & E). rewrite E.
    rewrite Forall_forall in pos. apply pos. eapply rd_In; eauto.
  Qed.
  Lemma skipn_at_or k : 0 <= k < n -> skipn (Z.to_nat k) syms = at_or syms k :: skipn (Z.to_nat (k + 1)) syms.
  Proof.
    intros H. unfold at_or. destruct (rd_in_bound syms k H) as (x & E). rewrite E.
    rewrite (rd_skipn syms k x E) at 1. rewrite skipn_app.
    assert (L : length (firstn (Z.to_nat k) syms) = Z.to_nat k) by (rewrite firstn_length; unfold n, zlen in H; lia).
    rewrite L, Nat.sub_diag. rewrite skipn_all2 by lia. reflexivity.
  Qed.
  Lemma skipn_end k : n <= k -> skipn (Z.to_nat k) syms = [].
  Proof. intros H. apply skipn_all2. unfold n, zlen in H. lia. Qed.

  Lemma even_facts k : (2 * k) mod 2 = 0 /\ (2 * k) / 2 = k /\ (2 * k + 1) / 2 = k.
  Proof. pose proof (Z.div_mod (2 * k) 2). pose proof (Z.div_mod (2 * k + 1) 2). pose proof (Z.mod_pos_bound (2 * k) 2). pose proof (Z.mod_pos_bound (2 * k + 1) 2). lia. Qed.
  Lemma odd_facts k : (2 * k + 1) mod 2 = 1 /\ (2 * k + 1) / 2 = k /\ (2 * k + 1 + 1) / 2 = k + 1.
  Proof. pose proof (Z.div_mod (2 * k + 1) 2). pose proof (Z.div_mod (2 * k + 1 + 1) 2). pose proof (Z.mod_pos_bound (2 * k + 1) 2). pose proof (Z.mod_pos_bound (2 * k + 1 + 1) 2). lia. Qed.
  Lemma prev_even k : prev_at (2 * k) = 0.
  Proof. unfold prev_at. destruct (even_facts k) as (-> & _). reflexivity. Qed.
  Lemma prev_odd k : prev_at (2 * k + 1) = at_or syms k.
  Proof. unfold prev_at. destruct (odd_facts k) as (-> & -> & _). reflexivity. Qed.
  Lemma rest_even k : rest_at (2 * k) = skipn (Z.to_nat k) syms.
  Proof. unfold rest_at. destruct (even_facts k) as (_ & _ & ->). reflexivity. Qed.
  Lemma rest_odd k : rest_at (2 * k + 1) = skipn (Z.to_nat (k + 1)) syms.
  Proof. unfold rest_at. destruct (odd_facts k) as (_ & _ & ->). reflexivity. Qed.

  Lemma ctc_in b : In b T <-> exists s, 0 <= s < fin + 1 /\ In b (ctc_state m syms s).
  Proof. unfold T, ctc_nested. rewrite in_concat_tab. unfold fin. fold n. split; intros (s & H); exists s; split; try tauto; lia. Qed.
  Lemma ctc_src s b : In b (ctc_state m syms s) -> src (fst b) = s.
  Proof.
    unfold ctc_state. destruct (s mod 2 =? 0).
    - intros [<-|[<-|[]]]; reflexivity.
    - destruct (s / 2 =? zlen syms); [intros []|]. intros H. apply in_app_or in H as [[<-|[<-|[]]]|H]; try reflexivity.
      destruct (_ && _); [destruct H|]. destruct H as [<-|[]]; reflexivity.
  Qed.
  (** arcs by kind of state *)
  Lemma arcs_even k b : 0 <= k <= n -> (In b T /\ src (fst b) = 2 * k) <->
    b = (mkArc (2 * k) (2 * k) 0 0, 0) \/ b = (mkArc (2 * k) (2 * k + 1) (at_or syms k) 0, at_or syms k).
  Proof.
    intros Hk. rewrite ctc_in. destruct (even_facts k) as (E1 & E2 & _). split.
    - intros ((s & Hs & Hb) & E). rewrite (ctc_src _ _ Hb) in E. subst s. unfold ctc_state in Hb. rewrite E1, E2 in Hb.
      destruct Hb as [<-|[<-|[]]]; auto.
    - intros H. split; [|destruct H as [->| ->]; reflexivity]. exists (2 * k). split; [unfold fin; lia|].
      unfold ctc_state. rewrite E1, E2. change (0 =? 0) with true. cbv iota. destruct H as [->| ->]; [left|right; left]; reflexivity.
  Qed.
  Lemma arcs_odd k b : 0 <= k < n -> (In b T /\ src (fst b) = 2 * k + 1) <->
    b = (mkArc (2 * k + 1) (2 * k + 2) 0 0, 0) \/ b = (mkArc (2 * k + 1) (2 * k + 1) (at_or syms k) 0, 0) \/
    (b = (mkArc (2 * k + 1) (2 * k + 3) (at_or syms (k + 1)) 0, at_or syms (k + 1)) /\ (m = true \/ at_or syms (k + 1) <> at_or syms k)).
  Proof.
    intros Hk. rewrite ctc_in. destruct (odd_facts k) as (E1 & E2 & _).
    assert (ES : ctc_state m syms (2 * k + 1) = [(mkArc (2 * k + 1) (2 * k + 2) 0 0, 0); (mkArc (2 * k + 1) (2 * k + 1) (at_or syms k) 0, 0)] ++
       (if (at_or syms k =? at_or syms (k + 1)) && negb m then [] else [(mkArc (2 * k + 1) (2 * k + 3) (at_or syms (k + 1)) 0, at_or syms (k + 1))])).
    { unfold ctc_state. rewrite E1, E2. fold n. replace (k =? n) with false by lia. cbn [Z.eqb].
      replace (2 * k + 1 + 1) with (2 * k + 2) by lia. replace (2 * k + 1 + 2) with (2 * k + 3) by lia. reflexivity. }
    split.
    - intros ((s & Hs & Hb) & E). rewrite (ctc_src _ _ Hb) in E. subst s. rewrite ES in Hb.
      apply in_app_or in Hb as [[<-|[<-|[]]]|Hb]; auto. right. right.
      destruct (at_or syms k =? at_or syms (k + 1)) eqn:E; cbn [andb] in Hb.
      + destruct m; cbn [negb] in Hb; [|destruct Hb]. destruct Hb as [<-|[]]. auto.
      + destruct Hb as [<-|[]]. split; auto. right. lia.
    - intros H. split; [|destruct H as [->|[->|(-> & _)]]; reflexivity]. exists (2 * k + 1). split; [unfold fin; lia|].
      rewrite ES. apply in_or_app. destruct H as [->|[->|(-> & H)]]; [left; cbn; auto|left; cbn; auto|right].
      destruct (at_or syms k =? at_or syms (k + 1)) eqn:E; cbn [andb]; [|now left].
      destruct H as [->|H]; [now left|lia].
  Qed.
  Lemma arcs_fin b : In b T -> src (fst b) <> fin.
  Proof.
    rewrite ctc_in. intros (s & Hs & Hb) E. rewrite (ctc_src _ _ Hb) in E. subst s. unfold ctc_state, fin in Hb.
    destruct (odd_facts n) as (E1 & E2 & _). rewrite E1, E2 in Hb. fold n in Hb. rewrite Z.eqb_refl in Hb. exact Hb.
  Qed.
  Lemma tpath_fin p : tpath T fin p fin -> p = [].
  Proof. intros H. apply tpath_inv in H as [(-> & _)|(a & p' & -> & Ha & E & _)]; auto. now apply arcs_fin in Ha. Qed.

  Lemma split_state s : 0 <= s < fin -> (exists k, s = 2 * k /\ 0 <= k <= n) \/ (exists k, s = 2 * k + 1 /\ 0 <= k < n).
  Proof.
    intros H. unfold fin in H. pose proof (Z.div_mod s 2). destruct (mod2 s); [left|right]; exists (s / 2); lia.
  Qed.

  Definition reads (s : Z) (x y : list Z) (sco : Z) : Prop :=
    exists p, tpath T s p fin /\ ilabels p = x ++ [-1] /\ strip (olabels p) = y ++ [-1] /\ tscore p = sco.

  Lemma ctc_fwd p : forall s, tpath T s p fin -> 0 <= s < fin ->
    exists x, ilabels p = x ++ [-1] /\ strip (olabels p) = rest_at s ++ [-1] /\ tscore p = 0 /\ crel m (prev_at s) x (rest_at s).
  Proof.
    induction p as [|b p IH]; intros s Hp Hs; apply tpath_inv in Hp as [(E & E')|(b' & p' & E & Hb & Es & Hp)]; try discriminate; [lia|].
    injection E as <- <-. destruct (split_state s Hs) as [(k & -> & Hk)|(k & -> & Hk)].
    - assert (Hb' := proj1 (arcs_even k b Hk) (conj Hb Es)). destruct Hb' as [->| ->]; cbn [fst dst] in Hp.
      + destruct (IH _ Hp Hs) as (x & I1 & I2 & I3 & I4). exists (0 :: x).
        change (ilabels ((mkArc (2 * k) (2 * k) 0 0, 0) :: p)) with (0 :: ilabels p). rewrite I1. split; [reflexivity|].
        split; [exact I2|]. split; [unfold tscore in *; cbn; lia|]. cbn [crel]. rewrite prev_even in I4. exact I4.
      + destruct (Z.eq_dec k n) as [->|Hkn].
        * apply tpath_fin in Hp. subst p. exists []. rewrite rest_even, skipn_end by lia. rewrite at_or_end by (fold n; lia).
          repeat split.
        * destruct (IH _ Hp) as (x & I1 & I2 & I3 & I4); [unfold fin; lia|].
          pose proof (at_or_pos k ltac:(lia)) as P. set (c := at_or syms k) in *.
          rewrite rest_odd in I2, I4. rewrite prev_odd in I4. fold c in I4.
          exists (c :: x). change (ilabels ((mkArc (2 * k) (2 * k + 1) c 0, c) :: p)) with (c :: ilabels p). rewrite I1.
          split; [reflexivity|]. rewrite rest_even, skipn_at_or by lia. fold c. cbn [olabels map snd]. rewrite strip_pos by lia.
          split; [cbn; f_equal; exact I2|]. split; [unfold tscore in *; cbn; lia|]. cbn [crel]. replace (c =? 0) with false by lia.
          right. rewrite prev_even. split; [right; lia|]. eauto.
    - assert (Hb' := proj1 (arcs_odd k b Hk) (conj Hb Es)). pose proof (at_or_pos k ltac:(lia)) as P.
      destruct Hb' as [->|[->|(-> & Hm)]]; cbn [fst dst] in Hp.
      + replace (2 * k + 2) with (2 * (k + 1)) in Hp by lia. destruct (IH _ Hp) as (x & I1 & I2 & I3 & I4); [unfold fin; lia|].
        rewrite rest_even in I2, I4. rewrite prev_even in I4. exists (0 :: x).
        change (ilabels ((mkArc (2 * k + 1) (2 * k + 2) 0 0, 0) :: p)) with (0 :: ilabels p). rewrite I1.
        split; [reflexivity|]. rewrite rest_odd. split; [exact I2|]. split; [unfold tscore in *; cbn; lia|]. exact I4.
      + destruct (IH _ Hp Hs) as (x & I1 & I2 & I3 & I4). set (c := at_or syms k) in *. exists (c :: x).
        change (ilabels ((mkArc (2 * k + 1) (2 * k + 1) c 0, 0) :: p)) with (c :: ilabels p). rewrite I1.
        split; [reflexivity|]. split; [exact I2|]. split; [unfold tscore in *; cbn; lia|].
        rewrite prev_odd in I4 |- *. fold c in I4 |- *. cbn [crel]. replace (c =? 0) with false by lia. left. auto.
      + destruct (Z.eq_dec (k + 1) n) as [Ekn|Hkn].
        * replace (2 * k + 3) with fin in Hp by (unfold fin; lia). apply tpath_fin in Hp. subst p. exists [].
          rewrite rest_odd, skipn_end by lia. rewrite at_or_end by (fold n; lia). repeat split.
        * replace (2 * k + 3) with (2 * (k + 1) + 1) in Hp by lia. destruct (IH _ Hp) as (x & I1 & I2 & I3 & I4); [unfold fin; lia|].
          pose proof (at_or_pos (k + 1) ltac:(lia)) as P'. set (c := at_or syms (k + 1)) in *.
          rewrite rest_odd in I2, I4. rewrite prev_odd in I4. fold c in I4.
          exists (c :: x). change (ilabels ((mkArc (2 * k + 1) (2 * k + 3) c 0, c) :: p)) with (c :: ilabels p). rewrite I1.
          split; [reflexivity|]. rewrite rest_odd, skipn_at_or by lia. fold c. cbn [olabels map snd]. rewrite strip_pos by lia.
          split; [cbn; f_equal; exact I2|]. split; [unfold tscore in *; cbn; lia|]. cbn [crel]. replace (c =? 0) with false by lia.
          right. rewrite prev_odd. split; [exact Hm|]. eauto.
  Qed.

  Lemma reads_step s b x y : In b T -> src (fst b) = s -> sc (fst b) = 0 -> reads (dst (fst b)) x y 0 ->
    reads s (lab (fst b) :: x) ((if snd b =? 0 then [] else [snd b]) ++ y) 0.
  Proof.
    intros Hb Es Eb (p & P1 & P2 & P3 & P4). exists (b :: p). split; [now apply tpath_step|].
    split; [cbn; unfold ilabels in P2; now rewrite P2|]. split.
    - cbn [olabels map]. rewrite strip_cons. unfold olabels in P3. rewrite P3. now rewrite app_assoc.
    - unfold tscore in *. cbn. lia.
  Qed.
  Lemma reads_last s b : In b T -> src (fst b) = s -> dst (fst b) = fin -> lab (fst b) = -1 -> snd b = -1 -> sc (fst b) = 0 -> reads s [] [] 0.
  Proof.
    intros Hb Es Ed El Eo Ec. exists [b]. split; [apply tpath_step; auto; rewrite Ed; constructor|].
    unfold tscore. cbn. rewrite El, Eo, Ec. auto.
  Qed.

  Lemma ctc_bwd x : forall s, 0 <= s < fin -> crel m (prev_at s) x (rest_at s) -> reads s x (rest_at s) 0.
  Proof.
    induction x as [|a x IH]; intros s Hs H; cbn [crel] in H.
    - rewrite H. destruct (split_state s Hs) as [(k & -> & Hk)|(k & -> & Hk)].
      + assert (k = n). { destruct (Z.eq_dec k n); auto. rewrite rest_even, skipn_at_or in H by lia. discriminate. } subst k.
        destruct (proj2 (arcs_even n _ Hk) (or_intror eq_refl)) as (B1 & B2).
        rewrite at_or_end in B1 by (fold n; lia). apply (reads_last _ _ B1); reflexivity.
      + assert (k + 1 = n). { destruct (Z.eq_dec (k + 1) n); auto. rewrite rest_odd, skipn_at_or in H by lia. discriminate. }
        pose proof (at_or_pos k ltac:(lia)) as P.
        assert (Hm : m = true \/ at_or syms (k + 1) <> at_or syms k) by (right; rewrite (at_or_end syms (k + 1)) by (fold n; lia); lia).
        destruct (proj2 (arcs_odd k _ Hk) (or_intror (or_intror (conj eq_refl Hm)))) as (B1 & B2).
        rewrite at_or_end in B1 by (fold n; lia). apply (reads_last _ _ B1); auto. cbn. unfold fin. lia.
    - destruct (a =? 0) eqn:Ea.
      + assert (a = 0) by lia. subst a. destruct (split_state s Hs) as [(k & -> & Hk)|(k & -> & Hk)].
        * destruct (proj2 (arcs_even k _ Hk) (or_introl eq_refl)) as (B1 & B2).
          apply (reads_step _ _ x (rest_at (2 * k)) B1 B2 eq_refl). apply IH; auto. now rewrite prev_even.
        * destruct (proj2 (arcs_odd k _ Hk) (or_introl eq_refl)) as (B1 & B2).
          apply (reads_step _ _ x (rest_at (2 * k + 1)) B1 B2 eq_refl). cbn [fst dst].
          replace (2 * k + 2) with (2 * (k + 1)) by lia. rewrite rest_odd, <- rest_even. apply IH; [unfold fin; lia|].
          rewrite prev_even, rest_even, <- rest_odd. exact H.
      + destruct H as [(E & H)|(Hm & y' & Ey & H)].
        * destruct (split_state s Hs) as [(k & -> & Hk)|(k & -> & Hk)]; [rewrite prev_even in E; lia|].
          rewrite prev_odd in E.
          destruct (proj2 (arcs_odd k _ Hk) (or_intror (or_introl eq_refl))) as (B1 & B2). rewrite <- E in B1.
          apply (reads_step _ _ x (rest_at (2 * k + 1)) B1 B2 eq_refl). apply IH; auto. now rewrite prev_odd, <- E.
        * destruct (split_state s Hs) as [(k & -> & Hk)|(k & -> & Hk)].
          -- assert (k < n). { destruct (Z_lt_dec k n); auto. rewrite rest_even, skipn_end in Ey by lia. discriminate. }
             rewrite rest_even, skipn_at_or in Ey by lia. injection Ey as <- <-.
             destruct (proj2 (arcs_even k _ Hk) (or_intror eq_refl)) as (B1 & B2).
             rewrite rest_even, skipn_at_or by lia.
             assert (G := reads_step _ _ x (skipn (Z.to_nat (k + 1)) syms) B1 B2 eq_refl). cbn [fst dst lab snd] in G. rewrite Ea in G. apply G.
             rewrite <- rest_odd. apply IH; [unfold fin; lia|]. now rewrite prev_odd, rest_odd.
          -- assert (k + 1 < n). { destruct (Z_lt_dec (k + 1) n); auto. rewrite rest_odd, skipn_end in Ey by lia. discriminate. }
             rewrite rest_odd, skipn_at_or in Ey by lia. injection Ey as <- <-. rewrite prev_odd in Hm.
             destruct (proj2 (arcs_odd k _ Hk) (or_intror (or_intror (conj eq_refl Hm)))) as (B1 & B2).
             rewrite rest_odd, skipn_at_or by lia.
             assert (G := reads_step _ _ x (skipn (Z.to_nat (k + 1 + 1)) syms) B1 B2 eq_refl). cbn [fst dst lab snd] in G. rewrite Ea in G. apply G.
             replace (2 * k + 3) with (2 * (k + 1) + 1) by lia.
             rewrite <- rest_odd. apply IH; [unfold fin; lia|]. now rewrite prev_odd, rest_odd.
  Qed.

  Lemma ctc_relates x y s : relates (ctc_nested m syms) x y s <-> crel m 0 x syms /\ y = syms /\ s = 0.
  Proof.
    pose proof (zlen_nonneg syms) as N0. fold n in N0.
    unfold relates. rewrite zlen_ctc_nested. fold n. replace (2 * n + 2 - 1) with fin by (unfold fin; lia).
    assert (R0 : rest_at 0 = syms) by reflexivity. assert (P0 : prev_at 0 = 0) by reflexivity.
    split.
    - intros (p & H1 & H2 & H3 & H4). destruct (ctc_fwd p 0 H1) as (x' & I1 & I2 & I3 & I4); [unfold fin; lia|].
      rewrite R0, P0 in *. rewrite I1 in H2. apply app_tail_inv in H2. subst x'. rewrite I2 in H3. apply app_tail_inv in H3. subst y. split; auto. split; auto. lia.
    - intros (H & -> & ->). apply (ctc_bwd x 0); [unfold fin; lia|]. now rewrite R0, P0.
  Qed.
End CtcLang.
