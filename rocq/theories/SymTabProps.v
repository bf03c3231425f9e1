(** * Properties C01, C02, C03, C55 of SymbolTable. *)
From Coq Require Import ZArith List Lia Bool Permutation Sorted.
From Coq Require Import ZifyBool ZifyNat.
From Verif Require Import Base PyBase SymTabModel SymTabProofs.
Import ListNotations.
Open Scope Z_scope.

(** Observations a user makes: t[i] and t[sym] (symbol_table.py:197-212). *)
Definition get_sym (t : symtab) (i : Z) : option str := dget (id2sym t) i.
Definition get_id (t : symtab) (s : str) : option Z := dget (sym2id t) s.

(** The property of C01. *)
Definition bijection (t : symtab) : Prop :=
  (forall i s, get_sym t i = Some s <-> get_id t s = Some i) /\
  get_sym t 0 = Some (eps t) /\
  (forall i s, get_sym t i = Some s -> i < next_id t).

(** One call made by a user; an exception leaves the table as it was. *)
Inductive call := Add (sym : str) (index : option Z) | Merge (other : symtab).
Definition do_call (t : symtab) (c : call) : symtab :=
  match c with
  | Add s i => match add t s i with Some (_, t') => t' | None => t end
  | Merge o => match merge t o with Some t' => t' | None => t end
  end.
(** Tables a user can hold: built by from_str / the constructor from unique
    keys without reusing the epsilon symbol, then any calls. *)
Inductive reachable : symtab -> Prop :=
| r_init i2s s2i e t : NoDup (keys i2s) -> NoDup (keys s2i) -> post_init i2s s2i e = Some t ->
    (forall i, get_sym t i = Some (eps t) -> i = 0) -> reachable t
| r_from_str s t : from_str s = Some t ->
    (forall i, get_sym t i = Some (eps t) -> i = 0) -> reachable t
| r_add t s i : reachable t -> reachable (do_call t (Add s i))
| r_merge t o : reachable t -> reachable o -> reachable (do_call t (Merge o)).

Lemma reachable_consistent t : reachable t -> consistent t.
Proof.
  induction 1 as [i2s s2i e t N1 N2 H U|s t H U|t s i _ IH|t o _ IH _ IHo].
  - eapply post_init_consistent_iff; eauto.
  - eapply from_str_consistent_iff; eauto.
  - simpl. destruct (add t s i) as [[k t']|] eqn:E; auto. now apply add_consistent in E.
  - simpl. destruct (merge t o) eqn:E; auto. now apply merge_spec in E.
Qed.

Theorem C01_bijection : forall t, reachable t -> bijection t.
Proof.
  intros t H. apply reachable_consistent in H. split; [exact (c_inv t H)|]. split; [exact (c_eps t H)|exact (c_next t H)].
Qed.
Print Assumptions C01_bijection.

(** An automatically assigned id is fresh, and add never changes another entry. *)
Theorem C01_add : forall t sym index, reachable t ->
  (index = None -> exists i t', add t sym index = Some (i, t')) /\
  (forall i t', add t sym index = Some (i, t') ->
     get_id t' sym = Some i /\ get_sym t' i = Some sym /\
     (forall j s, get_sym t j = Some s -> get_sym t' j = Some s) /\
     (forall j s, get_sym t' j = Some s -> get_sym t j = Some s \/ (j = i /\ s = sym)) /\
     (get_id t sym = None -> get_sym t i = None /\ (index = None -> i = next_id t))).
Proof.
  intros t sym index H. apply reachable_consistent in H. split.
  - intros ->. unfold add. destruct (dget (sym2id t) sym); eauto. unfold dmem.
    destruct (dget (id2sym t) (next_id t)) eqn:E; [apply (c_next t H) in E; lia|]. simpl. eauto.
  - intros i t' E. destruct (add_consistent t sym index i t' H E) as (C & G & _ & K). unfold get_id, get_sym.
    split; auto. split; [now apply (c_inv t' C)|]. split; [intros; apply K; auto|]. split; [intros j s G'; now apply K|].
    intros N. unfold add in E. rewrite N in E. unfold dmem in E.
    destruct (dget (id2sym t) match index with Some i => i | None => next_id t end) eqn:E'; [discriminate|].
    injection E as <- _. split; auto. intros ->. auto.
Qed.
Print Assumptions C01_add.

(** Without the proviso on the epsilon symbol the property fails: the text
    "<eps> 5" is accepted and gives a table where t[5] is '<eps>' but
    t['<eps>'] is 0. *)
Definition txt_eps5 : str := eps_default ++ [32; 53].
Theorem C01_eps_at_nonzero_refuted :
  exists s t, from_str s = Some t /\ get_sym t 5 = Some eps_default /\ get_id t eps_default = Some 0.
Proof. exists txt_eps5. eexists. split; [reflexivity|]. split; reflexivity. Qed.
Print Assumptions C01_eps_at_nonzero_refuted.

Definition txt_ab : str := [97; 32; 49; 10; 98; 9; 51; 10; 10].   (* "a 1\nb\t3\n\n" *)
Definition tab_ab : symtab :=
  mkTab [(1, [97]); (3, [98]); (0, eps_default)] [([97], 1); ([98], 3); (eps_default, 0)] 4 eps_default.
Example C01_example : exists t t', from_str txt_ab = Some t /\ reachable t /\
  add t [99] None = Some (4, t') /\ get_sym t' 4 = Some [99] /\ get_sym t' 0 = Some eps_default /\
  add t [99] (Some 3) = None.
Proof.
  exists tab_ab. eexists. split; [reflexivity|]. split.
  - apply (r_from_str txt_ab); [reflexivity|]. intros i H. unfold get_sym in H. apply dget_In in H. cbv in H.
    intuition congruence.
  - repeat split.
Qed.

(** C02: text round trip, through a string and through a file. *)
Definition printable_table (t : symtab) : Prop :=
  forall i s, get_sym t i = Some s -> 0 <= i /\ s <> [] /\ forall c, In c s -> is_ws c = false.
Definition same_table (t t' : symtab) : Prop :=
  (forall i, get_sym t' i = get_sym t i) /\ (forall s, get_id t' s = get_id t s) /\
  eps t' = eps t /\ next_id t' = next_id t.

Lemma printable_ok t : printable_table t -> printable t.
Proof.
  intros P i s H. destruct (P i s H) as (P1 & P2 & P3). split; auto. split; auto.
  unfold no_ws. rewrite Forall_forall. auto.
Qed.

Theorem C02_text_roundtrip : forall t, reachable t -> printable_table t ->
  (exists t', from_str (to_str t) = Some t' /\ same_table t t') /\
  (exists t', from_file (to_str t) = Some t' /\ same_table t t').
Proof.
  intros t R P. apply reachable_consistent in R. apply printable_ok in P. split.
  - destruct (from_str_to_str t R P) as (t' & H1 & H2 & H3 & H4 & H5). exists t'. split; auto. split; auto.
  - destruct (from_file_to_str t R P) as (t' & H1 & H2 & H3 & H4 & H5). exists t'. split; auto. split; auto.
Qed.
Print Assumptions C02_text_roundtrip.

(** to_str writes exactly the entries, one line each, by increasing id. *)
Theorem C02_lines_sorted : forall t, reachable t ->
  exists kvs, to_str t = concat (map (fun kv => snd kv ++ [32] ++ print_int (fst kv) ++ [10]) kvs) /\
    StronglySorted (fun a b => fst a < fst b) kvs /\
    forall i s, In (i, s) kvs <-> get_sym t i = Some s.
Proof.
  intros t R. apply reachable_consistent in R. exists (sorted_items (id2sym t)). split; [reflexivity|].
  assert (ND : NoDup (map fst (sorted_items (id2sym t)))) by now apply kvs_nd1.
  split.
  - assert (S : StronglySorted le_fst (sorted_items (id2sym t))).
    { apply Sorted_StronglySorted; [|apply sorted_sorted]. intros a b c; unfold le_fst; lia. }
    induction S as [|a l S IH F]; constructor.
    + apply IH. now inversion ND.
    + rewrite Forall_forall in *. intros b Hb. specialize (F b Hb). unfold le_fst in F.
      inversion ND; subst. assert (fst a <> fst b); [|lia]. intros E. apply H1. rewrite E. now apply in_map.
  - intros i s. unfold get_sym. rewrite <- kvs_get by auto. split.
    + intros H. now apply In_dget.
    + intros H. now apply dget_In.
Qed.
Print Assumptions C02_lines_sorted.

Example C02_example : exists t, from_str txt_ab = Some t /\ printable_table t /\
  to_str t = eps_default ++ [32; 48; 10; 97; 32; 49; 10; 98; 32; 51; 10].
Proof.
  exists tab_ab. split; [reflexivity|]. split; [|reflexivity].
  intros i s H. unfold get_sym in H. apply dget_In in H. simpl in H.
  destruct H as [[= <- <-]|[[= <- <-]|[[= <- <-]|[]]]]; (split; [lia|]; split; [discriminate|]);
    intros c Hc; simpl in Hc; intuition subst; reflexivity.
Qed.

(** A symbol with a space in it (accepted by add) does not survive. *)
Theorem C02_space_in_symbol_refuted :
  exists t, reachable t /\ from_str (to_str t) = None.
Proof.
  eexists (do_call (mkTab [(0, eps_default)] [(eps_default, 0)] 1 eps_default) (Add [97; 32; 98] None)).
  split; [|reflexivity]. apply r_add. apply (r_init [] [] eps_default); try constructor; try reflexivity.
  intros i H. unfold get_sym in H. apply dget_In in H. cbv in H. intuition congruence.
Qed.
Print Assumptions C02_space_in_symbol_refuted.

(** A negative id (accepted by add) makes from_str(to_str()) and merge raise. *)
Theorem C02_negative_id_refuted :
  exists t, reachable t /\ from_str (to_str t) = None /\ merge t t = None.
Proof.
  eexists (do_call (mkTab [(0, eps_default)] [(eps_default, 0)] 1 eps_default) (Add [97] (Some (-2)))).
  split; [|split; reflexivity]. apply r_add. apply (r_init [] [] eps_default); try constructor; try reflexivity.
  intros i H. unfold get_sym in H. apply dget_In in H. cbv in H. intuition congruence.
Qed.
Print Assumptions C02_negative_id_refuted.

(** C03: merge. *)
Definition disagree (a b : symtab) : Prop :=
  eps a <> eps b \/
  (exists i s s', get_sym a i = Some s /\ get_sym b i = Some s' /\ s <> s') \/
  (exists s i i', get_id a s = Some i /\ get_id b s = Some i' /\ i <> i').

Theorem C03_merge_union : forall a b t, reachable a -> reachable b -> merge a b = Some t ->
  reachable t /\
  (forall i s, get_sym t i = Some s <-> get_sym a i = Some s \/ get_sym b i = Some s) /\
  (forall i s, get_id t s = Some i <-> get_id a s = Some i \/ get_id b s = Some i).
Proof.
  intros a b t Ra Rb H.
  pose proof (r_merge a b Ra Rb) as R. simpl in R. rewrite H in R. split; auto.
  apply reachable_consistent in Ra, Rb, R. destruct (merge_spec a b t Ra Rb H) as (C & _ & K). split; auto.
  intros i s. unfold get_id. rewrite <- (c_inv t C), <- (c_inv a Ra), <- (c_inv b Rb). apply K.
Qed.
Print Assumptions C03_merge_union.

Theorem C03_merge_raises_iff : forall a b, reachable a -> reachable b ->
  (disagree a b -> merge a b = None) /\
  (~ disagree a b ->
   (forall i s, get_sym a i = Some s \/ get_sym b i = Some s -> 0 <= i) ->
   exists t, merge a b = Some t).
Proof.
  intros a b Ra Rb. apply reachable_consistent in Ra, Rb. split.
  - intros D. unfold merge. destruct (compatible a b) eqn:C; auto. exfalso.
    apply compatible_spec in C as (C1 & C2 & C3); auto.
    destruct D as [D|[(i & s & s' & D1 & D2 & D3)|(s & i & i' & D1 & D2 & D3)]]; [auto|..]; eauto.
  - intros D NN. apply merge_succeeds; auto.
    + intros i s G. apply (NN i s). auto.
    + intros i s G. apply (NN i s). auto.
    + apply compatible_spec; auto. split; [|split].
      * destruct (eqd (eps a) (eps b)); auto. exfalso. apply D. now left.
      * intros i s s' G G'. destruct (eqd s s'); auto. exfalso. apply D. right. left. exists i, s, s'. auto.
      * intros s i i' G G'. destruct (eqd i i'); auto. exfalso. apply D. right. right. exists s, i, i'. auto.
Qed.
Print Assumptions C03_merge_raises_iff.

Example C03_example : exists a b c t, from_str txt_ab = Some a /\ from_str [99; 32; 50] = Some b /\
  from_str [99; 32; 51] = Some c /\ merge a b = Some t /\ get_sym t 2 = Some [99] /\ get_sym t 3 = Some [98] /\
  merge a c = None /\ disagree a c.
Proof.
  eexists _, _, _, _. do 7 (split; [reflexivity|]).
  right. left. exists 3, [98], [99]. split; [reflexivity|]. split; [reflexivity|discriminate].
Qed.

(** C55: equality.  If the loop finishes, the answer is right; but when the
    tables have the same size and different symbols, == raises KeyError. *)
Lemma eq_loop_true a b order : eq_loop order a b = Some true ->
  forall s, In s order -> exists i, get_id a s = Some i /\ get_id b s = Some i.
Proof.
  induction order as [|s0 order IH]; simpl; [tauto|]. intros H s Hs.
  destruct (dget (sym2id a) s0) as [x|] eqn:Ex; [|discriminate].
  destruct (dget (sym2id b) s0) as [y|] eqn:Ey; [|discriminate].
  destruct (x =? y) eqn:E; [|discriminate]. destruct Hs as [<-|Hs]; auto.
  exists x. split; auto. replace x with y by lia. auto.
Qed.

Lemma eq_loop_false a b order : eq_loop order a b = Some false -> exists s, In s order /\ get_id a s <> get_id b s.
Proof.
  induction order as [|s0 order IH]; simpl; [discriminate|]. intros H.
  destruct (dget (sym2id a) s0) as [x|] eqn:Ex; [|discriminate].
  destruct (dget (sym2id b) s0) as [y|] eqn:Ey; [|discriminate].
  destruct (x =? y) eqn:E.
  - destruct (IH H) as (s & H1 & H2). eauto.
  - exists s0. split; [now left|]. unfold get_id. rewrite Ex, Ey. intros [= ->]. lia.
Qed.

Lemma sizes t : consistent t -> Permutation (map fst (sym2id t)) (map snd (id2sym t)).
Proof.
  intros C. apply NoDup_Permutation.
  - apply (c_nd2 t C).
  - now apply NoDup_snd.
  - intros s. split; intros H.
    + apply dget_key in H as (i & H). apply (c_inv t C) in H. apply dget_In in H. now apply (in_map snd) in H.
    + apply in_map_iff in H as ([i s'] & E & H). simpl in E. subst s'. apply In_dget in H; [|exact (c_nd1 t C)].
      apply (c_inv t C) in H. apply dget_In in H. now apply (in_map fst) in H.
Qed.

Theorem C55_eq_sound : forall a b order r, reachable a -> reachable b ->
  Permutation order (map fst (sym2id a)) -> py_eq order a b = Some r ->
  (r = true <-> forall i, get_sym a i = get_sym b i).
Proof.
  intros a b order r Ra Rb P H. apply reachable_consistent in Ra, Rb. unfold py_eq in H.
  destruct (zlen (id2sym a) =? zlen (id2sym b)) eqn:L.
  - destruct r.
    + split; auto. intros _.
      assert (S : forall i s, get_sym a i = Some s -> get_sym b i = Some s).
      { intros i s G. apply (c_inv a Ra) in G. destruct (eq_loop_true _ _ _ H s) as (j & H1 & H2).
        - eapply Permutation_in; [symmetry; exact P|]. apply dget_In in G. now apply (in_map fst) in G.
        - unfold get_id in H1, H2. unfold get_sym. apply (c_inv b Rb). congruence. }
      assert (INCL : incl (id2sym b) (id2sym a)).
      { apply NoDup_length_incl.
        - exact (NoDup_map_inv _ _ (c_nd1 a Ra)).
        - unfold zlen in L. lia.
        - intros [i s] Hin. apply dget_In. apply S. apply In_dget; auto. exact (c_nd1 a Ra). }
      intros i. destruct (get_sym a i) as [s|] eqn:G; [symmetry; auto|].
      destruct (get_sym b i) as [s|] eqn:G'; auto. apply dget_In in G'. apply INCL in G'.
      apply In_dget in G'; [|exact (c_nd1 a Ra)]. unfold get_sym in G. congruence.
    + split; [discriminate|]. intros E. exfalso. destruct (eq_loop_false _ _ _ H) as (s & Hs & N). apply N.
      unfold get_id, get_sym in *. destruct (dget (sym2id a) s) as [i|] eqn:G.
      * apply (c_inv a Ra) in G. rewrite E in G. apply (c_inv b Rb) in G. auto.
      * destruct (dget (sym2id b) s) as [i|] eqn:G'; auto. apply (c_inv b Rb) in G'. rewrite <- E in G'.
        apply (c_inv a Ra) in G'. congruence.
  - injection H as <-. split; [discriminate|]. intros E. exfalso.
    assert (P' : Permutation (id2sym a) (id2sym b)).
    { apply NoDup_Permutation; [exact (NoDup_map_inv _ _ (c_nd1 a Ra))|exact (NoDup_map_inv _ _ (c_nd1 b Rb))|].
      intros [i s]. split; intros G; apply In_dget in G; try exact (c_nd1 a Ra); try exact (c_nd1 b Rb); apply dget_In;
        unfold get_sym in E; [rewrite <- E|rewrite E]; auto. }
    apply Permutation_length in P'. unfold zlen in L. lia.
Qed.
Print Assumptions C55_eq_sound.

(** == does not always answer: {a: 1} == {b: 1} raises KeyError. *)
Theorem C55_eq_keyerror_refuted :
  exists a b, from_str [97; 32; 49] = Some a /\ from_str [98; 32; 49] = Some b /\
    forall order, Permutation order (map fst (sym2id a)) -> py_eq order a b = None.
Proof.
  eexists _, _. split; [reflexivity|]. split; [reflexivity|]. intros order P.
  change (map fst (sym2id _)) with [[97]; eps_default] in P.
  apply Permutation_sym in P.
  assert (order = [[97]; eps_default] \/ order = [eps_default; [97]]) as [->| ->]; [|reflexivity|reflexivity].
  destruct (Permutation_length_2_inv P) as [->| ->]; auto.
Qed.
Print Assumptions C55_eq_keyerror_refuted.

Example C55_example : exists a, from_str txt_ab = Some a /\ py_eq (map fst (sym2id a)) a a = Some true.
Proof. eexists. split; reflexivity. Qed.
