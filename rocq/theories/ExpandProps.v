(** * Expansion of ragged attributes: theorems *)
From Coq Require Import ZArith List Lia Bool.
From Verif Require Import Base RaggedModel RaggedSpec RaggedProofs FsaSpec FsaLemmas EpsLoopProofs ScoreSpec ShortestSpec ScorePaths IntersectSpec IntersectPaths ExpandModel ExpandProofs ExpandPaths.
Import ListNotations.
Open Scope Z_scope.

(** ** Specification *)
(** the values of a linear attribute on the arcs [q] of an FSA whose first arc is arc
    [o] of the vector *)
Definition values (v : list Z) (o : Z) (q : list Z) : list Z :=
  flat_map (fun j => match rd v (o + j) with Some x => [x] | None => [] end) q.
(** the lists of a ragged attribute on the arcs [p], one after the other *)
Definition lists (L : list (list Z)) (o : Z) (p : list Z) : list Z :=
  flat_map (fun j => match rd L (o + j) with Some x => x | None => [] end) p.
(** the labels other than epsilon and the final symbol *)
Definition real (l : list Z) : list Z := filter (fun x => negb ((x =? 0) || (x =? -1))) l.
(** a ragged tensor with rows [L] *)
Definition rag_of (L : list (list Z)) : list Z * list Z := (splits_of L, concat L).

(** [g], part [k] of the result [Ws], is the expansion of [f], part [k] of [V] *)
Definition is_expansion (V Ws : list nfsa) (m : list Z) (k : Z) (f g : nfsa) : Prop :=
  let pr := proj m (first_arc Ws k) (first_arc V k) in
  (forall q, successful g q -> successful f (pr q)) /\
  (forall p, successful f p -> exists q, successful g q /\ pr q = p) /\
  (forall q q', successful g q -> successful g q' -> pr q = pr q' -> q = q') /\
  (forall q, successful g q -> strip (labels (arcs_at g q)) = strip (labels (arcs_at f (pr q))) /\
                               score (arcs_at g q) = score (arcs_at f (pr q))).

(** ** Attaching lists to arcs *)
Lemma attach2 {A} : forall (ss : list (list A)) (L : list (list Z)), length (concat ss) = length L ->
  exists X, map (map fst) X = ss /\ map snd (concat X) = L.
Proof.
  induction ss as [|s ss IH]; intros L HL; cbn [concat] in *.
  - destruct L; [|discriminate]. exists []. split; reflexivity.
  - rewrite app_length in HL. destruct (IH (skipn (length s) L)) as (X & X1 & X2); [rewrite skipn_length; lia|].
    exists (combine s (firstn (length s) L) :: X). cbn [map concat]. rewrite X1, map_app, X2.
    assert (LL : length s = length (firstn (length s) L)) by (rewrite firstn_length; lia).
    split.
    + f_equal. clear -LL. revert LL. generalize (firstn (length s) L). induction s as [|a s IHs]; intros [|b l] E; try discriminate; [reflexivity|]. cbn. f_equal. apply IHs. now injection E.
    + transitivity (firstn (length s) L ++ skipn (length s) L); [|apply firstn_skipn]. f_equal.
      clear -LL. revert LL. generalize (firstn (length s) L). induction s as [|a s IHs]; intros [|b l] E; try discriminate; [reflexivity|]. cbn. f_equal. apply IHs. now injection E.
Qed.

Lemma regroup_map {A B} (g : A -> B) : forall (V : list (list B)) (X2 : list A), map g X2 = concat V -> exists X, concat X = X2 /\ map (map g) X = V.
Proof.
  induction V as [|v V IH]; intros X2 H; cbn [concat] in H.
  - destruct X2; [|discriminate]. exists []. split; reflexivity.
  - apply map_eq_app in H. destruct H as (l1 & l2 & -> & <- & H2). destruct (IH l2 H2) as (X & <- & <-). exists (l1 :: X). split; reflexivity.
Qed.

Lemma attach (V : list nfsa) (L : list (list Z)) : zlen L = zlen (concat (concat V)) ->
  exists X : list (list (list xarc)), map (map (map fst)) X = V /\ map snd (concat (concat X)) = L.
Proof.
  intros H. destruct (attach2 (concat V) L) as (X2 & H1 & H2); [unfold zlen in H; lia|].
  destruct (regroup_map (map fst) V X2 H1) as (X & <- & H3). exists X. auto.
Qed.

(** ** The general case: lists attached to the arcs *)
Section General.
  Variable X : list (list (list xarc)).
  Let V : list nfsa := map (map (map fst)) X.
  Hypothesis ok : Forall (fun f => f = [] \/ valid f) V.
  Let Ws := Ts X.

  Lemma flat_A : map fst (concat (concat X)) = concat (concat V).
  Proof. unfold V. rewrite <- concat_map. rewrite <- concat_map. reflexivity. Qed.

  Lemma dst_X f a : In f X -> In a (concat f) -> 0 <= dst (fst a) < zlen f.
  Proof.
    intros Hf Ha. rewrite Forall_forall in ok. destruct (ok (map (map fst) f)) as [E|(_ & _ & VA)].
    - unfold V. now apply in_map.
    - destruct f; [destruct Ha|discriminate].
    - destruct (VA (fst a)) as (D & _); [unfold all_arcs; rewrite <- concat_map; now apply in_map|]. unfold nstates in D. rewrite zlen_map in D. exact D.
  Qed.

  Lemma part k f : rd X k = Some f -> rd V k = Some (map (map fst) f) /\ rd Ws k = Some (expanded f) /\ (f = [] \/ valid (map (map fst) f)).
  Proof.
    intros H. unfold V, Ws, Ts. rewrite !rd_map, H. split; [reflexivity|]. split; [reflexivity|].
    rewrite Forall_forall in ok. destruct (ok (map (map fst) f)) as [E|E]; [unfold V; apply in_map; eapply rd_In; eauto|left; destruct f; [reflexivity|discriminate]|auto].
  Qed.

  Lemma abase_V k : abase X k = first_arc V k.
  Proof.
    unfold abase, first_arc, V, off1. rewrite !firstn_map. generalize (firstn (Z.to_nat k) X). clear. induction l as [|f l IH]; [reflexivity|].
    cbn [map concat]. rewrite !zlen_app, IH. f_equal. unfold all_arcs. rewrite <- concat_map. now rewrite zlen_map.
  Qed.

  (** what [out] holds on the arcs of a chain *)
  Lemma out_first k f i s x e : rd X k = Some f -> rd f i = Some s -> rd s x = Some e ->
    rd (out X) (first_arc Ws k + ai f i 0 0 x) = Some (KK X k f (i, 0, 0, x)).
  Proof.
    intros Hk Hi Hx. pose proof (rd_Some_bound _ _ _ Hx). apply (rd_out X k f _ _ Hk).
    apply (at_coords f i s 0 [map (fun m => (i, 0, 0, m)) (zrange (zlen s))] 0 (map (fun m => (i, 0, 0, m)) (zrange (zlen s)))); auto.
    rewrite rd_map, rd_zrange by lia. reflexivity.
  Qed.
  Lemma out_inner k f i s x e j : rd X k = Some f -> rd f i = Some s -> rd s x = Some e -> 0 <= j < zlen (snd e) - 1 ->
    rd (out X) (first_arc Ws k + ai f i (x + 1) j 0) = Some (KK X k f (i, x + 1, j, 0)).
  Proof.
    intros Hk Hi Hx B. pose proof (rd_Some_bound _ _ _ Hx). apply (rd_out X k f _ _ Hk).
    apply (at_coords f i s (x + 1) (map (fun j => [(i, x + 1, j, 0)]) (zrange (Z.max (zlen (snd e) - 1) 0))) j [(i, x + 1, j, 0)]); auto.
    - rewrite rd_blk_S by lia. rewrite Hx. reflexivity.
    - rewrite rd_map, rd_zrange by lia. reflexivity.
  Qed.

  (** every element of [out] is one of these *)
  Lemma out_inv q y : rd (out X) q = Some y -> exists k f i s x e, rd X k = Some f /\ rd f i = Some s /\ rd s x = Some e /\
    ((q = first_arc Ws k + ai f i 0 0 x /\ y = KK X k f (i, 0, 0, x)) \/
     (exists j, 0 <= j < zlen (snd e) - 1 /\ q = first_arc Ws k + ai f i (x + 1) j 0 /\ y = KK X k f (i, x + 1, j, 0))).
  Proof.
    intros H. destruct (rd_concat_inv (map (@concat _) Ws) q (fst y)) as (k & l & q' & H1 & H2 & H3 & _).
    { rewrite concat_map_concat. unfold Ws. rewrite <- arcs_out, rd_map, H. reflexivity. }
    unfold Ws, Ts in H1. rewrite !rd_map in H1. destruct (rd X k) as [f|] eqn:Hk; [|discriminate]. cbn [option_map] in H1. injection H1 as <-.
    change (off1 (map (@concat _) Ws) k) with (first_arc Ws k) in H3.
    destruct (arc_inv f q' _ H2) as (i & s & x & e & Hi & Hx & [(-> & _)|(j & Bj & -> & _)]); exists k, f, i, s, x, e; (split; [auto|split; [auto|split; [auto|]]]).
    - left. split; [exact H3|]. pose proof (out_first k f i s x e Hk Hi Hx) as O. rewrite <- H3 in O. congruence.
    - right. exists j. split; auto. split; [exact H3|]. pose proof (out_inner k f i s x e j Hk Hi Hx Bj) as O. rewrite <- H3 in O. congruence.
  Qed.

  (** the arc map *)
  Let m := map (fun y : arc * (Z * Z) => fst (snd y)) (out X).

  Lemma kidx_first f i x : kidx f (i, 0, 0, x) = off1 f i + x.
  Proof. reflexivity. Qed.
  Lemma kidx_inner f i x j : 0 <= x -> kidx f (i, x + 1, j, 0) = off1 f i + x.
  Proof. intros H. unfold kidx. cbn [fst kx]. replace (x + 1 =? 0) with false by lia. lia. Qed.
  Lemma kpos_inner i x j : 0 <= x -> kpos (i, x + 1, j, 0) = j + 1.
  Proof. intros H. cbn [kpos]. replace (x + 1 =? 0) with false by lia. reflexivity. Qed.

  Lemma abase_nonneg k : 0 <= abase X k.
  Proof. apply off1_nonneg. Qed.

  Lemma proj_app mm oc oa u v : proj mm oc oa (u ++ v) = proj mm oc oa u ++ proj mm oc oa v.
  Proof. apply flat_map_app. Qed.

  Lemma proj_rest k f i s x e : rd X k = Some f -> rd f i = Some s -> rd s x = Some e -> forall d j, 0 <= j -> zlen (snd e) - 1 - j = Z.of_nat d ->
    proj m (first_arc Ws k) (first_arc V k) (rest f i x (zlen (snd e)) j) = [].
  Proof.
    intros Hk Hi Hx. pose proof (rd_Some_bound _ _ _ Hx). induction d as [|d IH]; intros j Hj Hd.
    - rewrite rest_nil by lia. reflexivity.
    - rewrite rest_cons by lia. cbn [proj flat_map]. unfold m at 1. rewrite rd_map, (out_inner k f i s x e j) by (auto; lia). cbn [option_map KK fst snd].
      rewrite kpos_inner by lia. replace (j + 1 =? 0) with false by lia. change (-1 =? -1) with true. cbv iota. cbn [app]. apply IH; lia.
  Qed.

  Lemma proj_chain k f i s x e : rd X k = Some f -> rd f i = Some s -> rd s x = Some e ->
    proj m (first_arc Ws k) (first_arc V k) (chain f i x (zlen (snd e))) = [off1 f i + x].
  Proof.
    intros Hk Hi Hx. unfold chain. cbn [proj flat_map]. unfold m at 1. rewrite rd_map, (out_first k f i s x e) by auto. cbn [option_map KK fst snd].
    change (kpos (i, 0, 0, x)) with 0. change (0 =? 0) with true. cbv iota. rewrite kidx_first, abase_V.
    pose proof (abase_nonneg k) as B. rewrite abase_V in B. pose proof (off1_nonneg f i). pose proof (rd_Some_bound _ _ _ Hx).
    replace (first_arc V k + (off1 f i + x) =? -1) with false by lia. cbn [app]. fold (proj m (first_arc Ws k) (first_arc V k) (rest f i x (zlen (snd e)) 0)).
    assert (PR : proj m (first_arc Ws k) (first_arc V k) (rest f i x (zlen (snd e)) 0) = []).
    { destruct (Z_le_gt_dec (zlen (snd e) - 1) 0); [rewrite rest_nil by lia; reflexivity|]. apply (proj_rest k f i s x e Hk Hi Hx (Z.to_nat (zlen (snd e) - 1))); lia. }
    rewrite PR. f_equal. lia.
  Qed.

  Lemma proj_E k f s p t : rd X k = Some f -> apath (map (map fst) f) s p t -> proj m (first_arc Ws k) (first_arc V k) (E f p) = p.
  Proof.
    intros Hk. induction 1 as [s|a arc p t Ha H IH]; [reflexivity|].
    unfold all_arcs in Ha. rewrite <- concat_map, rd_map in Ha. destruct (rd (concat f) a) as [e|] eqn:Ee; [|discriminate]. injection Ha as <-.
    destruct (rd_concat_inv _ _ _ Ee) as (i & st & x & H1 & H2 & -> & _). unfold E. cbn [flat_map]. rewrite (chain_of_at f i st x e H1 H2), proj_app, (proj_chain k f i st x e Hk H1 H2).
    fold (E f p). rewrite IH. reflexivity.
  Qed.

  Lemma last_state (f : list (list xarc)) : valid (map (map fst) f) -> rd f (zlen f - 1) = Some [].
  Proof.
    intros (SO & N & VA). unfold nstates in N. rewrite zlen_map in N. destruct (rd_in_bound f (zlen f - 1) ltac:(lia)) as (s & Hs).
    destruct s as [|a s]; [exact Hs|]. exfalso.
    assert (Ia : In (fst a) (all_arcs (map (map fst) f))).
    { unfold all_arcs. rewrite <- concat_map. apply in_map, in_concat. exists (a :: s). split; [eapply rd_In; eauto|now left]. }
    destruct (VA _ Ia) as (_ & _ & _ & V4). apply V4. unfold final, nstates. rewrite zlen_map.
    apply (SO _ (map fst (a :: s))); [rewrite rd_map, Hs; reflexivity|now left].
  Qed.

  Lemma paths k f : rd X k = Some f -> forall q, successful (expanded f) q <-> exists p, successful (map (map fst) f) p /\ q = E f p.
  Proof.
    intros Hk q. destruct (part k f Hk) as (_ & _ & [->|Vf]).
    - split; [intros [N _]|intros (p & [N _] & _)]; vm_compute in N; discriminate.
    - apply successful_iff; [apply Vf| |now apply last_state]. intros a Ha. apply dst_X; auto. eapply rd_In; eauto.
  Qed.

  Lemma general k f : rd X k = Some f -> is_expansion V Ws m k (map (map fst) f) (expanded f) /\ (f <> [] -> valid (expanded f)).
  Proof.
    intros Hk. destruct (part k f Hk) as (_ & _ & Vf). split.
    - unfold is_expansion. cbv zeta. split; [|split; [|split]].
      + intros q Hq. apply (paths k f Hk) in Hq. destruct Hq as (p & Hp & ->). destruct Hp as [N Hp]. rewrite (proj_E k f _ _ _ Hk Hp). now split.
      + intros p Hp. exists (E f p). split; [apply (paths k f Hk); eauto|]. destruct Hp as [N Hp]. apply (proj_E k f _ _ _ Hk Hp).
      + intros q q' Hq Hq' Heq. apply (paths k f Hk) in Hq. apply (paths k f Hk) in Hq'. destruct Hq as (p & [N Hp] & ->). destruct Hq' as (p' & [N' Hp'] & ->).
        rewrite (proj_E k f _ _ _ Hk Hp), (proj_E k f _ _ _ Hk Hp') in Heq. now subst.
      + intros q Hq. apply (paths k f Hk) in Hq. destruct Hq as (p & [N Hp] & ->). rewrite (proj_E k f _ _ _ Hk Hp).
        destruct Vf as [->|Vf]; [vm_compute in N; discriminate|]. eapply E_attr; eauto; try apply Vf; try now apply last_state. intros a Ha. apply dst_X; auto. eapply rd_In; eauto.
    - intros N. destruct Vf as [|Vf]; [contradiction|]. apply valid_G; [apply Vf| |now apply last_state|exact Vf]. intros a Ha. apply dst_X; auto. eapply rd_In; eauto.
  Qed.

  (** the kernels *)
  Lemma general_run : expand_arcs (splits_of V) (splits_of (concat V)) (concat (concat V)) (splits_of (map snd (concat (concat X)))) =
    Some (splits_of Ws, splits_of (concat Ws), out X) /\ map fst (out X) = concat (concat Ws).
  Proof.
    rewrite <- flat_A. replace (splits_of V) with (splits_of X) by (unfold splits_of, V; rewrite map_map; f_equal; apply map_ext; intros; now rewrite zlen_map).
    replace (splits_of (concat V)) with (splits_of (concat X)).
    - apply expand_arcs_ok. exact dst_X.
    - unfold splits_of, V. rewrite <- concat_map, map_map. f_equal. apply map_ext. intros. now rewrite zlen_map.
  Qed.
End General.

(** ** Several ragged attributes *)
Lemma fold_none {A} (F : A -> option Z) (G : option Z -> A -> option Z) : (forall a, G None a = None) -> forall l, fold_left G l None = None.
Proof. intros H l. induction l as [|a l IH]; cbn; [reflexivity|]. now rewrite H. Qed.

(** [n] arcs are enough for the list [row]; on a final arc there must be room for -1 *)
Definition fits (fin : bool) (n : Z) (row : list Z) : Prop :=
  zlen row <= n /\ (fin = true -> zlen row < n \/ rd row (zlen row - 1) = Some (-1)).

Lemma combined_ok fin (Ls : list (list (list Z))) i : forall n0, 1 <= n0 ->
  (forall L, In L Ls -> exists row, rd L i = Some row) ->
  exists n, fold_left (combined_step fin i) (map rag_of Ls) (Some n0) = Some n /\ n0 <= n /\
    forall L row, In L Ls -> rd L i = Some row -> fits fin n row.
Proof.
  induction Ls as [|L Ls IH]; intros n0 H0 HL; cbn [map fold_left].
  - exists n0. split; [reflexivity|]. split; [lia|]. intros L row [].
  - destruct (HL L ltac:(now left)) as (row & Hrow). destruct (rs_at L i row Hrow) as [R1 R2]. pose proof (zlen_nonneg row) as NN.
    assert (exists n1, combined_step fin i (Some n0) (rag_of L) = Some n1 /\ n0 <= n1 /\ fits fin n1 row) as (n1 & E1 & B1 & F1).
    { unfold combined_step, rag_of. cbn [fst snd]. rewrite R1, R2. cbv zeta. replace (off1 L i + zlen row - off1 L i) with (zlen row) by lia.
      destruct (fin && (n0 <=? zlen row)) eqn:C.
      - apply andb_true_iff in C. destruct C as [-> C]. destruct (rd_in_bound row (zlen row - 1) ltac:(lia)) as (v & Hv).
        replace (off1 L i + zlen row - 1) with (off1 L i + (zlen row - 1)) by lia. destruct (rd_concat_off L i row _ v Hrow Hv) as [-> _].
        destruct (v =? -1) eqn:Ev; cbn [negb].
        + exists (if n0 <? zlen row then zlen row else n0). split; [reflexivity|]. split; [destruct (n0 <? zlen row) eqn:D; lia|].
          replace v with (-1) in Hv by lia. split; [destruct (n0 <? zlen row) eqn:D; lia|auto].
        + exists (zlen row + 1). split; [reflexivity|]. split; [lia|]. split; [lia|]. intros _. left. lia.
      - exists (if n0 <? zlen row then zlen row else n0). split; [reflexivity|]. split; [destruct (n0 <? zlen row) eqn:D; lia|].
        split; [destruct (n0 <? zlen row) eqn:D; lia|]. intros ->. cbn [andb] in C. left. destruct (n0 <? zlen row) eqn:D; lia. }
    rewrite E1. destruct (IH n1 ltac:(lia)) as (n & E2 & B2 & F2); [intros L' HL'; apply HL; now right|].
    exists n. split; [exact E2|]. split; [lia|]. intros L' row' [<-|HL'] Hr; [|now apply (F2 L')].
    replace row' with row by congruence. destruct F1 as [F1 F3]. split; [lia|]. intros Hf. destruct (F3 Hf); [left; lia|auto].
Qed.

(** the value of an attribute at position [pos] of a chain *)
Definition lv (row : list Z) (pos : Z) (fin : bool) : Z :=
  let l0 := match rd row pos with Some v => v | None => 0 end in
  if (l0 =? -1) || (l0 =? 0) then (if fin then -1 else 0) else l0.

Lemma real_app u v : real (u ++ v) = real u ++ real v.
Proof. apply filter_app. Qed.
Lemma real_lv row fin : forall n, zlen row <= n -> real (map (fun p => lv row p (fin p)) (zrange n)) = real row.
Proof.
  intros n Hn. pose proof (zlen_nonneg row).
  assert (E1 : forall l, real (map (fun p => lv row p (fin p)) l) = real (map (fun p => match rd row p with Some v => v | None => 0 end) l)).
  { induction l as [|p l IH]; [reflexivity|]. cbn [map]. unfold real in *. cbn [filter]. rewrite IH. unfold lv.
    destruct (match rd row p with Some v => v | None => 0 end =? -1) eqn:E1; destruct (match rd row p with Some v => v | None => 0 end =? 0) eqn:E2; cbn [orb negb]; try rewrite E1, E2; destruct (fin p); reflexivity. }
  rewrite E1. replace n with (zlen row + (n - zlen row)) by lia. rewrite zrange_app by lia. rewrite map_app, real_app.
  assert (E2 : map (fun p => match rd row p with Some v => v | None => 0 end) (zrange (zlen row)) = row).
  { apply list_ext_rd; [rewrite zlen_map, zlen_zrange; lia|]. intros p Hp. rewrite zlen_map, zlen_zrange in Hp by lia. rewrite rd_map, rd_zrange by lia. cbn. destruct (rd_in_bound row p Hp) as (v & ->). reflexivity. }
  rewrite E2, map_map. replace (real (map _ (zrange (n - zlen row)))) with (@nil Z); [apply app_nil_r|].
  symmetry. assert (forall l, Forall (fun x => 0 <= x) l -> real (map (fun x => match rd row (zlen row + x) with Some v => v | None => 0 end) l) = []) as Q.
  { induction 1 as [|x l Hx Hl IH]; [reflexivity|]. cbn [map]. rewrite (proj2 (rd_None row (zlen row + x))) by lia. exact IH. }
  apply Q. apply Forall_forall. intros x Hx. apply in_zrange in Hx. lia.
Qed.

Section Several.
  Variable X : list (list (list xarc)).
  Let V : list nfsa := map (map (map fst)) X.
  Hypothesis ok : Forall (fun f => f = [] \/ valid f) V.
  Notation Ws := (Ts X).
  Let A := concat (concat X).
  Variable L : list (list Z).
  Hypothesis long : forall i a, rd A i = Some a -> 1 <= zlen (snd a).
  Hypothesis fit : forall i a, rd A i = Some a -> exists row, rd L i = Some row /\ fits (lab (fst a) =? -1) (zlen (snd a)) row.

  Lemma A_at k f i s x e : rd X k = Some f -> rd f i = Some s -> rd s x = Some e -> rd A (abase X k + (off1 f i + x)) = Some e.
  Proof.
    intros Hk Hi Hx. unfold A, abase. rewrite <- (concat_map_concat X).
    apply (rd_concat_off (map (@concat _) X) k (concat f) (off1 f i + x) e); [rewrite rd_map, Hk; reflexivity|]. now apply (rd_concat_off f i s x e).
  Qed.

  Lemma lin_gen k f i s x e l row : rd X k = Some f -> rd f i = Some s -> rd s x = Some e ->
    karc f l = e -> kidx f l = off1 f i + x -> 0 <= kpos l < zlen (snd e) -> rd L (abase X k + (off1 f i + x)) = Some row ->
    lab (K f l) = (if negb (lab (fst e) =? -1) then (if kpos l =? 0 then lab (fst e) else 0) else (if zlen (snd e) <=? kpos l + 1 then -1 else 0)) ->
    linearize (splits_of (map snd A)) (ids_of (map snd A)) (rag_of L) (KK X k f l) = Some (lv row (kpos l) (lab (K f l) =? -1)) /\
    (lv row (kpos l) (lab (K f l) =? -1) = -1 <-> lab (K f l) = -1).
  Proof.
    intros Hk Hi Hx Ka Kx Bp Hrow Kl. pose proof (A_at k f i s x e Hk Hi Hx) as HA.
    set (a := abase X k + (off1 f i + x)) in *. assert (HS : rd (map snd A) a = Some (snd e)) by (rewrite rd_map, HA; reflexivity).
    destruct (rs_at _ _ _ HS) as [S1 _]. destruct (rd_in_bound (snd e) (kpos l) Bp) as (v & Hv). destruct (rd_concat_off _ _ _ _ _ HS Hv) as [_ I1].
    destruct (rs_at _ _ _ Hrow) as [L1 L2]. pose proof (off1_nonneg (map snd A) a).
    destruct (fit a e HA) as (row' & Hr' & F1 & F2). replace row' with row in * by congruence. clear Hr'.
    assert (VL : (if off1 L a + zlen row <=? off1 L a + kpos l then Some 0 else rd (concat L) (off1 L a + kpos l)) = Some (match rd row (kpos l) with Some v => v | None => 0 end)).
    { destruct (off1 L a + zlen row <=? off1 L a + kpos l) eqn:C.
      - rewrite (proj2 (rd_None row (kpos l))) by lia. reflexivity.
      - destruct (rd_in_bound row (kpos l) ltac:(lia)) as (w & Hw). rewrite Hw. apply (rd_concat_off L a row _ w Hrow Hw). }
    assert (FN : lab (K f l) = -1 -> lv row (kpos l) true = -1).
    { intros E1. unfold lv. destruct (negb (lab (fst e) =? -1)) eqn:E2.
      - exfalso. rewrite Kl in E1. destruct (kpos l =? 0); [|lia]. rewrite E1 in E2. discriminate.
      - rewrite Kl in E1. destruct (zlen (snd e) <=? kpos l + 1) eqn:E3; [|lia]. apply negb_false_iff in E2.
        destruct (rd row (kpos l)) as [w|] eqn:Ew; [|reflexivity]. pose proof (rd_Some_bound _ _ _ Ew). destruct (F2 E2) as [F|F]; [lia|].
        replace (kpos l) with (zlen row - 1) in Ew by lia. assert (w = -1) by congruence. subst w. reflexivity. }
    split.
    - unfold linearize, KK, rag_of. cbn [fst snd]. rewrite Ka, Kx. fold a. replace (kpos l <? zlen (snd e)) with true by lia. fold A.
      replace (0 <=? off1 (map snd A) a + kpos l) with true by lia. cbv zeta iota. rewrite I1, S1. replace (off1 (map snd A) a + kpos l - off1 (map snd A) a) with (kpos l) by lia.
      replace (0 <=? kpos l) with true by lia. cbv iota. rewrite L1, L2, VL. fold (lv row (kpos l) (lab (K f l) =? -1)).
      destruct (lab (K f l) =? -1) eqn:C; [|reflexivity]. rewrite FN by lia. reflexivity.
    - split; [|intros H2; rewrite H2; now apply FN]. unfold lv. destruct ((_ =? -1) || (_ =? 0)) eqn:C.
      + destruct (lab (K f l) =? -1) eqn:D; lia.
      + apply orb_false_iff in C. lia.
  Qed.

  Lemma lab_K f l : lab (K f l) = (if negb (lab (fst (karc f l)) =? -1) then (if kpos l =? 0 then lab (fst (karc f l)) else 0) else (if zlen (snd (karc f l)) <=? kpos l + 1 then -1 else 0)).
  Proof. destruct l as [[[i foo] j] m]. unfold K. destruct (karc f (i, foo, j, m)) as [a ls]. reflexivity. Qed.

  Lemma row_at k f i s x e : rd X k = Some f -> rd f i = Some s -> rd s x = Some e -> exists row, rd L (abase X k + (off1 f i + x)) = Some row /\ zlen row <= zlen (snd e).
  Proof. intros Hk Hi Hx. destruct (fit _ _ (A_at k f i s x e Hk Hi Hx)) as (row & H1 & H2 & _). eauto. Qed.

  Definition lin := linearize (splits_of (map snd A)) (ids_of (map snd A)) (rag_of L).

  Lemma lin_first k f i s x e row : rd X k = Some f -> rd f i = Some s -> rd s x = Some e -> rd L (abase X k + (off1 f i + x)) = Some row ->
    lin (KK X k f (i, 0, 0, x)) = Some (lv row 0 (lab (K f (i, 0, 0, x)) =? -1)) /\
    (lv row 0 (lab (K f (i, 0, 0, x)) =? -1) = -1 <-> lab (K f (i, 0, 0, x)) = -1).
  Proof.
    intros Hk Hi Hx Hr. destruct (first_arc_at f i s x e Hi Hx) as [_ Ka]. pose proof (long _ _ (A_at k f i s x e Hk Hi Hx)).
    apply (lin_gen k f i s x e (i, 0, 0, x) row Hk Hi Hx Ka (kidx_first f i x)); [change (kpos (i, 0, 0, x)) with 0; lia|exact Hr|]. rewrite lab_K, Ka. reflexivity.
  Qed.
  Lemma lin_inner k f i s x e row j : rd X k = Some f -> rd f i = Some s -> rd s x = Some e -> rd L (abase X k + (off1 f i + x)) = Some row -> 0 <= j < zlen (snd e) - 1 ->
    lin (KK X k f (i, x + 1, j, 0)) = Some (lv row (j + 1) (lab (K f (i, x + 1, j, 0)) =? -1)) /\
    (lv row (j + 1) (lab (K f (i, x + 1, j, 0)) =? -1) = -1 <-> lab (K f (i, x + 1, j, 0)) = -1).
  Proof.
    intros Hk Hi Hx Hr Bj. destruct (inner_arc_at f i s x e j Hi Hx Bj) as [_ Ka]. pose proof (rd_Some_bound _ _ _ Hx).
    assert (KP : kpos (i, x + 1, j, 0) = j + 1) by (apply kpos_inner; lia). rewrite <- KP.
    apply (lin_gen k f i s x e (i, x + 1, j, 0) row Hk Hi Hx Ka); [apply kidx_inner; lia|lia|exact Hr|]. now rewrite lab_K, Ka.
  Qed.

  Lemma lin_all : exists ls, mapM lin (out X) = Some ls.
  Proof.
    assert (H : forall y, In y (out X) -> exists v, lin y = Some v).
    { intros y Hy. apply In_rd in Hy. destruct Hy as (q & _ & Hq). destruct (out_inv X q y Hq) as (k & f & i & s & x & e & Hk & Hi & Hx & C).
      destruct (row_at k f i s x e Hk Hi Hx) as (row & Hr & _). destruct C as [(_ & ->)|(j & Bj & _ & ->)].
      - eexists. apply (lin_first k f i s x e row Hk Hi Hx Hr).
      - eexists. apply (lin_inner k f i s x e row j Hk Hi Hx Hr Bj). }
    exists (map (fun y => match lin y with Some v => v | None => 0 end) (out X)). apply mapM_Some_map. intros y Hy. destruct (H y Hy) as (v & ->). reflexivity.
  Qed.

  Variable ls : list Z.
  Hypothesis run : mapM lin (out X) = Some ls.

  Lemma ls_at q y : rd (out X) q = Some y -> rd ls q = lin y.
  Proof.
    intros H. assert (LL : zlen ls = zlen (out X)) by (unfold zlen; f_equal; eapply mapM_length; eauto).
    destruct (rd_in_bound ls q) as (v & Hv); [rewrite LL; eapply rd_Some_bound; eauto|]. destruct (mapM_rd _ _ _ _ _ run Hv) as (y' & Hy & E). rewrite Hv. congruence.
  Qed.

  Lemma values_chain k f i s x e row : rd X k = Some f -> rd f i = Some s -> rd s x = Some e -> rd L (abase X k + (off1 f i + x)) = Some row ->
    real (values ls (first_arc Ws k) (chain f i x (zlen (snd e)))) = real row.
  Proof.
    intros Hk Hi Hx Hr. pose proof (long _ _ (A_at k f i s x e Hk Hi Hx)) as Bn. pose proof (rd_Some_bound _ _ _ Hx) as Bx.
    destruct (row_at k f i s x e Hk Hi Hx) as (row' & Hr' & Br). replace row' with row in * by congruence. clear Hr'.
    set (fin := fun p => if p =? 0 then lab (K f (i, 0, 0, x)) =? -1 else lab (K f (i, x + 1, p - 1, 0)) =? -1).
    rewrite <- (real_lv row fin (zlen (snd e)) Br). f_equal. rewrite zrange_cons by lia. cbn [map]. unfold chain, values. cbn [flat_map].
    rewrite (ls_at _ _ (out_first X k f i s x e Hk Hi Hx)). destruct (lin_first k f i s x e row Hk Hi Hx Hr) as [-> _].
    cbn [app]. f_equal. unfold rest. replace (zlen (snd e) - 1 - 0) with (zlen (snd e) - 1) by lia. rewrite map_map.
    assert (Q : forall D, Forall (fun d => 0 <= d < zlen (snd e) - 1) D -> flat_map (fun j => match rd ls (first_arc Ws k + j) with Some x => [x] | None => [] end) (map (fun d => ai f i (x + 1) (0 + d) 0) D) = map (fun p => lv row (1 + p) (fin (1 + p))) D).
    { induction 1 as [|d D Hd HD IH]; [reflexivity|]. cbn [map flat_map]. change (0 + d) with d. rewrite (ls_at _ _ (out_inner X k f i s x e d Hk Hi Hx Hd)).
      destruct (lin_inner k f i s x e row d Hk Hi Hx Hr Hd) as [-> _]. rewrite IH. cbn [app]. f_equal. rewrite (Z.add_comm d 1). unfold fin. replace (1 + d =? 0) with false by lia.
      replace (1 + d - 1) with d by lia. reflexivity. }
    apply Q. apply Forall_forall. intros d Hd. apply in_zrange in Hd. lia.
  Qed.

  Lemma values_app v o u w : values v o (u ++ w) = values v o u ++ values v o w.
  Proof. apply flat_map_app. Qed.

  Lemma values_E k f s p t : rd X k = Some f -> apath (map (map fst) f) s p t ->
    real (values ls (first_arc Ws k) (E f p)) = real (lists L (first_arc V k) p).
  Proof.
    intros Hk. induction 1 as [s|a arc p t Ha H IH]; [reflexivity|].
    unfold all_arcs in Ha. rewrite <- concat_map, rd_map in Ha. destruct (rd (concat f) a) as [e|] eqn:Ee; [|discriminate]. injection Ha as <-.
    destruct (rd_concat_inv _ _ _ Ee) as (i & st & x & H1 & H2 & -> & _). unfold E. cbn [flat_map]. rewrite (chain_of_at f i st x e H1 H2), values_app, real_app.
    destruct (row_at k f i st x e Hk H1 H2) as (row & Hr & _). rewrite (values_chain k f i st x e row Hk H1 H2 Hr). fold (E f p). rewrite IH.
    unfold lists at 2. cbn [flat_map]. rewrite real_app. rewrite abase_V in Hr. fold V in Hr. rewrite Hr. reflexivity.
  Qed.

  Lemma values_final k f q a v : rd X k = Some f -> rd (all_arcs (expanded f)) q = Some a -> rd ls (first_arc Ws k + q) = Some v -> (v = -1 <-> lab a = -1).
  Proof.
    intros Hk Ha Hv. destruct (arc_inv f q a Ha) as (i & s & x & e & Hi & Hx & C). destruct (row_at k f i s x e Hk Hi Hx) as (row & Hr & _).
    destruct C as [(-> & ->)|(j & Bj & -> & ->)].
    - rewrite (ls_at _ _ (out_first X k f i s x e Hk Hi Hx)) in Hv. destruct (lin_first k f i s x e row Hk Hi Hx Hr) as [E1 E2]. rewrite E1 in Hv. injection Hv as <-. exact E2.
    - rewrite (ls_at _ _ (out_inner X k f i s x e j Hk Hi Hx Bj)) in Hv. destruct (lin_inner k f i s x e row j Hk Hi Hx Hr Bj) as [E1 E2]. rewrite E1 in Hv. injection Hv as <-. exact E2.
  Qed.
End Several.

(** ** C35: expand_ragged_attributes keeps the paths, their scores, their labels and
    their attributes *)
Theorem C35_expand_ragged (V : list nfsa) (rags : list (list (list Z))) :
  Forall (fun f => f = [] \/ valid f) V ->
  1 <= zlen rags <= 6 ->
  Forall (fun L => zlen L = zlen (concat (concat V))) rags ->
  exists Ws m labs,
    expand_arcs_py (splits_of V) (splits_of (concat V)) (concat (concat V)) (map rag_of rags) =
      Some (splits_of Ws, splits_of (concat Ws), concat (concat Ws), m, labs) /\
    zlen Ws = zlen V /\ zlen labs = zlen rags /\ zlen m = zlen (concat (concat Ws)) /\
    forall k f g, rd V k = Some f -> rd Ws k = Some g ->
      (f = [] -> g = []) /\ (f <> [] -> valid g) /\
      is_expansion V Ws m k f g /\
      forall r L ls, rd rags r = Some L -> rd labs r = Some ls ->
        zlen ls = zlen m /\
        (forall q, successful g q ->
           real (values ls (first_arc Ws k) q) =
           real (lists L (first_arc V k) (proj m (first_arc Ws k) (first_arc V k) q))) /\
        (forall q a v, rd (all_arcs g) q = Some a -> rd ls (first_arc Ws k + q) = Some v -> (v = -1 <-> lab a = -1)).
Proof.
  intros OK RN RL. rewrite Forall_forall in RL.
  (* the combined sizes *)
  assert (SZ : exists sizes, mapM (combined_size (concat (concat V)) (map rag_of rags)) (zrange (zlen (concat (concat V)))) = Some sizes /\
    zlen sizes = zlen (concat (concat V)) /\
    forall i a n, rd (concat (concat V)) i = Some a -> rd sizes i = Some n -> 1 <= n /\ forall L row, In L rags -> rd L i = Some row -> fits (lab a =? -1) n row).
  { set (AA := concat (concat V)) in *.
    assert (P : forall i, In i (zrange (zlen AA)) -> exists n, combined_size AA (map rag_of rags) i = Some n /\
      forall a, rd AA i = Some a -> 1 <= n /\ forall L row, In L rags -> rd L i = Some row -> fits (lab a =? -1) n row).
    { intros i Hi. apply in_zrange in Hi. destruct (rd_in_bound AA i Hi) as (a & Ha). unfold combined_size. rewrite Ha.
      destruct (combined_ok (lab a =? -1) rags i 1 ltac:(lia)) as (n & E1 & B1 & F1).
      - intros L HL. apply rd_in_bound. rewrite (RL L HL). exact Hi.
      - exists n. split; [exact E1|]. intros a' Ha'. replace a' with a by congruence. auto. }
    exists (map (fun i => match combined_size AA (map rag_of rags) i with Some n => n | None => 0 end) (zrange (zlen AA))). split; [|split].
    - apply mapM_Some_map. intros i Hi. destruct (P i Hi) as (n & -> & _). reflexivity.
    - rewrite zlen_map, zlen_zrange; [reflexivity|apply zlen_nonneg].
    - intros i a n Ha Hn. pose proof (rd_Some_bound _ _ _ Ha) as Bi. rewrite rd_map, rd_zrange in Hn by lia. cbn in Hn.
      destruct (P i) as (n' & E1 & F1); [apply in_zrange; lia|]. rewrite E1 in Hn. injection Hn as <-. now apply F1. }
  destruct SZ as (sizes & SZ1 & SZ2 & SZ3).
  destruct (attach V (map (fun n => repeat 0 (Z.to_nat n)) sizes)) as (X & X1 & X2); [rewrite zlen_map; exact SZ2|].
  assert (XA : map fst (concat (concat X)) = concat (concat V)) by (rewrite flat_A, X1; reflexivity).
  assert (PA : forall i a, rd (concat (concat X)) i = Some a -> exists n, rd sizes i = Some n /\ rd (concat (concat V)) i = Some (fst a) /\ snd a = repeat 0 (Z.to_nat n)).
  { intros i a Ha. assert (H1 : rd (map snd (concat (concat X))) i = Some (snd a)) by (rewrite rd_map, Ha; reflexivity).
    rewrite X2, rd_map in H1. destruct (rd sizes i) as [n|]; [|discriminate]. injection H1 as H1. exists n. split; [reflexivity|]. split; [|auto]. rewrite <- XA, rd_map, Ha. reflexivity. }
  assert (SS : Forall (fun n => 0 <= n) sizes).
  { apply Forall_forall. intros n Hn. apply In_rd in Hn. destruct Hn as (i & Bi & Hn). rewrite SZ2 in Bi. destruct (rd_in_bound _ _ Bi) as (a & Ha). destruct (SZ3 i a n Ha Hn). lia. }
  assert (CS : exsum sizes = splits_of (map snd (concat (concat X)))).
  { rewrite X2. unfold splits_of. f_equal. rewrite map_map. clear -SS. induction SS as [|n l Hn Hl IH]; [reflexivity|]. cbn [map]. rewrite <- IH. f_equal. unfold zlen. rewrite repeat_length. lia. }
  rewrite <- X1 in OK. pose proof (general_run X OK) as [GR GF]. rewrite X1 in GR.
  assert (LONG : forall i a, rd (concat (concat X)) i = Some a -> 1 <= zlen (snd a)).
  { intros i a Ha. destruct (PA i a Ha) as (n & Hn & Hv & ->). destruct (SZ3 i _ n Hv Hn) as [B _]. unfold zlen. rewrite repeat_length. lia. }
  assert (FIT : forall L, In L rags -> forall i a, rd (concat (concat X)) i = Some a -> exists row, rd L i = Some row /\ fits (lab (fst a) =? -1) (zlen (snd a)) row).
  { intros L HL i a Ha. destruct (PA i a Ha) as (n & Hn & Hv & ->). destruct (SZ3 i _ n Hv Hn) as [B F]. destruct (rd_in_bound L i) as (row & Hr); [rewrite (RL L HL); eapply rd_Some_bound; eauto|].
    exists row. split; [exact Hr|]. replace (zlen (repeat 0 (Z.to_nat n))) with n by (unfold zlen; rewrite repeat_length; lia). now apply (F L). }
  assert (LABS : exists labs, mapM (fun L => mapM (lin X L) (out X)) rags = Some labs).
  { exists (map (fun L => match mapM (lin X L) (out X) with Some l => l | None => [] end) rags). apply mapM_Some_map. intros L HL.
    destruct (lin_all X L LONG (FIT L HL)) as (ls & ->). reflexivity. }
  destruct LABS as (labs & LABS).
  exists (Ts X), (map (fun y => fst (snd y)) (out X)), labs. split.
  - unfold expand_arcs_py. rewrite zlen_map. replace (negb (zlen rags =? 0) && (zlen rags <=? 6)) with true by lia. cbv iota.
    replace (forallb _ (map rag_of rags)) with true.
    2:{ symmetry. apply forallb_forall. intros rag Hr. apply in_map_iff in Hr. destruct Hr as (L & <- & HL). unfold rag_of. cbn [fst]. rewrite zlen_splits_of, (RL L HL). lia. }
    rewrite SZ1. cbv zeta. rewrite CS.
    replace (zlen (concat (concat V))) with (zlen (map snd (concat (concat X)))) by (rewrite zlen_map, <- XA, zlen_map; reflexivity).
    rewrite rd_splits_off by (pose proof (zlen_nonneg (map snd (concat (concat X)))); lia). rewrite off1_all, row_ids_of_splits, GR.
    rewrite RaggedListProofs.mapM_map. unfold lin in LABS. rewrite LABS. now rewrite GF.
  - split; [unfold Ts; rewrite <- X1, !zlen_map; reflexivity|]. split; [unfold zlen; f_equal; eapply mapM_length; eauto|].
    split; [rewrite zlen_map, <- GF, zlen_map; reflexivity|]. intros k f g Hf Hg.
    rewrite <- X1, rd_map in Hf. destruct (rd X k) as [fx|] eqn:Hk; [|discriminate]. injection Hf as <-.
    destruct (part X OK k fx Hk) as (_ & P2 & _). rewrite P2 in Hg. injection Hg as <-.
    destruct (general X OK k fx Hk) as [G1 G2]. split; [destruct fx; [reflexivity|discriminate]|]. split; [intros N; apply G2; intros ->; now apply N|].
    split; [rewrite X1 in G1; exact G1|]. intros r L ls HL Hls. destruct (mapM_rd _ _ _ _ _ LABS Hls) as (L' & HL' & RUN). replace L' with L in * by congruence. clear HL'.
    pose proof (rd_In _ _ _ HL) as IL. split; [rewrite zlen_map; unfold zlen; f_equal; eapply mapM_length; eauto|]. split.
    + intros q Hq. apply (paths X OK k fx Hk) in Hq. destruct Hq as (p & [N Hp] & ->).
      pose proof (proj_E X k fx _ _ _ Hk Hp) as PE. rewrite X1 in PE. rewrite PE.
      rewrite (values_E X L LONG (FIT L IL) ls RUN k fx _ _ _ Hk Hp). now rewrite X1.
    + intros q a v Ha Hv. apply (values_final X L LONG (FIT L IL) ls RUN k fx q a v Hk Ha Hv).
Qed.
Print Assumptions C35_expand_ragged.

(** two FSAs, the second empty; two attributes, with empty lists, lists longer than
    one, and final arcs with and without -1 *)
Definition exf : nfsa := [[mkArc 0 1 5 10; mkArc 0 2 (-1) 20]; [mkArc 1 2 (-1) 30; mkArc 1 1 0 7]; []].
Example C35_ex :
  expand_arcs_py (splits_of [exf; []]) (splits_of (concat [exf; []])) (concat (concat [exf; []]))
    (map rag_of [[[1; 0; 2]; [7; -1]; []; [3]]; [[]; [8; 9]; [4; -1]; [6; 6]]]) =
  Some ([0; 9; 9], [0; 2; 3; 4; 5; 6; 8; 9; 10; 10],
        [mkArc 0 1 5 10; mkArc 0 3 0 20; mkArc 1 2 0 0; mkArc 2 5 0 0; mkArc 3 4 0 0; mkArc 4 8 (-1) 0;
         mkArc 5 6 0 30; mkArc 5 7 0 7; mkArc 6 8 (-1) 0; mkArc 7 5 0 0],
        [0; 1; -1; -1; -1; -1; 2; 3; -1; -1],
        [[1; 7; 0; 2; 0; -1; 0; 3; -1; 0]; [0; 8; 0; 0; 9; -1; 4; 6; -1; 6]]) /\
  Forall (fun f => f = [] \/ valid f) [exf; []].
Proof. split; [reflexivity|]. constructor; [right; apply validb_ok; reflexivity|]. constructor; [now left|constructor]. Qed.
