(** * Paths of an FSA with replaced arcs *)
From Coq Require Import ZArith List Lia Bool.
From Verif Require Import Base RaggedModel RaggedSpec RaggedProofs FsaSpec FsaLemmas EpsLoopProofs ScoreSpec ShortestSpec ScorePaths IntersectPaths ExpandProofs ExpandPaths ExpandProps ReplaceModel ReplaceProofs.
Import ListNotations.
Open Scope Z_scope.

(** ** Specification *)
(** an arc of the index FSA together with the arcs of its source FSA that are taken
    instead *)
Notation item := (Z * list Z)%type.
(** a replaced arc comes with a successful path of its source; an empty source counts
    as the empty path *)
Definition src_path (g : nfsa) (q : list Z) : Prop := match g with [] => q = [] | _ => successful g q end.
Definition item_ok (S : list nfsa) (begin : Z) (f : nfsa) (it : item) : Prop :=
  exists a, rd (all_arcs f) (fst it) = Some a /\
    match look S begin a with Some g => src_path g (snd it) | None => snd it = [] end.
(** a successful path of the index FSA, with a source path for every replaced arc *)
Definition subst_path (S : list nfsa) (begin : Z) (f : nfsa) (its : list item) : Prop :=
  successful f (map fst its) /\ Forall (item_ok S begin f) its.
Definition item_labels (S : list nfsa) (begin : Z) (f : nfsa) (it : item) : list Z :=
  match rd (all_arcs f) (fst it) with
  | Some a => match look S begin a with Some g => real (labels (arcs_at g (snd it))) | None => strip [lab a] end
  | None => []
  end.
Definition item_score (S : list nfsa) (begin : Z) (f : nfsa) (it : item) : Z :=
  match rd (all_arcs f) (fst it) with
  | Some a => sc a + match look S begin a with Some g => score (arcs_at g (snd it)) | None => 0 end
  | None => 0
  end.

Lemma g_arc g b e : valid g -> rd (all_arcs g) b = Some e -> exists r m, rd g (src e) = Some r /\ rd r m = Some e /\ b = off1 g (src e) + m /\
  0 <= src e < zlen g - 1 /\ 0 <= dst e < zlen g /\ (lab e = -1 <-> dst e = final g) /\ src e <> final g.
Proof.
  intros (SO & N & VA) H. pose proof (VA e (rd_In _ _ _ H)) as (V1 & V2 & V3 & V4). destruct (rd_concat_inv _ _ _ H) as (j & r & m & H1 & H2 & -> & _).
  assert (src e = j) by (apply (SO j r); auto; eapply rd_In; eauto). subst j. exists r, m. pose proof (rd_Some_bound _ _ _ H1). unfold nstates, final in *. repeat split; auto; try lia; apply V3.
Qed.

Section Paths.
  Variable S : list nfsa.
  Variable begin : Z.
  Variable f : nfsa.
  Notation lk := (look S begin).
  Notation G := (replaced S begin f).
  Notation UR := (UR S begin).
  Notation rblk := (rblk S begin).
  Notation rlst := (rlst S begin).
  Notation R := (R S begin).

  Definition ri (i foo j m : Z) : Z := off1 (concat (concat (UR f))) (rlst f i foo + j) + m.

  Lemma rat_coords i s foo O j row m l :
    rd f i = Some s -> rd (rblk i s) foo = Some O -> rd O j = Some row -> rd row m = Some l ->
    rd (concat (concat (UR f))) (rlst f i foo + j) = Some row /\
    rd (concat (concat (concat (UR f)))) (ri i foo j m) = Some l /\ rd (all_arcs G) (ri i foo j m) = Some (R f l).
  Proof.
    intros H1 H2 H3 H4.
    assert (E1 : rd (concat (UR f)) (off1 (UR f) i + foo) = Some O) by (apply (rd_concat_off _ _ (rblk i s) foo O); auto; now apply rd_UR).
    assert (E2 : rd (concat (concat (UR f))) (rlst f i foo + j) = Some row) by (apply (rd_concat_off _ _ O j row); auto).
    assert (E3 : rd (concat (concat (concat (UR f)))) (ri i foo j m) = Some l) by (apply (rd_concat_off _ _ row m l); auto).
    repeat split; auto. unfold replaced, all_arcs. rewrite <- concat_map, rd_map, E3. reflexivity.
  Qed.

  Lemma leaf_first i s x a : rd f i = Some s -> rd s x = Some a ->
    rd (concat (concat (concat (UR f)))) (ri i 0 0 x) = Some (i, 0, 0, x) /\ rd (all_arcs G) (ri i 0 0 x) = Some (R f (i, 0, 0, x)).
  Proof.
    intros H1 H2. pose proof (rd_Some_bound _ _ _ H2).
    apply (rat_coords i s 0 [map (fun m => (i, 0, 0, m)) (zrange (zlen s))] 0 (map (fun m => (i, 0, 0, m)) (zrange (zlen s)))); auto.
    rewrite rd_map, rd_zrange by lia. reflexivity.
  Qed.
  Lemma leaf_inner i s x a g j r m b : rd f i = Some s -> rd s x = Some a -> lk a = Some g -> 0 <= j < zlen g - 1 -> rd g j = Some r -> rd r m = Some b ->
    rd (concat (concat (concat (UR f)))) (ri i (x + 1) j m) = Some (i, x + 1, j, m) /\ rd (all_arcs G) (ri i (x + 1) j m) = Some (R f (i, x + 1, j, m)).
  Proof.
    intros H1 H2 Hg Bj Hr Hb. pose proof (rd_Some_bound _ _ _ H2). pose proof (rd_Some_bound _ _ _ Hb).
    apply (rat_coords i s (x + 1) (copy i (x + 1) g) j (map (fun m => (i, x + 1, j, m)) (zrange (zlen r)))); auto.
    - rewrite rd_rblk_S by lia. rewrite H2. cbn [option_map]. rewrite Hg. reflexivity.
    - unfold copy. rewrite rd_map, rd_zrange by lia. cbn [option_map]. rewrite Hr. reflexivity.
    - rewrite rd_map, rd_zrange by lia. reflexivity.
  Qed.

  Lemma R_first i s x a : rd f i = Some s -> rd s x = Some a -> R f (i, 0, 0, x) =
    match lk a with
    | None => mkArc (rlst f i 0) (rlst f (dst a) 0) (lab a) (sc a)
    | Some g => mkArc (rlst f i 0) (if zlen g =? 0 then rlst f (dst a) 0 else rlst f i (x + 1)) 0 (sc a)
    end.
  Proof. intros H1 H2. unfold ReplaceProofs.R. change (0 =? 0) with true. cbv iota. unfold iarc. rewrite H1, H2. reflexivity. Qed.
  Lemma R_inner i s x a g j r m b : rd f i = Some s -> rd s x = Some a -> lk a = Some g -> rd g j = Some r -> rd r m = Some b ->
    R f (i, x + 1, j, m) = mkArc (rlst f i (x + 1) + j) (if lab b =? -1 then rlst f (dst a) 0 else rlst f i (x + 1) + dst b) (if lab b =? -1 then 0 else lab b) (sc b).
  Proof.
    intros H1 H2 Hg Hr Hb. pose proof (rd_Some_bound _ _ _ H2). unfold ReplaceProofs.R. replace (x + 1 =? 0) with false by lia. replace (x + 1 - 1) with x by lia.
    unfold iarc. rewrite H1, H2, Hg, Hr, Hb. reflexivity.
  Qed.

  Lemma rarc_inv q e : rd (all_arcs G) q = Some e -> exists i s x a, rd f i = Some s /\ rd s x = Some a /\
    ((q = ri i 0 0 x /\ e = R f (i, 0, 0, x)) \/
     (exists g j r m b, lk a = Some g /\ 0 <= j < zlen g - 1 /\ rd g j = Some r /\ rd r m = Some b /\ q = ri i (x + 1) j m /\ e = R f (i, x + 1, j, m))).
  Proof.
    intros H. unfold replaced, all_arcs in H. rewrite <- concat_map, rd_map in H.
    destruct (rd (concat (concat (concat (UR f)))) q) as [l|] eqn:E; [|discriminate]. injection H as <-.
    destruct (rd_concat_inv _ _ _ E) as (o & row & m & H1 & H2 & -> & _).
    destruct (rd_concat_inv _ _ _ H1) as (g & O & j & K1 & K2 & -> & _).
    destruct (rd_concat_inv _ _ _ K1) as (i & B & foo & L1 & L2 & -> & _).
    pose proof (rd_Some_bound _ _ _ L1) as Bi. rewrite zlen_UR in Bi. destruct (rd_in_bound f i Bi) as (s & Hs).
    rewrite (rd_UR S begin f i s Hs) in L1. injection L1 as <-.
    destruct (rleaf_inv S begin i s foo O j row m l L2 K2 H2) as [-> [(-> & -> & a & Ha)|(Hfoo & a & h & r & b & Ha & Eh & Bj & Hr & Hb)]].
    - exists i, s, m, a. auto.
    - exists i, s, (foo - 1), a. replace (foo - 1 + 1) with foo by lia. split; [auto|]. split; [auto|]. right. exists h, j, r, m, b. repeat split; auto; lia.
  Qed.

  (** a state number determines its coordinates *)
  Lemma rst_rd i s foo O j : rd f i = Some s -> rd (rblk i s) foo = Some O -> 0 <= j < zlen O ->
    rd (ids_of (concat (UR f))) (rlst f i foo + j) = Some (off1 (UR f) i + foo) /\ rd (ids_of (UR f)) (off1 (UR f) i + foo) = Some i.
  Proof.
    intros H1 H2 B. destruct (rd_in_bound O j B) as (row & Hrow).
    destruct (rd_concat_off (UR f) i (rblk i s) foo O (rd_UR S begin f i s H1) H2) as [E1 E2]. split; auto.
    apply (rd_concat_off (concat (UR f)) _ O j row E1 Hrow).
  Qed.
  Lemma rst_inj i s foo O j i' s' foo' O' j' :
    rd f i = Some s -> rd (rblk i s) foo = Some O -> 0 <= j < zlen O ->
    rd f i' = Some s' -> rd (rblk i' s') foo' = Some O' -> 0 <= j' < zlen O' ->
    rlst f i foo + j = rlst f i' foo' + j' -> i = i' /\ foo = foo' /\ j = j'.
  Proof.
    intros H1 H2 B H1' H2' B' E. destruct (rst_rd i s foo O j H1 H2 B) as [E1 E2]. destruct (rst_rd i' s' foo' O' j' H1' H2' B') as [E1' E2'].
    rewrite E in E1. assert (Eg : off1 (UR f) i + foo = off1 (UR f) i' + foo') by congruence. rewrite Eg in E2.
    assert (i = i') by congruence. subst i'. assert (foo = foo') by lia. subst foo'. split; auto. split; auto. lia.
  Qed.
  Lemma rblk0_len i s : rd (rblk i s) 0 = Some [map (fun m => (i, 0, 0, m)) (zrange (zlen s))] /\ 0 <= 0 < zlen [map (fun m => (i, 0, 0, m)) (zrange (zlen s))].
  Proof. split; [reflexivity|]. change (zlen [_]) with 1. lia. Qed.
  Lemma rblkS_len i s x a g j : rd s x = Some a -> lk a = Some g -> 0 <= j < zlen g - 1 ->
    rd (rblk i s) (x + 1) = Some (copy i (x + 1) g) /\ 0 <= j < zlen (copy i (x + 1) g).
  Proof.
    intros H Hg B. pose proof (rd_Some_bound _ _ _ H). split; [rewrite rd_rblk_S by lia; rewrite H; cbn [option_map]; rewrite Hg; reflexivity|]. unfold copy. rewrite zlen_map, zlen_zrange by lia. lia.
  Qed.
  Lemma rlst_inj i i' s s' : rd f i = Some s -> rd f i' = Some s' -> rlst f i 0 = rlst f i' 0 -> i = i'.
  Proof.
    intros H H' E. destruct (rblk0_len i s) as [B1 B2]. destruct (rblk0_len i' s') as [B1' B2'].
    destruct (rst_inj i s 0 _ 0 i' s' 0 _ 0 H B1 B2 H' B1' B2') as [? _]; auto. lia.
  Qed.
  Lemma rst_bound i s foo O j : rd f i = Some s -> rd (rblk i s) foo = Some O -> 0 <= j < zlen O -> 0 <= rlst f i foo + j < zlen G.
  Proof.
    intros H1 H2 B. unfold replaced. rewrite zlen_map. destruct (rd_in_bound O j B) as (row & Hrow).
    assert (E1 : rd (concat (UR f)) (off1 (UR f) i + foo) = Some O) by (apply (rd_concat_off _ _ (rblk i s) foo O); auto; now apply rd_UR).
    eapply rd_Some_bound. apply (rd_concat_off _ _ O j row); eauto.
  Qed.

  (** ** Chains *)
  Definition cp (i x : Z) (g : nfsa) (b : Z) : Z := match rd (ids_of g) b with Some j => ri i (x + 1) j (b - off1 g j) | None => 0 end.
  Definition rchain_of (it : item) : list Z :=
    match rd (ids_of f) (fst it), rd (all_arcs f) (fst it) with
    | Some i, Some a => let x := fst it - off1 f i in ri i 0 0 x :: match lk a with Some g => map (cp i x g) (snd it) | None => [] end
    | _, _ => []
    end.
  Definition RE (its : list item) : list Z := flat_map rchain_of its.

  Lemma rchain_of_at i s x a q : rd f i = Some s -> rd s x = Some a ->
    rchain_of (off1 f i + x, q) = ri i 0 0 x :: match lk a with Some g => map (cp i x g) q | None => [] end.
  Proof.
    intros H1 H2. unfold rchain_of, all_arcs. cbn [fst snd]. destruct (rd_concat_off f i s x a H1 H2) as [-> ->]. cbv zeta. now replace (off1 f i + x - off1 f i) with x by lia.
  Qed.
  Lemma cp_at i x g j r m b : rd g j = Some r -> rd r m = Some b -> cp i x g (off1 g j + m) = ri i (x + 1) j m.
  Proof. intros H1 H2. unfold cp. destruct (rd_concat_off g j r m b H1 H2) as [_ ->]. f_equal. lia. Qed.

  Hypothesis okS : Forall (fun g => g = [] \/ valid g) S.
  Hypothesis srcF : src_ok f.
  Hypothesis dstF : forall a, In a (all_arcs f) -> 0 <= dst a < zlen f.

  Lemma rarcs_F i s x a : rd f i = Some s -> rd s x = Some a -> rd (all_arcs f) (off1 f i + x) = Some a /\ src a = i /\ 0 <= dst a < zlen f.
  Proof.
    intros H1 H2. destruct (rd_concat_off f i s x a H1 H2) as [E _]. split; [exact E|]. split; [apply (srcF i s); auto; eapply rd_In; eauto|apply dstF; eapply rd_In; eauto].
  Qed.
  Lemma src_valid a g : lk a = Some g -> g = [] \/ valid g.
  Proof. intros H. rewrite Forall_forall in okS. apply okS. unfold look in H. eapply rd_In; eauto. Qed.

  (** the states of a copy *)
  Definition cst (i x : Z) (a : arc) (g : nfsa) (j : Z) : Z := if j =? final g then rlst f (dst a) 0 else rlst f i (x + 1) + j.

  Lemma copy_path i s x a g : rd f i = Some s -> rd s x = Some a -> lk a = Some g -> valid g ->
    forall j q t, apath g j q t -> apath G (cst i x a g j) (map (cp i x g) q) (cst i x a g t).
  Proof.
    intros H1 H2 Hg Vg. induction 1 as [j|b e q t Hb H IH]; [constructor|]. cbn [map].
    destruct (g_arc g b e Vg Hb) as (r & m & Hr & Hm & -> & Bs & Bd & Lf & Sf). rewrite (cp_at i x g (src e) r m e Hr Hm).
    destruct (leaf_inner i s x a g (src e) r m e H1 H2 Hg Bs Hr Hm) as [_ Ha]. pose proof (R_inner i s x a g (src e) r m e H1 H2 Hg Hr Hm) as RI.
    replace (cst i x a g (src e)) with (src (R f (i, x + 1, src e, m))) by (rewrite RI; unfold cst; replace (src e =? final g) with false by lia; reflexivity).
    apply ap_cons with (1 := Ha). rewrite RI. cbn [dst].
    replace (if lab e =? -1 then rlst f (dst a) 0 else rlst f i (x + 1) + dst e) with (cst i x a g (dst e)); [exact IH|].
    unfold cst. destruct (lab e =? -1) eqn:E1; destruct (dst e =? final g) eqn:E2; try reflexivity; exfalso; lia.
  Qed.

  Lemma item_path it a : rd (all_arcs f) (fst it) = Some a -> item_ok S begin f it -> apath G (rlst f (src a) 0) (rchain_of it) (rlst f (dst a) 0).
  Proof.
    intros Ha (a' & Ha' & OK). replace a' with a in * by congruence. clear Ha'. destruct it as [n q]. cbn [fst snd] in *.
    destruct (rd_concat_inv _ _ _ Ha) as (i & s & x & H1 & H2 & -> & _). rewrite (rchain_of_at i s x a q H1 H2). destruct (rarcs_F i s x a H1 H2) as (_ & Es & Ed). rewrite Es.
    destruct (leaf_first i s x a H1 H2) as [_ Hf]. pose proof (R_first i s x a H1 H2) as RF.
    replace (rlst f i 0) with (src (R f (i, 0, 0, x))) by (rewrite RF; destruct (lk a); reflexivity).
    apply ap_cons with (1 := Hf). rewrite RF. destruct (lk a) as [g|] eqn:Eg; [|constructor]. cbn [dst].
    destruct (src_valid a g Eg) as [->|Vg].
    - cbn [src_path] in OK. subst q. constructor.
    - assert (Ng : zlen g =? 0 = false) by (destruct Vg as (_ & N & _); unfold nstates in N; lia). rewrite Ng.
      assert (SP : successful g q) by (destruct g; [discriminate|exact OK]). destruct SP as [_ SP]. pose proof (copy_path i s x a g H1 H2 Eg Vg 0 q _ SP) as CP.
      unfold cst in CP. destruct Vg as (_ & N & _). unfold final, nstates in *. replace (0 =? zlen g - 1) with false in CP by lia. replace (zlen g - 1 =? zlen g - 1) with true in CP by lia. now rewrite Z.add_0_r in CP.
  Qed.

  Lemma RE_path s t : forall its, apath f s (map fst its) t -> Forall (item_ok S begin f) its -> apath G (rlst f s 0) (RE its) (rlst f t 0).
  Proof.
    intros its. revert s. induction its as [|it its IH]; intros s H HF; inversion H; subst; [constructor|].
    inversion HF; subst. unfold RE. cbn [flat_map]. apply apath_app. exists (rlst f (dst a) 0). split; [now apply item_path|]. now apply IH.
  Qed.

  (** from an inner state the copy has to be left through a final arc *)
  Lemma copy_forced i s x a g t st : rd f i = Some s -> rd s x = Some a -> lk a = Some g -> valid g -> rd f t = Some st ->
    forall q j, 0 <= j < zlen g - 1 -> apath G (rlst f i (x + 1) + j) q (rlst f t 0) ->
    exists q1 q2, q = map (cp i x g) q1 ++ q2 /\ apath g j q1 (final g) /\ apath G (rlst f (dst a) 0) q2 (rlst f t 0).
  Proof.
    intros H1 H2 Hg Vg Ht. pose proof (rd_Some_bound _ _ _ H2) as Bx. induction q as [|q0 q IH]; intros j Bj H; destruct (rblkS_len i s x a g j H2 Hg Bj) as [B1 B2].
    - exfalso. inversion H; subst. destruct (rblk0_len t st) as [B1' B2'].
      destruct (rst_inj i s (x + 1) _ j t st 0 _ 0 H1 B1 B2 Ht B1' B2') as (_ & ? & _); lia.
    - inversion H as [|q0' e q' t' He Hq Es Eq Et]; subst.
      destruct (rarc_inv q0 e He) as (i' & s' & x' & a' & H1' & H2' & [(-> & ->)|(g' & j' & r & m & b & Hg' & Bj' & Hr & Hb & -> & ->)]).
      + exfalso. rewrite (R_first i' s' x' a' H1' H2') in Es. assert (Es' : rlst f i' 0 = rlst f i (x + 1) + j) by (destruct (lk a'); exact Es). destruct (rblk0_len i' s') as [B1' B2'].
        destruct (rst_inj i s (x + 1) _ j i' s' 0 _ 0 H1 B1 B2 H1' B1' B2') as (_ & ? & _); lia.
      + rewrite (R_inner i' s' x' a' g' j' r m b H1' H2' Hg' Hr Hb) in Es, Hq. cbn [src dst] in Es, Hq. pose proof (rd_Some_bound _ _ _ H2') as Bx'.
        destruct (rblkS_len i' s' x' a' g' j' H2' Hg' Bj') as [B1' B2'].
        destruct (rst_inj i s (x + 1) _ j i' s' (x' + 1) _ j' H1 B1 B2 H1' B1' B2') as (<- & Ex & <-); [lia|]. replace x' with x in * by lia.
        replace s' with s in * by congruence. replace a' with a in * by congruence. replace g' with g in * by congruence.
        assert (Gb : rd (all_arcs g) (off1 g j + m) = Some b) by (apply (rd_concat_off g j r m b Hr Hb)).
        destruct (g_arc g _ b Vg Gb) as (_ & _ & _ & _ & _ & Bs & Bd & Lf & Sf). assert (Eb : src b = j) by (destruct Vg as (SO & _); apply (SO j r); auto; eapply rd_In; eauto).
        destruct (lab b =? -1) eqn:El.
        * exists [off1 g j + m], q. cbn [map app]. rewrite (cp_at i x g j r m b Hr Hb). split; [reflexivity|]. split; [|exact Hq]. rewrite <- Eb at 1. apply ap_cons with (1 := Gb). replace (dst b) with (final g) by (symmetry; apply Lf; lia). constructor.
        * assert (dst b <> final g) by (rewrite <- Lf; lia). destruct (IH (dst b)) as (q1 & q2 & -> & P1 & P2); [unfold final, nstates in *; lia|exact Hq|].
          exists ((off1 g j + m) :: q1), q2. cbn [map app]. rewrite (cp_at i x g j r m b Hr Hb). split; [reflexivity|]. split; [|exact P2]. rewrite <- Eb at 1. now apply ap_cons with (1 := Gb).
  Qed.

  Lemma RE_onto n : forall q s ss t st, (length q <= n)%nat -> rd f s = Some ss -> rd f t = Some st -> apath G (rlst f s 0) q (rlst f t 0) ->
    exists its, apath f s (map fst its) t /\ Forall (item_ok S begin f) its /\ q = RE its.
  Proof.
    induction n as [|n IH]; intros q s ss t st Hn Hs Ht H.
    - destruct q; [|simpl in Hn; lia]. inversion H; subst. exists []. split; [|split; [constructor|reflexivity]]. rewrite (rlst_inj s t ss st) by auto. constructor.
    - inversion H as [u Eu Eq Et|q0 e q' t' He Hq Es Eq Et]; subst.
      + exists []. split; [|split; [constructor|reflexivity]]. rewrite (rlst_inj s t ss st) by auto. constructor.
      + destruct (rblk0_len s ss) as [B1 B2].
        destruct (rarc_inv q0 e He) as (i & s' & x & a & H1 & H2 & [(-> & ->)|(g & j & r & m & b & Hg & Bj & Hr & Hb & -> & ->)]).
        2:{ exfalso. rewrite (R_inner i s' x a g j r m b H1 H2 Hg Hr Hb) in Es. cbn [src] in Es. pose proof (rd_Some_bound _ _ _ H2).
            destruct (rblkS_len i s' x a g j H2 Hg Bj) as [B1' B2']. destruct (rst_inj s ss 0 _ 0 i s' (x + 1) _ j Hs B1 B2 H1 B1' B2') as (_ & ? & _); lia. }
        rewrite (R_first i s' x a H1 H2) in Es, Hq. assert (Es' : rlst f i 0 = rlst f s 0) by (destruct (lk a); exact Es). rewrite <- (rlst_inj i s s' ss) by auto.
        destruct (rarcs_F i s' x a H1 H2) as (Fa & Sa & Da). destruct (rd_in_bound f _ Da) as (sd & Hsd).
        assert (exists q1 q2, item_ok S begin f (off1 f i + x, q1) /\ ri i 0 0 x :: q' = rchain_of (off1 f i + x, q1) ++ q2 /\ apath G (rlst f (dst a) 0) q2 (rlst f t 0)) as (q1 & q2 & OK & Eq & Hq2).
        { destruct (lk a) as [g|] eqn:Eg; cbn [dst] in Hq.
          - destruct (src_valid a g Eg) as [->|Vg].
            + exists [], q'. split; [|split; [|exact Hq]].
              * exists a. cbn [fst snd]. split; [exact Fa|]. rewrite Eg. reflexivity.
              * rewrite (rchain_of_at i s' x a [] H1 H2), Eg. reflexivity.
            + assert (Ng : 2 <= zlen g) by (destruct Vg as (_ & N & _); exact N). replace (zlen g =? 0) with false in Hq by lia. rewrite <- (Z.add_0_r (rlst f i (x + 1))) in Hq.
              destruct (copy_forced i s' x a g t st H1 H2 Eg Vg Ht q' 0 ltac:(lia) Hq) as (q1 & q2 & -> & P1 & P2).
              exists q1, q2. split; [|split; [|exact P2]].
              * exists a. cbn [fst snd]. split; [exact Fa|]. rewrite Eg. destruct g; [exfalso; cbn in Ng; change (zlen (@nil (list arc))) with 0 in Ng; lia|]. split; [unfold nstates; lia|exact P1].
              * rewrite (rchain_of_at i s' x a q1 H1 H2), Eg. reflexivity.
          - exists [], q'. split; [|split; [|exact Hq]].
            + exists a. cbn [fst snd]. split; [exact Fa|]. rewrite Eg. reflexivity.
            + rewrite (rchain_of_at i s' x a [] H1 H2), Eg. reflexivity. }
        assert (LE : (length q2 <= n)%nat).
        { apply (f_equal (@length Z)) in Eq. rewrite app_length in Eq. rewrite (rchain_of_at i s' x a q1 H1 H2) in Eq. simpl in Hn, Eq. lia. }
        destruct (IH q2 (dst a) sd t st LE Hsd Ht Hq2) as (its & Hp & HF & ->).
        exists ((off1 f i + x, q1) :: its). split; [|split; [now constructor|]].
        * cbn [map fst]. pose proof (ap_cons f _ _ _ _ Fa Hp) as HH. rewrite Sa in HH. exact HH.
        * rewrite Eq. reflexivity.
  Qed.

  Lemma rlst_0 : rlst f 0 0 = 0.
  Proof. unfold ReplaceProofs.rlst. change (off1 (UR f) 0) with 0. reflexivity. Qed.

  Hypothesis last_empty : rd f (zlen f - 1) = Some [].

  Lemma rfinal_G : zlen G - 1 = rlst f (zlen f - 1) 0.
  Proof.
    pose proof (rd_Some_bound _ _ _ last_empty) as B.
    unfold replaced. rewrite zlen_map. rewrite <- (off1_all (concat (UR f))), <- (off1_all (UR f)), zlen_UR.
    replace (zlen f) with (zlen f - 1 + 1) at 1 by lia. rewrite (off1_next (UR f) _ (rblk (zlen f - 1) [])) by (now apply rd_UR).
    rewrite zlen_rblk. change (1 + zlen (@nil arc)) with 1. unfold ReplaceProofs.rlst. rewrite Z.add_0_r.
    rewrite (off1_next (concat (UR f)) _ [[]]); [change (zlen [[]]) with 1; lia|].
    replace (off1 (UR f) (zlen f - 1)) with (off1 (UR f) (zlen f - 1) + 0) by lia.
    apply (rd_concat_off (UR f) _ (rblk (zlen f - 1) [])); [now apply rd_UR|reflexivity].
  Qed.

  Lemma rsuccessful_iff q : successful G q <-> exists its, subst_path S begin f its /\ q = RE its.
  Proof.
    pose proof (rd_Some_bound _ _ _ last_empty) as B. destruct (rd_in_bound f 0 ltac:(lia)) as (s0 & H0).
    assert (LG : 0 < zlen G).
    { pose proof rfinal_G as FG. unfold ReplaceProofs.rlst in FG. pose proof (off1_nonneg (concat (UR f)) (off1 (UR f) (zlen f - 1) + 0)). lia. }
    unfold subst_path, successful, nstates. rewrite rfinal_G. split.
    - intros [_ H]. rewrite <- rlst_0 in H. destruct (RE_onto (length q) q 0 s0 (zlen f - 1) [] (le_n _) H0 last_empty H) as (its & Hp & HF & ->). exists its. split; [split; [split; [lia|exact Hp]|exact HF]|reflexivity].
    - intros (its & [[_ Hp] HF] & ->). split; [exact LG|]. pose proof (RE_path _ _ its Hp HF) as HH. rewrite rlst_0 in HH. exact HH.
  Qed.

  (** ** Labels and scores *)
  Lemma copy_attr i s x a g : rd f i = Some s -> rd s x = Some a -> lk a = Some g -> valid g ->
    forall j q t, apath g j q t -> strip (labels (arcs_at G (map (cp i x g) q))) = real (labels (arcs_at g q)) /\ score (arcs_at G (map (cp i x g) q)) = score (arcs_at g q).
  Proof.
    intros H1 H2 Hg Vg. induction 1 as [j|b e q t Hb H [I1 I2]]; [split; reflexivity|]. cbn [map].
    destruct (g_arc g b e Vg Hb) as (r & m & Hr & Hm & -> & Bs & Bd & Lf & Sf). rewrite (cp_at i x g (src e) r m e Hr Hm).
    destruct (leaf_inner i s x a g (src e) r m e H1 H2 Hg Bs Hr Hm) as [_ Ha]. rewrite (arcs_at_cons _ _ _ _ Ha), (arcs_at_cons _ _ _ _ Hb), !score_cons, I2.
    rewrite (R_inner i s x a g (src e) r m e H1 H2 Hg Hr Hm). cbn [sc]. split; [|reflexivity].
    unfold labels in *. cbn [map lab]. unfold strip, real in *. cbn [filter]. rewrite I1. destruct (lab e =? -1) eqn:E1; [|rewrite orb_false_r; reflexivity].
    replace (lab e =? 0) with false by lia. reflexivity.
  Qed.

  Lemma item_attr it : item_ok S begin f it -> strip (labels (arcs_at G (rchain_of it))) = item_labels S begin f it /\ score (arcs_at G (rchain_of it)) = item_score S begin f it.
  Proof.
    intros (a & Ha & OK). unfold item_labels, item_score. rewrite Ha. destruct it as [n q]. cbn [fst snd] in *.
    destruct (rd_concat_inv _ _ _ Ha) as (i & s & x & H1 & H2 & -> & _). rewrite (rchain_of_at i s x a q H1 H2).
    destruct (leaf_first i s x a H1 H2) as [_ Hf]. rewrite (arcs_at_cons _ _ _ _ Hf), score_cons, (R_first i s x a H1 H2).
    destruct (lk a) as [g|] eqn:Eg; [|split; [reflexivity|cbn; lia]]. cbn [sc].
    assert (Q : strip (labels (arcs_at G (map (cp i x g) q))) = real (labels (arcs_at g q)) /\ score (arcs_at G (map (cp i x g) q)) = score (arcs_at g q)).
    { destruct (src_valid a g Eg) as [->|Vg].
      - cbn [src_path] in OK. subst q. split; reflexivity.
      - assert (SP : successful g q) by (destruct g; [destruct Vg as (_ & N & _); vm_compute in N; exfalso; apply N; reflexivity|exact OK]). destruct SP as [_ SP]. eapply copy_attr; eauto. }
    destruct Q as [Q1 Q2]. split; [exact Q1|]. now rewrite Q2.
  Qed.

  Lemma RE_attr its : Forall (item_ok S begin f) its ->
    strip (labels (arcs_at G (RE its))) = flat_map (item_labels S begin f) its /\ score (arcs_at G (RE its)) = zsum (map (item_score S begin f) its).
  Proof.
    induction 1 as [|it its OK HF [I1 I2]]; [split; reflexivity|]. unfold RE. cbn [flat_map map]. fold (RE its). destruct (item_attr it OK) as [J1 J2].
    rewrite arcs_at_app. unfold labels, score in *. rewrite !map_app, FsaLemmas.strip_app, zsum_app, I1, I2, J1, J2. split; reflexivity.
  Qed.

  (** ** Validity *)
  Lemma rsrc_ok_G : src_ok G.
  Proof.
    clear. intros o row b Ho Hb. unfold replaced in Ho. rewrite rd_map in Ho. destruct (rd (concat (concat (UR f))) o) as [r|] eqn:Er; [|discriminate]. injection Ho as <-.
    apply in_map_iff in Hb. destruct Hb as (l & <- & Hl). apply In_rd in Hl. destruct Hl as (m & _ & Hm).
    destruct (rd_concat_inv _ _ _ Er) as (g & O & j & K1 & K2 & -> & _). destruct (rd_concat_inv _ _ _ K1) as (i & B & foo & L1 & L2 & -> & _).
    pose proof (rd_Some_bound _ _ _ L1) as Bi. rewrite zlen_UR in Bi. destruct (rd_in_bound f i Bi) as (s & Hs). rewrite (rd_UR S begin f i s Hs) in L1. injection L1 as <-.
    destruct (rleaf_inv S begin i s foo O j r m l L2 K2 Hm) as [-> [(-> & -> & a & Ha)|(Hfoo & a & h & r' & b & Ha & Eh & Bj & Hr & Hb)]].
    - rewrite (R_first i s m a Hs Ha). change (ReplaceProofs.rlst S begin f i 0) with (rlst f i 0). unfold ReplaceProofs.rlst. destruct (lk a); cbn [src]; lia.
    - replace foo with (foo - 1 + 1) by lia. rewrite (R_inner i s (foo - 1) a h j r' m b Hs Ha Eh Hr Hb). reflexivity.
  Qed.

  Hypothesis begin0 : 0 <= begin.
  Lemma rvalid_G : valid f -> valid G.
  Proof.
    intros (_ & N & VA). pose proof (rd_Some_bound _ _ _ last_empty) as BL. unfold nstates in N.
    destruct (rd_in_bound f 0 ltac:(lia)) as (s0 & H0).
    assert (FL : 0 < rlst f (zlen f - 1) 0).
    { pose proof (rlst_inj 0 (zlen f - 1) s0 [] H0 last_empty) as I. rewrite rlst_0 in I. pose proof (off1_nonneg (concat (UR f)) (off1 (UR f) (zlen f - 1) + 0)). unfold ReplaceProofs.rlst in *.
      destruct (Z.eq_dec 0 (off1 (concat (UR f)) (off1 (UR f) (zlen f - 1) + 0))) as [Eq|Nq]; [specialize (I Eq); lia|lia]. }
    split; [apply rsrc_ok_G|]. unfold nstates, final, nstates. pose proof rfinal_G as FG. split; [lia|].
    intros b Hb. apply In_rd in Hb. destruct Hb as (q & _ & Hq). destruct (rarc_inv q b Hq) as (i & s & x & a & H1 & H2 & C).
    destruct (rarcs_F i s x a H1 H2) as (Fa & Sa & Da). pose proof (rd_In _ _ _ Fa) as Fi. destruct (VA _ Fi) as (_ & V2 & V3 & V4). unfold final, nstates in V3, V4. rewrite Sa in *.
    destruct (rd_in_bound f _ Da) as (sd & Hsd). destruct (rblk0_len (dst a) sd) as [D1 D2]. pose proof (rst_bound _ _ _ _ _ Hsd D1 D2) as SD. rewrite Z.add_0_r in SD.
    destruct (rblk0_len (zlen f - 1) []) as [Z1 Z2]. rewrite FG.
    assert (DF : rlst f (dst a) 0 = rlst f (zlen f - 1) 0 <-> lab a = -1).
    { rewrite V3. split; [apply (rlst_inj _ _ sd []); auto|intros ->; reflexivity]. }
    assert (LK : forall g, lk a = Some g -> lab a <> -1).
    { intros g Hg E. unfold look in Hg. pose proof (rd_Some_bound _ _ _ Hg). lia. }
    pose proof (rd_Some_bound _ _ _ H2) as Bx.
    destruct C as [(-> & ->)|(g & j & r & m & e & Hg & Bj & Hr & Hm & -> & ->)].
    - rewrite (R_first i s x a H1 H2).
      assert (SF : rlst f i 0 <> rlst f (zlen f - 1) 0) by (intros Eq; apply V4; apply (rlst_inj _ _ s []); auto).
      destruct (lk a) as [g|] eqn:Eg; cbn [src dst lab].
      + pose proof (LK g eq_refl) as NL. destruct (zlen g =? 0) eqn:Zg.
        * split; [lia|]. split; [lia|]. split; [|exact SF]. rewrite DF. lia.
        * destruct (src_valid a g Eg) as [->|Vg]; [discriminate|]. destruct Vg as (_ & Ng & _). unfold nstates in Ng.
          destruct (rblkS_len i s x a g 0 H2 Eg ltac:(lia)) as [B1' B2']. pose proof (rst_bound _ _ _ _ _ H1 B1' B2') as SB. rewrite Z.add_0_r in SB. split; [lia|].
          assert (NF : rlst f i (x + 1) <> rlst f (zlen f - 1) 0).
          { intros Eq. destruct (rst_inj i s (x + 1) _ 0 (zlen f - 1) [] 0 _ 0 H1 B1' B2' last_empty Z1 Z2) as (_ & ? & _); lia. }
          split; [lia|]. split; [|exact SF]. split; intros; [lia|contradiction].
      + split; [lia|]. split; [lia|]. split; [|exact SF]. rewrite DF. tauto.
    - rewrite (R_inner i s x a g j r m e H1 H2 Hg Hr Hm). cbn [src dst lab].
      pose proof (LK g Hg) as NL. destruct (rblkS_len i s x a g j H2 Hg Bj) as [B1 B2].
      assert (SF : rlst f i (x + 1) + j <> rlst f (zlen f - 1) 0).
      { intros Eq. destruct (rst_inj i s (x + 1) _ j (zlen f - 1) [] 0 _ 0 H1 B1 B2 last_empty Z1 Z2) as (_ & ? & _); lia. }
      destruct (src_valid a g Hg) as [->|Vg]; [exfalso; change (zlen (@nil (list arc))) with 0 in Bj; lia|].
      assert (Ge : rd (all_arcs g) (off1 g j + m) = Some e) by (apply (rd_concat_off g j r m e Hr Hm)).
      destruct (g_arc g _ e Vg Ge) as (_ & _ & _ & _ & _ & Bs & Bd & Lf & Sf). destruct Vg as (_ & _ & Ag). destruct (Ag e (rd_In _ _ _ Ge)) as (_ & L1 & _).
      destruct (lab e =? -1) eqn:El.
      + split; [lia|]. split; [lia|]. split; [|exact SF]. rewrite DF. lia.
      + assert (De : dst e <> final g) by (rewrite <- Lf; lia). unfold final, nstates in De.
        destruct (rblkS_len i s x a g (dst e) H2 Hg ltac:(lia)) as [B1' B2']. pose proof (rst_bound _ _ _ _ _ H1 B1' B2') as SB. split; [lia|]. split; [lia|]. split; [|exact SF].
        split; intros Eq; [lia|exfalso]. destruct (rst_inj i s (x + 1) _ (dst e) (zlen f - 1) [] 0 _ 0 H1 B1' B2' last_empty Z1 Z2) as (_ & ? & _); lia.
  Qed.
End Paths.
