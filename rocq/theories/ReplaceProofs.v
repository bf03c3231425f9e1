(** * Proofs about ReplaceFsa: what the kernels compute. *)
From Coq Require Import ZArith List Lia Bool.
From Verif Require Import Base RaggedModel RaggedSpec RaggedProofs FsaSpec FsaLemmas GraphModel GraphProofs EpsLoopProofs PropsProps ExpandProofs ReplaceModel.
Import ListNotations.
Open Scope Z_scope.

(** the FSA replacing an arc *)
Definition look (S : list nfsa) (begin : Z) (a : arc) : option nfsa := rd S (lab a - begin).

(** the leaves of the copy of [g] made for arc [foo - 1] of state [i]: all states but
    the last *)
Definition copy (i foo : Z) (g : nfsa) : list (list leaf) :=
  map (fun j => map (fun m => (i, foo, j, m)) (zrange (match rd g j with Some row => zlen row | None => 0 end))) (zrange (Z.max (zlen g - 1) 0)).
Definition copies (i foo : Z) (o : option nfsa) : list (list leaf) := match o with Some g => copy i foo g | None => [] end.

Section Rep.
Variable S : list nfsa.
Variable begin : Z.
Notation lk := (look S begin).

Definition rblk (i : Z) (s : list arc) : list (list (list leaf)) :=
  [map (fun m => (i, 0, 0, m)) (zrange (zlen s))] :: imap (fun x a => copies i (x + 1) (lk a)) 0 s.
Definition UR (f : nfsa) : list (list (list (list leaf))) := imap rblk 0 f.

Lemma zlen_rblk i s : zlen (rblk i s) = 1 + zlen s.
Proof. unfold rblk. now rewrite zlen_cons, zlen_imap. Qed.
Lemma zlen_UR f : zlen (UR f) = zlen f.
Proof. unfold UR. now rewrite zlen_imap. Qed.
Lemma rd_UR f i s : rd f i = Some s -> rd (UR f) i = Some (rblk i s).
Proof. intros H. unfold UR. rewrite rd_imap, H. reflexivity. Qed.

Lemma rd_rblk_0 i s : rd (rblk i s) 0 = Some [map (fun m => (i, 0, 0, m)) (zrange (zlen s))].
Proof. reflexivity. Qed.
Lemma rd_rblk_S i s x : 0 <= x -> rd (rblk i s) (x + 1) = option_map (fun a => copies i (x + 1) (lk a)) (rd s x).
Proof.
  intros H. unfold rblk. rewrite rd_cons. replace (x + 1 =? 0) with false by lia. replace (x + 1 - 1) with x by lia. rewrite rd_imap.
  destruct (rd s x); [|reflexivity]. cbn [option_map]. repeat f_equal.
Qed.

Lemma rblk_inv i s foo O : rd (rblk i s) foo = Some O ->
  (foo = 0 /\ O = [map (fun m => (i, 0, 0, m)) (zrange (zlen s))]) \/
  (1 <= foo /\ exists a, rd s (foo - 1) = Some a /\ O = copies i foo (lk a)).
Proof.
  intros H. pose proof (rd_Some_bound _ _ _ H) as B. destruct (Z.eq_dec foo 0) as [->|N].
  - left. rewrite rd_rblk_0 in H. injection H as <-. auto.
  - right. split; [lia|]. replace foo with ((foo - 1) + 1) in H by lia. rewrite rd_rblk_S in H by lia.
    destruct (rd s (foo - 1)) as [e|]; [|discriminate]. exists e. split; auto. injection H as <-. now replace (foo - 1 + 1) with foo by lia.
Qed.

Lemma rrow_inv i s foo O j row : rd (rblk i s) foo = Some O -> rd O j = Some row ->
  (foo = 0 /\ j = 0 /\ row = map (fun m => (i, 0, 0, m)) (zrange (zlen s))) \/
  (1 <= foo /\ exists a g r, rd s (foo - 1) = Some a /\ lk a = Some g /\ 0 <= j < zlen g - 1 /\ rd g j = Some r /\
     row = map (fun m => (i, foo, j, m)) (zrange (zlen r))).
Proof.
  intros H H1. pose proof (rd_Some_bound _ _ _ H1) as B. destruct (rblk_inv i s foo O H) as [[-> ->]|(F & a & E & ->)].
  - left. change (zlen [_]) with 1 in B. replace j with 0 in * by lia. injection H1 as <-. auto.
  - right. split; auto. destruct (lk a) as [g|] eqn:Eg; cbn [copies] in *; [|rewrite rd_nil in H1; discriminate]. unfold copy in *.
    rewrite zlen_map, zlen_zrange in B by lia. rewrite rd_map, rd_zrange in H1 by lia. injection H1 as <-.
    destruct (rd_in_bound g j ltac:(lia)) as (r & Hr). exists a, g, r. rewrite Hr. repeat split; auto; lia.
Qed.

Lemma rleaf_inv i s foo O j row m l : rd (rblk i s) foo = Some O -> rd O j = Some row -> rd row m = Some l ->
  l = (i, foo, j, m) /\
  ((foo = 0 /\ j = 0 /\ exists a, rd s m = Some a) \/
   (1 <= foo /\ exists a g r b, rd s (foo - 1) = Some a /\ lk a = Some g /\ 0 <= j < zlen g - 1 /\ rd g j = Some r /\ rd r m = Some b)).
Proof.
  intros H1 H2 H3. pose proof (rd_Some_bound _ _ _ H3) as B. destruct (rrow_inv i s foo O j row H1 H2) as [(-> & -> & ->)|(F & a & g & r & E1 & E2 & Bj & E3 & ->)].
  - rewrite zlen_map, zlen_zrange in B by apply zlen_nonneg. rewrite rd_map, rd_zrange in H3 by lia. injection H3 as <-. split; auto. left. destruct (rd_in_bound s m B). eauto.
  - rewrite zlen_map, zlen_zrange in B by apply zlen_nonneg. rewrite rd_map, rd_zrange in H3 by lia. injection H3 as <-. split; auto. right. split; auto.
    destruct (rd_in_bound r m B) as (b & Hb). exists a, g, r, b. repeat split; auto; lia.
Qed.

Lemma rblk_arcs i s : zlen s <= zlen (concat (concat (rblk i s))).
Proof.
  unfold rblk. cbn [concat]. rewrite concat_app, zlen_app. cbn [concat app]. rewrite app_nil_r, zlen_map, zlen_zrange by apply zlen_nonneg.
  pose proof (zlen_nonneg (concat (concat (imap (fun x a => copies i (x + 1) (lk a)) 0 s)))). lia.
Qed.

(** the number, inside its FSA, of the first output state of (state, foo) *)
Definition rlst (f : nfsa) (i foo : Z) : Z := off1 (concat (UR f)) (off1 (UR f) i + foo).

Definition norow : list arc := [].
Definition zarc : arc := mkArc 0 0 0 0.
Definition iarc (f : nfsa) (i x : Z) : arc := match rd f i with Some s => match rd s x with Some a => a | None => zarc end | None => zarc end.

(** the output arc *)
Definition R (f : nfsa) (l : leaf) : arc :=
  let '(i, foo, j, m) := l in
  if foo =? 0 then
    let a := iarc f i m in
    match lk a with
    | None => mkArc (rlst f i 0) (rlst f (dst a) 0) (lab a) (sc a)
    | Some g => mkArc (rlst f i 0) (if zlen g =? 0 then rlst f (dst a) 0 else rlst f i (m + 1)) 0 (sc a)
    end
  else
    let a := iarc f i (foo - 1) in
    let b := match lk a with Some g => iarc g j m | None => zarc end in
    mkArc (rlst f i foo + j) (if lab b =? -1 then rlst f (dst a) 0 else rlst f i foo + dst b)
          (if lab b =? -1 then 0 else lab b) (sc b).
Definition replaced (f : nfsa) : nfsa := map (map (R f)) (concat (concat (UR f))).

(** number, in the vector of sources, of the first arc of state [j] of source [k] *)
Definition srcarc (k j : Z) : Z := off1 (concat S) (off1 S k + j).

Section Kernels.
  Variable V : list nfsa.
  Let St := concat V.
  Let A := concat St.
  Let W := map UR V.
  Let c1 := concat W.
  Let c2 := concat c1.
  Let c3 := concat c2.
  Let c4 := concat c3.
  Let srs1 := splits_of S.
  Let srs2 := splits_of (concat S).
  Let sarcs := concat (concat S).

  Lemma roff_W k : off1 W k = off1 V k.
  Proof.
    unfold W, off1. rewrite firstn_map. generalize (firstn (Z.to_nat k) V). clear. induction l as [|f l IH]; [reflexivity|].
    cbn [map concat]. now rewrite !zlen_app, zlen_UR, IH.
  Qed.
  Lemma rrs1_W : splits_of V = splits_of W.
  Proof. unfold splits_of, W. rewrite map_map. f_equal. apply map_ext. intros f. now rewrite zlen_UR. Qed.
  Lemma rlen_c1 : map zlen c1 = map (fun s : list arc => 1 + zlen s) St.
  Proof.
    unfold c1, W, St. induction V as [|f fs IH]; [reflexivity|]. cbn [map concat]. rewrite !map_app, IH. f_equal.
    unfold UR. generalize 0. induction f as [|s f IHf]; intros z; [reflexivity|]. cbn [imap map]. rewrite zlen_rblk, IHf. reflexivity.
  Qed.
  Lemma rzlen_c1 : zlen c1 = zlen St.
  Proof. rewrite <- (zlen_map zlen c1), rlen_c1. apply zlen_map. Qed.
  Lemma rrs2_c1 : change_sublist_size (splits_of St) 1 = splits_of c1.
  Proof.
    assert (E : splits_of c1 = splits_of (map (rblk 0) St)).
    { unfold splits_of. rewrite rlen_c1, map_map. f_equal. apply map_ext. intros s. now rewrite zlen_rblk. }
    rewrite E, (splits_map_sizes St (rblk 0) 1 1) by (intros; rewrite zlen_rblk; lia). unfold change_sublist_size.
    apply list_ext_rd; [now rewrite !zlen_imap|]. intros i Hi. rewrite !rd_imap. destruct (rd (splits_of St) i); cbn; f_equal; lia.
  Qed.

  Lemma rdec2 g O : rd c2 g = Some O -> exists k f i s foo,
    rd V k = Some f /\ rd f i = Some s /\ rd (rblk i s) foo = Some O /\
    rd c1 (off1 V k + i) = Some (rblk i s) /\ rd St (off1 V k + i) = Some s /\
    g = off1 c1 (off1 V k + i) + foo /\ rd (ids_of c1) g = Some (off1 V k + i) /\ rd (ids_of W) (off1 V k + i) = Some k.
  Proof.
    intros H. destruct (rd_concat_inv _ _ _ H) as (t & B & foo & H1 & H2 & H3 & H4).
    destruct (rd_concat_inv _ _ _ H1) as (k & Uf & i & K1 & K2 & K3 & K4).
    unfold W in K1. rewrite rd_map in K1. destruct (rd V k) as [f|] eqn:Ef; [|discriminate]. injection K1 as <-.
    pose proof (rd_Some_bound _ _ _ K2) as Bi. rewrite zlen_UR in Bi. destruct (rd_in_bound f i Bi) as (s & Es).
    rewrite (rd_UR f i s Es) in K2. injection K2 as <-. rewrite roff_W in K3. subst t.
    exists k, f, i, s, foo. repeat split; auto. now apply (rd_concat_off V k f i s).
  Qed.
  Lemma rdec3 o row : rd c3 o = Some row -> exists g O j,
    rd c2 g = Some O /\ rd O j = Some row /\ o = off1 c2 g + j /\ rd (ids_of c2) o = Some g.
  Proof. intros H. destruct (rd_concat_inv _ _ _ H) as (g & O & j & H1 & H2 & H3 & H4). exists g, O, j. auto. Qed.
  Lemma rdec4 p l : rd c4 p = Some l -> exists o row m,
    rd c3 o = Some row /\ rd row m = Some l /\ p = off1 c3 o + m /\ rd (ids_of c3) p = Some o.
  Proof. intros H. destruct (rd_concat_inv _ _ _ H) as (g & O & j & H1 & H2 & H3 & H4). exists g, O, j. auto. Qed.

  Lemma outside_None a : lk a = None <-> outside (zlen srs1 - 1) (lab a - begin) = true.
  Proof. unfold look, outside, srs1. rewrite zlen_splits_of, rd_None. lia. Qed.
  Lemma outside_Some a g : lk a = Some g -> outside (zlen srs1 - 1) (lab a - begin) = false.
  Proof. intros H. destruct (outside (zlen srs1 - 1) (lab a - begin)) eqn:E; [|reflexivity]. apply outside_None in E. congruence. Qed.

  Lemma rnos_ok : mapM (rep_ostates srs1 (splits_of St) A begin (splits_of c1) (ids_of c1)) (zrange (zlen c2)) = Some (map zlen c2).
  Proof.
    rewrite <- (zlen_map zlen c2). apply mapM_zrange. intros g n H. rewrite rd_map in H. destruct (rd c2 g) as [O|] eqn:EO; [|discriminate]. injection H as <-.
    destruct (rdec2 g O EO) as (k & f & i & s & foo & Hk & Hi & Hb & H1 & HS & Hg & Hid & _).
    unfold rep_ostates. rewrite Hid. destruct (rs_at c1 _ _ H1) as [-> _]. cbv zeta. replace (g - off1 c1 (off1 V k + i)) with foo by lia.
    destruct (rblk_inv i s foo O Hb) as [[-> ->]|(F & a & E & ->)]; [reflexivity|]. replace (foo =? 0) with false by lia.
    destruct (rs_at St _ _ HS) as [-> _].
    assert (HA : rd A (off1 St (off1 V k + i) + (foo - 1)) = Some a) by (apply (rd_concat_off St _ s (foo - 1) a HS E)).
    rewrite HA. destruct (lk a) as [h|] eqn:Eh.
    - rewrite (outside_Some a h Eh). unfold look in Eh. destruct (rs_at S _ _ Eh) as [E1 E2]. unfold srs1. rewrite E1, E2. cbn [copies]. unfold copy. rewrite zlen_map, zlen_zrange by lia. f_equal. lia.
    - rewrite (proj1 (outside_None a) Eh). reflexivity.
  Qed.

  Lemma rnoa_ok : mapM (rep_oarcs srs1 srs2 (splits_of St) A begin (splits_of c1) (ids_of c1) (splits_of c2) (ids_of c2)) (zrange (zlen c3)) = Some (map zlen c3).
  Proof.
    rewrite <- (zlen_map zlen c3). apply mapM_zrange. intros o n H. rewrite rd_map in H. destruct (rd c3 o) as [row|] eqn:EO; [|discriminate]. injection H as <-.
    destruct (rdec3 o row EO) as (g & O & j & HO & Hj & Ho & Hid3).
    destruct (rdec2 g O HO) as (k & f & i & s & foo & Hk & Hi & Hb & H1 & HS & Hg & Hid & _).
    unfold rep_oarcs. rewrite Hid3. destruct (rs_at c2 _ _ HO) as [-> _]. rewrite Hid. destruct (rs_at c1 _ _ H1) as [-> ->]. cbv zeta.
    replace (g - off1 c1 (off1 V k + i)) with foo by lia. replace (o - off1 c2 g) with j by lia. rewrite zlen_rblk.
    destruct (rrow_inv i s foo O j row Hb Hj) as [(-> & -> & ->)|(F & a & h & r & E1 & E2 & Bj & E3 & ->)].
    - change (0 =? 0) with true. cbv iota. rewrite zlen_map, zlen_zrange by apply zlen_nonneg. f_equal. lia.
    - replace (foo =? 0) with false by lia. destruct (rs_at St _ _ HS) as [-> _].
      assert (HA : rd A (off1 St (off1 V k + i) + (foo - 1)) = Some a) by (apply (rd_concat_off St _ s (foo - 1) a HS E1)).
      rewrite HA. unfold look in E2. pose proof (rd_Some_bound _ _ _ E2) as B2. unfold srs1. rewrite zlen_splits_of. replace (0 <=? lab a - begin) with true by lia. replace (lab a - begin <? zlen S + 1 - 1) with true by lia.
      destruct (rs_at S _ _ E2) as [-> _]. assert (HC : rd (concat S) (off1 S (lab a - begin) + j) = Some r) by (apply (rd_concat_off S _ h j r E2 E3)).
      destruct (rs_at (concat S) _ _ HC) as [L1 L2]. unfold srs2. cbv iota. rewrite L1, L2. rewrite zlen_map, zlen_zrange by apply zlen_nonneg. f_equal. lia.
  Qed.

  Definition rbase (k : Z) : Z := off1 (map (@concat _) (map (@concat _) W)) k.

  Lemma rglob k f i s foo : rd V k = Some f -> rd f i = Some s -> 0 <= foo <= zlen (rblk i s) ->
    off1 c2 (off1 c1 (off1 V k + i) + foo) = rbase k + rlst f i foo.
  Proof.
    intros Hk Hi B. pose proof (rd_Some_bound _ _ _ Hi) as Bi.
    assert (HW : rd W k = Some (UR f)) by (unfold W; rewrite rd_map, Hk; reflexivity).
    unfold c1. rewrite <- (roff_W k), (off1_concat W k (UR f) i) by (auto; rewrite zlen_UR; lia). rewrite <- off1_map_concat.
    assert (HW2 : rd (map (@concat _) W) k = Some (concat (UR f))) by (rewrite rd_map, HW; reflexivity).
    unfold c2, c1. rewrite <- (concat_map_concat W). rewrite <- Z.add_assoc. rewrite (off1_concat _ k _ _ HW2).
    - rewrite <- off1_map_concat. reflexivity.
    - pose proof (off1_nonneg (UR f) i). pose proof (off1_next (UR f) i _ (rd_UR f i s Hi)). pose proof (off1_bound (UR f) (i + 1)). lia.
  Qed.

  Lemma rbase_0 k f i s : rd V k = Some f -> rd f i = Some s -> off1 c2 (off1 c1 (off1 V k)) = rbase k.
  Proof.
    intros Hk Hi. pose proof (rd_Some_bound _ _ _ Hi) as Bi. destruct (rd_in_bound f 0 ltac:(lia)) as (s0 & H0).
    pose proof (rglob k f 0 s0 0 Hk H0 ltac:(rewrite zlen_rblk; pose proof (zlen_nonneg s0); lia)) as G. rewrite !Z.add_0_r in G. rewrite G.
    unfold rlst. change (off1 (UR f) 0) with 0. change (off1 (concat (UR f)) (0 + 0)) with 0. lia.
  Qed.

  Definition rabase (k : Z) : Z := off1 (map (@concat _) V) k.

  (** output arc, arc_map_src, arc_map_index *)
  Definition RR (k : Z) (f : nfsa) (l : leaf) : arc * (Z * Z) :=
    let '(i, foo, j, m) := l in
    (R f l, (if foo =? 0 then -1 else srcarc (lab (iarc f i (foo - 1)) - begin) j + m,
             if foo =? 0 then rabase k + (off1 f i + m) else -1)).
  Definition rout : list (arc * (Z * Z)) := concat (imap (fun k f => map (RR k f) (concat (concat (concat (UR f))))) 0 V).
  Definition Rs : list nfsa := map replaced V.

  Lemma rzlen_out : zlen rout = zlen c4.
  Proof.
    unfold rout, c4, c3, c2, c1, W. generalize RR as h. intros h. generalize 0. clear. induction V as [|f fs IH]; intros z; [reflexivity|].
    cbn [imap map concat]. rewrite !concat_app, !zlen_app, zlen_map. f_equal. apply IH.
  Qed.

  Lemma rd_rout k f q l : rd V k = Some f -> rd (concat (concat (concat (UR f)))) q = Some l ->
    rd rout (off1 (map (@concat _) Rs) k + q) = Some (RR k f l).
  Proof.
    intros Hk Hl. unfold rout.
    assert (HL : rd (imap (fun k f => map (RR k f) (concat (concat (concat (UR f))))) 0 V) k = Some (map (RR k f) (concat (concat (concat (UR f)))))).
    { rewrite rd_imap, Hk. cbn. do 2 f_equal. }
    assert (HR : rd (map (RR k f) (concat (concat (concat (UR f))))) q = Some (RR k f l)) by (rewrite rd_map, Hl; reflexivity).
    pose proof (proj1 (rd_concat_off _ _ _ _ _ HL HR)) as R2. rewrite <- R2. f_equal. f_equal.
    unfold off1, Rs. rewrite firstn_imap, !firstn_map. generalize RR as h. intros h. generalize (firstn (Z.to_nat k) V). clear. intros L. generalize 0. induction L as [|f L IH]; intros z; [reflexivity|].
    cbn [imap map concat]. rewrite !zlen_app, zlen_map, (IH (z + 1)). f_equal. unfold replaced. rewrite <- concat_map. now rewrite zlen_map.
  Qed.

  Lemma Rs_off k : off1 (map (@concat _) Rs) k = off1 (map (@concat _) (map (@concat _) (map (@concat _) W))) k.
  Proof.
    unfold off1, Rs, W. rewrite !firstn_map. generalize (firstn (Z.to_nat k) V). clear. induction l as [|f l IH]; [reflexivity|].
    cbn [map concat]. rewrite !zlen_app, IH. f_equal. unfold replaced. rewrite <- concat_map. apply zlen_map.
  Qed.

  Hypothesis dst_ok : forall f a, In f V -> In a (concat f) -> 0 <= dst a < zlen f.

  Lemma rout_ok : mapM (rep_arcs srs1 srs2 sarcs (splits_of St) A begin (splits_of W) (ids_of W) (splits_of c1) (ids_of c1)
                         (splits_of c2) (ids_of c2) (splits_of c3) (ids_of c3)) (zrange (zlen c4)) = Some rout.
  Proof.
    rewrite <- rzlen_out. apply mapM_zrange. intros p r Hp.
    assert (Bp : 0 <= p < zlen c4) by (rewrite <- rzlen_out; eapply rd_Some_bound; eauto).
    destruct (rd_in_bound c4 p Bp) as (l & Hl).
    destruct (rdec4 p l Hl) as (o & row & m & Hrow & Hm & Ep & Id4).
    destruct (rdec3 o row Hrow) as (g & O & j & HO & Hj & Ho & Id3).
    destruct (rdec2 g O HO) as (k & f & i & s & foo & Hk & Hi & Hb & H1 & HS & Hg & Id2 & Id1).
    pose proof (rd_Some_bound _ _ _ Hb) as Bfoo. pose proof (rd_Some_bound _ _ _ Hi) as Bi.
    pose proof (rglob k f i s foo Hk Hi ltac:(lia)) as G. rewrite <- Hg in G.
    pose proof (rbase_0 k f i s Hk Hi) as G0.
    assert (Er : r = RR k f l).
    { assert (Hin : rd (concat (concat (concat (UR f)))) (off1 (concat (concat (UR f))) (rlst f i foo + j) + m) = Some l).
      { apply (rd_concat_off _ _ row m l); auto. apply (rd_concat_off _ _ O j row); auto. apply (rd_concat_off _ _ (rblk i s) foo O); auto. now apply rd_UR. }
      pose proof (rd_rout k f _ l Hk Hin) as R0.
      assert (Epp : off1 (map (@concat _) Rs) k + (off1 (concat (concat (UR f))) (rlst f i foo + j) + m) = p).
      { rewrite Ep, Ho, G. unfold c3.
        assert (HW3 : rd (map (@concat _) (map (@concat _) W)) k = Some (concat (concat (UR f)))) by (rewrite !rd_map; unfold W; rewrite rd_map, Hk; reflexivity).
        unfold rbase. unfold c2, c1. rewrite <- (concat_map_concat W). rewrite <- (concat_map_concat (map (@concat _) W)).
        rewrite <- Z.add_assoc. rewrite (off1_concat _ k _ _ HW3).
        - rewrite <- off1_map_concat. rewrite Rs_off. lia.
        - pose proof (rd_Some_bound _ _ _ Hj) as Bj.
          assert (HO' : rd (concat (UR f)) (off1 (UR f) i + foo) = Some O) by (apply (rd_concat_off _ _ (rblk i s) foo O); auto; now apply rd_UR).
          unfold rlst. pose proof (off1_nonneg (concat (UR f)) (off1 (UR f) i + foo)). pose proof (off1_next _ _ _ HO'). pose proof (off1_bound (concat (UR f)) (off1 (UR f) i + foo + 1)). lia. }
      rewrite Epp in R0. congruence. }
    subst r. clear Hp.
    unfold rep_arcs. rewrite Id4. destruct (rs_at c3 _ _ Hrow) as [-> _]. cbv zeta. rewrite Id3. destruct (rs_at c2 _ _ HO) as [Eo _]. rewrite Eo.
    rewrite Id2. destruct (rs_at c1 _ _ H1) as [-> _]. rewrite Id1.
    assert (HWk : rd W k = Some (UR f)) by (unfold W; rewrite rd_map, Hk; reflexivity).
    destruct (rs_at W _ _ HWk) as [-> _]. rewrite roff_W.
    assert (HVk : 0 <= off1 V k <= zlen St).
    { pose proof (off1_nonneg V k). pose proof (off1_bound V k). unfold St. lia. }
    rewrite (rd_splits_off c1 (off1 V k)) by (rewrite rzlen_c1; lia).
    rewrite (rd_splits_off c2 (off1 c1 (off1 V k))).
    2:{ pose proof (off1_nonneg c1 (off1 V k)). pose proof (off1_bound c1 (off1 V k)). unfold c2. lia. }
    rewrite G0. destruct (rs_at St _ _ HS) as [-> _].
    replace (o - off1 c2 g) with j by lia. replace (g - off1 c1 (off1 V k + i)) with foo by lia. replace (p - off1 c3 o) with m by lia.
    assert (EA : off1 St (off1 V k + i) = rabase k + off1 f i).
    { unfold St, rabase. rewrite (off1_concat V k f i) by (auto; lia). now rewrite <- off1_map_concat. }
    assert (DST : forall a, In a s -> exists y, rd (splits_of c1) (off1 V k + dst a) = Some y /\ rd (splits_of c2) y = Some (rbase k + rlst f (dst a) 0)).
    { intros a Ha. assert (Hda : 0 <= dst a < zlen f).
      { apply dst_ok; [eapply rd_In; eauto|]. apply in_concat. exists s. split; [eapply rd_In; eauto|exact Ha]. }
      destruct (rd_in_bound f (dst a) Hda) as (sd & Hsd).
      assert (HSd : rd c1 (off1 V k + dst a) = Some (rblk (dst a) sd)) by (rewrite <- roff_W; apply (rd_concat_off W k (UR f)); auto; now apply rd_UR).
      exists (off1 c1 (off1 V k + dst a)). split; [now destruct (rs_at c1 _ _ HSd)|].
      assert (Hd0 : rd c2 (off1 c1 (off1 V k + dst a) + 0) = Some [map (fun m => (dst a, 0, 0, m)) (zrange (zlen sd))]) by (apply (rd_concat_off c1 _ _ 0 _ HSd); apply rd_rblk_0).
      rewrite Z.add_0_r in Hd0. destruct (rs_at c2 _ _ Hd0) as [-> _]. f_equal.
      pose proof (rglob k f (dst a) sd 0 Hk Hsd ltac:(rewrite zlen_rblk; pose proof (zlen_nonneg sd); lia)) as Gd. now rewrite Z.add_0_r in Gd. }
    destruct (rleaf_inv i s foo O j row m l Hb Hj Hm) as [El [(-> & -> & a & Ha)|(F & a & h & r & b & Ha & Eh & Bj & Hr & Hbb)]].
    - change (0 =? 0) with true. cbv iota.
      assert (IA : rd A (off1 St (off1 V k + i) + m) = Some a) by (apply (rd_concat_off St _ s m a HS Ha)). rewrite IA.
      destruct (DST a (rd_In _ _ _ Ha)) as (y & -> & ->).
      assert (Ei : iarc f i m = a) by (unfold iarc; rewrite Hi, Ha; reflexivity).
      subst l. unfold RR, R. change (0 =? 0) with true. cbv iota. rewrite Ei, EA, !Z.add_0_r in *.
      destruct (lk a) as [h|] eqn:Eh.
      + rewrite (outside_Some a h Eh). unfold look in Eh. destruct (rs_at S _ _ Eh) as [E1 E2]. unfold srs1. rewrite E1, E2.
        assert (B0 : 0 <= off1 S (lab a - begin) <= zlen (concat S)) by (pose proof (off1_nonneg S (lab a - begin)); pose proof (off1_bound S (lab a - begin)); lia).
        unfold srs2. rewrite (rd_splits_off (concat S)) by lia. replace (off1 S (lab a - begin) + zlen h - off1 S (lab a - begin)) with (zlen h) by lia.
        destruct (zlen h =? 0) eqn:Z0; [do 3 f_equal; try lia|].
        pose proof (rd_Some_bound _ _ _ Ha) as Bm.
        assert (Hx : rd (splits_of c2) (off1 c1 (off1 V k + i) + m + 1) = Some (rbase k + rlst f i (m + 1))).
        { rewrite rd_splits_off.
          - f_equal. rewrite <- Z.add_assoc. apply rglob with (s := s); auto. rewrite zlen_rblk. lia.
          - pose proof (off1_nonneg c1 (off1 V k + i)). pose proof (off1_next c1 _ _ H1) as N. rewrite zlen_rblk in N. pose proof (off1_bound c1 (off1 V k + i + 1)). unfold c2. lia. }
        rewrite Hx. rewrite Hg in Eo. rewrite ?Z.add_0_r in Eo. rewrite Eo, <- Hg. do 3 f_equal; lia.
      + rewrite (proj1 (outside_None a) Eh). do 3 f_equal; try lia.
    - replace (foo =? 0) with false by lia. cbv iota.
      assert (IA : rd A (off1 St (off1 V k + i) + (foo - 1)) = Some a) by (apply (rd_concat_off St _ s (foo - 1) a HS Ha)). rewrite IA.
      destruct (DST a (rd_In _ _ _ Ha)) as (y & -> & ->). rewrite (outside_Some a h Eh).
      assert (Ei : iarc f i (foo - 1) = a) by (unfold iarc; rewrite Hi, Ha; reflexivity).
      assert (Eb : iarc h j m = b) by (unfold iarc; rewrite Hr, Hbb; reflexivity).
      subst l. unfold RR, R. replace (foo =? 0) with false by lia. rewrite Ei, Eh, Eb. unfold look in Eh. destruct (rs_at S _ _ Eh) as [E1 E2]. unfold srs1. rewrite E1, E2.
      assert (HC : rd (concat S) (off1 S (lab a - begin) + j) = Some r) by (apply (rd_concat_off S _ h j r Eh Hr)).
      destruct (rs_at (concat S) _ _ HC) as [L1 L2]. unfold srs2. rewrite L1. unfold sarcs. destruct (rd_concat_off (concat S) _ r m b HC Hbb) as [-> _].
      unfold srcarc. do 3 f_equal; try (destruct (lab b =? -1); lia). 
  Qed.

  Lemma rarcs_out : map fst rout = concat (concat Rs).
  Proof.
    unfold rout, Rs. assert (E : forall k f l, fst (RR k f l) = R f l) by (intros k f [[[i foo] j] m]; reflexivity). revert E. generalize RR as h. intros h E. generalize 0. revert E. clear.
    intros E. induction V as [|f fs IH]; intros z; [reflexivity|]. cbn [imap map concat]. rewrite map_app, concat_app, IH. f_equal.
    rewrite map_map. unfold replaced. rewrite <- concat_map. apply map_ext. intros l. apply E.
  Qed.

  Lemma rrs1_out : splits_of Rs = splits_of (map (@concat _) (map (@concat _) W)).
  Proof. unfold splits_of, Rs, W. rewrite !map_map. f_equal. apply map_ext. intros f. unfold replaced. apply zlen_map. Qed.

  Lemma rrs2_out : splits_of (concat Rs) = splits_of c3.
  Proof.
    unfold splits_of. f_equal. unfold c3, c2, c1, W, Rs. clear. induction V as [|f fs IH]; [reflexivity|]. cbn [map concat].
    rewrite !concat_app, !map_app, IH. f_equal. unfold replaced. rewrite map_map. apply map_ext. intros r. apply zlen_map.
  Qed.

  Theorem replace_fsa_ok :
    replace_fsa (splits_of S) (splits_of (concat S)) (concat (concat S)) (splits_of V) (splits_of St) A begin =
    Some (splits_of Rs, splits_of (concat Rs), concat (concat Rs), map (fun y => fst (snd y)) rout, map (fun y => snd (snd y)) rout).
  Proof.
    unfold replace_fsa. rewrite zlen_splits_of. replace (zlen St + 1 - 1) with (zlen St) by lia. cbv zeta. rewrite rrs2_c1.
    rewrite (rd_splits_off c1) by (rewrite rzlen_c1; pose proof (zlen_nonneg St); lia). replace (off1 c1 (zlen St)) with (zlen c2) by (rewrite <- rzlen_c1, off1_all; reflexivity).
    unfold c2 at 1. rewrite row_ids_of_splits. pose proof rnos_ok as NO. unfold srs1 in NO. rewrite NO. change (exsum (map zlen c2)) with (splits_of c2).
    rewrite rrs1_W. rewrite <- rzlen_c1. unfold c1 at 1. rewrite row_ids_of_splits. fold c1.
    rewrite (rd_splits_off c2) by (pose proof (zlen_nonneg c2); lia). rewrite off1_all. fold c3. unfold c3 at 1. rewrite row_ids_of_splits. fold c3.
    pose proof rnoa_ok as NA. unfold srs1, srs2 in NA. rewrite NA. change (exsum (map zlen c3)) with (splits_of c3).
    rewrite (rd_splits_off c3) by (pose proof (zlen_nonneg c3); lia). rewrite off1_all. fold c4.
    assert (LA : zlen A <= zlen c4).
    { unfold A, St, c4, c3, c2, c1, W. clear. induction V as [|f fs IH]; [reflexivity|]. cbn [map concat]. rewrite !concat_app, !zlen_app.
      assert (zlen (concat f) <= zlen (concat (concat (concat (UR f))))); [|lia].
      unfold UR. generalize 0. induction f as [|s f IHf]; intros z; [reflexivity|]. cbn [imap concat]. rewrite !concat_app, !zlen_app. specialize (IHf (z + 1)).
      pose proof (rblk_arcs z s). lia. }
    replace (zlen A <=? zlen c4) with true by lia. cbv iota. unfold c4 at 1. rewrite row_ids_of_splits. fold c4. pose proof rout_ok as RO. unfold srs1, srs2, sarcs in RO. rewrite RO.
    assert (R1 : mapM (rd (splits_of c1)) (splits_of W) = Some (splits_of (map (@concat _) W))).
    { apply RaggedOpsProofs.mapM_by_rd; [rewrite !zlen_splits_of, zlen_map; reflexivity|]. intros k x Hx. pose proof (rd_Some_bound _ _ _ Hx) as B.
      rewrite zlen_splits_of in B. rewrite rd_splits_off in Hx by lia. injection Hx as <-.
      pose proof (off1_nonneg W k). pose proof (off1_bound W k). rewrite !rd_splits_off by (rewrite ?zlen_map; unfold c1; lia). f_equal. apply off1_off1. lia. }
    rewrite R1.
    assert (R2 : mapM (rd (splits_of c2)) (splits_of (map (@concat _) W)) = Some (splits_of (map (@concat _) (map (@concat _) W)))).
    { unfold c2, c1. rewrite <- (concat_map_concat W). apply RaggedOpsProofs.mapM_by_rd; [rewrite !zlen_splits_of, !zlen_map; reflexivity|]. intros k x Hx. pose proof (rd_Some_bound _ _ _ Hx) as B.
      rewrite zlen_splits_of in B. rewrite rd_splits_off in Hx by lia. injection Hx as <-. set (L := map (@concat _) W) in *.
      pose proof (off1_nonneg L k). pose proof (off1_bound L k). rewrite !rd_splits_off by (rewrite ?zlen_map; lia). f_equal. apply off1_off1. lia. }
    rewrite R2. rewrite rrs1_out, rrs2_out, rarcs_out. reflexivity.
  Qed.
End Kernels.
End Rep.
