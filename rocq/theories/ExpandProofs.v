(** * Proofs about ExpandArcs: what the kernels compute. *)
From Coq Require Import ZArith List Lia Bool.
From Verif Require Import Base RaggedModel RaggedSpec RaggedProofs FsaSpec FsaLemmas GraphModel GraphProofs EpsLoopProofs PropsProps ExpandModel.
Import ListNotations.
Open Scope Z_scope.

Notation xarc := (arc * list Z)%type.
(** A leaf of the five-level shape [fsa][state][foo][ostate][arc]: state, foo,
    ostate, arc *)
Notation leaf := (Z * Z * Z * Z)%type.

(** the output states made for the state [s], number [i]: itself, and for each
    arc the inner states of its chain *)
Definition blk (i : Z) (s : list xarc) : list (list (list leaf)) :=
  [map (fun m => (i, 0, 0, m)) (zrange (zlen s))]
  :: imap (fun x e => map (fun j => [(i, x + 1, j, 0)]) (zrange (Z.max (zlen (snd e) - 1) 0))) 0 s.
Definition U (f : list (list xarc)) : list (list (list (list leaf))) := imap blk 0 f.

Lemma zlen_blk i s : zlen (blk i s) = 1 + zlen s.
Proof. unfold blk. now rewrite zlen_cons, zlen_imap. Qed.
Lemma zlen_U f : zlen (U f) = zlen f.
Proof. unfold U. now rewrite zlen_imap. Qed.
Lemma rd_U f i s : rd f i = Some s -> rd (U f) i = Some (blk i s).
Proof. intros H. unfold U. rewrite rd_imap, H. reflexivity. Qed.

Lemma rd_blk_0 i s : rd (blk i s) 0 = Some [map (fun m => (i, 0, 0, m)) (zrange (zlen s))].
Proof. reflexivity. Qed.
Lemma rd_blk_S i s x : 0 <= x ->
  rd (blk i s) (x + 1) = option_map (fun e => map (fun j => [(i, x + 1, j, 0)]) (zrange (Z.max (zlen (snd e) - 1) 0))) (rd s x).
Proof.
  intros H. unfold blk. rewrite rd_cons. replace (x + 1 =? 0) with false by lia. replace (x + 1 - 1) with x by lia. rewrite rd_imap.
  destruct (rd s x); [|reflexivity]. cbn [option_map]. repeat f_equal.
Qed.

(** what is found at given coordinates *)
Lemma blk_inv i s foo O : rd (blk i s) foo = Some O ->
  (foo = 0 /\ O = [map (fun m => (i, 0, 0, m)) (zrange (zlen s))]) \/
  (1 <= foo /\ exists e, rd s (foo - 1) = Some e /\
     O = map (fun j => [(i, foo, j, 0)]) (zrange (Z.max (zlen (snd e) - 1) 0))).
Proof.
  intros H. pose proof (rd_Some_bound _ _ _ H) as B. destruct (Z.eq_dec foo 0) as [->|N].
  - left. rewrite rd_blk_0 in H. injection H as <-. auto.
  - right. split; [lia|]. replace foo with ((foo - 1) + 1) in H by lia. rewrite rd_blk_S in H by lia.
    destruct (rd s (foo - 1)) as [e|]; [|discriminate]. exists e. split; auto. injection H as <-. now replace (foo - 1 + 1) with foo by lia.
Qed.

Lemma row_inv i s foo O j row : rd (blk i s) foo = Some O -> rd O j = Some row ->
  (foo = 0 /\ j = 0 /\ row = map (fun m => (i, 0, 0, m)) (zrange (zlen s))) \/
  (1 <= foo /\ exists e, rd s (foo - 1) = Some e /\ 0 <= j < zlen (snd e) - 1 /\ row = [(i, foo, j, 0)]).
Proof.
  intros H H1. pose proof (rd_Some_bound _ _ _ H1) as B. destruct (blk_inv i s foo O H) as [[-> ->]|(F & e & E & ->)].
  - left. change (zlen [_]) with 1 in B. replace j with 0 in * by lia. injection H1 as <-. auto.
  - right. split; auto. exists e. rewrite zlen_map, zlen_zrange in B by lia. rewrite rd_map, rd_zrange in H1 by lia. injection H1 as <-.
    split; auto. split; [lia|reflexivity].
Qed.

Lemma leaf_inv i s foo O j row m l : rd (blk i s) foo = Some O -> rd O j = Some row -> rd row m = Some l ->
  l = (i, foo, j, m) /\
  ((foo = 0 /\ j = 0 /\ 0 <= m < zlen s) \/
   (1 <= foo /\ m = 0 /\ exists e, rd s (foo - 1) = Some e /\ 0 <= j < zlen (snd e) - 1)).
Proof.
  intros H1 H2 H3. pose proof (rd_Some_bound _ _ _ H3) as B. destruct (row_inv i s foo O j row H1 H2) as [(-> & -> & ->)|(F & e & E & Bj & ->)].
  - rewrite zlen_map, zlen_zrange in B by apply zlen_nonneg. rewrite rd_map, rd_zrange in H3 by lia. injection H3 as <-. auto 6.
  - change (zlen [_]) with 1 in B. replace m with 0 in * by lia. injection H3 as <-. split; auto. right. eauto 6.
Qed.

Lemma blk_arcs i s : zlen s <= zlen (concat (concat (blk i s))).
Proof.
  unfold blk. cbn [concat]. rewrite concat_app, zlen_app. cbn [concat app]. rewrite app_nil_r, zlen_map, zlen_zrange by apply zlen_nonneg.
  pose proof (zlen_nonneg (concat (concat (imap (fun x e => map (fun j => [(i, x + 1, j, 0)]) (zrange (Z.max (zlen (snd e) - 1) 0))) 0 s)))). lia.
Qed.

Lemma off1_off1 {A} (L : list (list (list A))) k : 0 <= k <= zlen L -> off1 (concat L) (off1 L k) = off1 (map (@concat A) L) k.
Proof.
  intros H. rewrite off1_map_concat. unfold off1. f_equal. f_equal.
  unfold zlen. rewrite Nat2Z.id. rewrite <- (firstn_skipn (Z.to_nat k) L) at 2. rewrite concat_app, firstn_app, Nat.sub_diag, firstn_O, app_nil_r. apply firstn_all.
Qed.

(** the number, inside its FSA, of the first output state of (state, foo) *)
Definition lst (f : list (list xarc)) (i foo : Z) : Z := off1 (concat (U f)) (off1 (U f) i + foo).

(** the number of the input arc inside its state and the position in the chain *)
Definition kx (l : leaf) : Z := let '(i, foo, j, m) := l in if foo =? 0 then m else foo - 1.
Definition kpos (l : leaf) : Z := let '(i, foo, j, m) := l in if foo =? 0 then 0 else j + 1.
Definition noarc : xarc := (mkArc 0 0 0 0, []).
Definition karc (f : list (list xarc)) (l : leaf) : xarc :=
  match rd f (fst (fst (fst l))) with
  | Some s => match rd s (kx l) with Some e => e | None => noarc end
  | None => noarc
  end.

Definition K (f : list (list xarc)) (l : leaf) : arc :=
  let '(i, foo, j, m) := l in
  let '(a, ls) := karc f l in
  let pos := kpos l in
  mkArc (lst f i foo + j)
        (if zlen ls <=? pos + 1 then lst f (dst a) 0 else lst f i (kx l + 1) + pos)
        (if negb (lab a =? -1) then (if pos =? 0 then lab a else 0) else (if zlen ls <=? pos + 1 then -1 else 0))
        (if pos =? 0 then sc a else 0).
Definition expanded (f : list (list xarc)) : nfsa := map (map (K f)) (concat (concat (U f))).
(** the arc number, inside its FSA, of the input arc *)
Definition kidx (f : list (list xarc)) (l : leaf) : Z := off1 f (fst (fst (fst l))) + kx l.

Section Kernels.
  Variable V : list (list (list xarc)).
  Let S := concat V.
  Let A := concat S.
  Let W := map U V.
  Let c1 := concat W.
  Let c2 := concat c1.
  Let c3 := concat c2.
  Let c4 := concat c3.

  Lemma off_W k : off1 W k = off1 V k.
  Proof.
    unfold W, off1. rewrite firstn_map. generalize (firstn (Z.to_nat k) V). clear. induction l as [|f l IH]; [reflexivity|].
    cbn [map concat]. now rewrite !zlen_app, zlen_U, IH.
  Qed.

  Lemma rs1_W : splits_of V = splits_of W.
  Proof. unfold splits_of, W. rewrite map_map. f_equal. apply map_ext. intros f. now rewrite zlen_U. Qed.

  Lemma len_c1 : map zlen c1 = map (fun s : list xarc => 1 + zlen s) S.
  Proof.
    unfold c1, W, S. induction V as [|f fs IH]; [reflexivity|]. cbn [map concat]. rewrite !map_app, IH. f_equal.
    unfold U. generalize 0. induction f as [|s f IHf]; intros z; [reflexivity|]. cbn [imap map]. rewrite zlen_blk, IHf. reflexivity.
  Qed.

  Lemma zlen_c1 : zlen c1 = zlen S.
  Proof. rewrite <- (zlen_map zlen c1), len_c1. apply zlen_map. Qed.

  Lemma rs2_c1 : change_sublist_size (splits_of S) 1 = splits_of c1.
  Proof.
    assert (E : splits_of c1 = splits_of (map (blk 0) S)).
    { unfold splits_of. rewrite len_c1, map_map. f_equal. apply map_ext. intros s. now rewrite zlen_blk. }
    rewrite E, (splits_map_sizes S (blk 0) 1 1) by (intros; rewrite zlen_blk; lia). unfold change_sublist_size.
    apply list_ext_rd; [now rewrite !zlen_imap|]. intros i Hi. rewrite !rd_imap. destruct (rd (splits_of S) i); cbn; f_equal; lia.
  Qed.

  (** coordinates at the levels of foo, ostates and arcs *)
  Lemma dec2 g O : rd c2 g = Some O -> exists k f i s foo,
    rd V k = Some f /\ rd f i = Some s /\ rd (blk i s) foo = Some O /\
    rd c1 (off1 V k + i) = Some (blk i s) /\ rd S (off1 V k + i) = Some s /\
    g = off1 c1 (off1 V k + i) + foo /\ rd (ids_of c1) g = Some (off1 V k + i) /\ rd (ids_of W) (off1 V k + i) = Some k.
  Proof.
    intros H. destruct (rd_concat_inv _ _ _ H) as (t & B & foo & H1 & H2 & H3 & H4).
    destruct (rd_concat_inv _ _ _ H1) as (k & Uf & i & K1 & K2 & K3 & K4).
    unfold W in K1. rewrite rd_map in K1. destruct (rd V k) as [f|] eqn:Ef; [|discriminate]. injection K1 as <-.
    pose proof (rd_Some_bound _ _ _ K2) as Bi. rewrite zlen_U in Bi. destruct (rd_in_bound f i Bi) as (s & Es).
    rewrite (rd_U f i s Es) in K2. injection K2 as <-. rewrite off_W in K3. subst t.
    exists k, f, i, s, foo. repeat split; auto. now apply (rd_concat_off V k f i s).
  Qed.

  Lemma dec3 o row : rd c3 o = Some row -> exists g O j,
    rd c2 g = Some O /\ rd O j = Some row /\ o = off1 c2 g + j /\ rd (ids_of c2) o = Some g.
  Proof. intros H. destruct (rd_concat_inv _ _ _ H) as (g & O & j & H1 & H2 & H3 & H4). exists g, O, j. auto. Qed.
  Lemma dec4 p l : rd c4 p = Some l -> exists o row m,
    rd c3 o = Some row /\ rd row m = Some l /\ p = off1 c3 o + m /\ rd (ids_of c3) p = Some o.
  Proof. intros H. destruct (rd_concat_inv _ _ _ H) as (g & O & j & H1 & H2 & H3 & H4). exists g, O, j. auto. Qed.

  Lemma rs_at {B} (L : list (list B)) k l : rd L k = Some l ->
    rd (splits_of L) k = Some (off1 L k) /\ rd (splits_of L) (k + 1) = Some (off1 L k + zlen l).
  Proof.
    intros H. pose proof (rd_Some_bound _ _ _ H). split; [apply rd_splits_off; lia|]. rewrite rd_splits_off by lia. f_equal. now apply off1_next.
  Qed.

  Lemma nos_ok : mapM (num_ostates (splits_of c1) (ids_of c1) (splits_of S) (splits_of (map snd A))) (zrange (zlen c2)) = Some (map zlen c2).
  Proof.
    rewrite <- (zlen_map zlen c2). apply mapM_zrange. intros g n H. rewrite rd_map in H. destruct (rd c2 g) as [O|] eqn:EO; [|discriminate]. injection H as <-.
    destruct (dec2 g O EO) as (k & f & i & s & foo & Hk & Hi & Hb & H1 & HS & Hg & Hid & _).
    unfold num_ostates. rewrite Hid. destruct (rs_at c1 _ _ H1) as [-> _]. cbv zeta. replace (g - off1 c1 (off1 V k + i)) with foo by lia.
    destruct (blk_inv i s foo O Hb) as [[-> ->]|(F & e & E & ->)]; [reflexivity|]. replace (foo =? 0) with false by lia.
    destruct (rs_at S _ _ HS) as [-> _]. cbv zeta.
    assert (HA : rd (map snd A) (off1 S (off1 V k + i) + (foo - 1)) = Some (snd e)).
    { rewrite rd_map. unfold A. destruct (rd_concat_off S _ s (foo - 1) e HS E) as [-> _]. reflexivity. }
    destruct (rs_at _ _ _ HA) as [-> ->]. rewrite zlen_map, zlen_zrange by lia. f_equal. lia.
  Qed.

  Lemma noa_ok : mapM (num_oarcs (splits_of c1) (ids_of c1) (splits_of c2) (ids_of c2)) (zrange (zlen c3)) = Some (map zlen c3).
  Proof.
    rewrite <- (zlen_map zlen c3). apply mapM_zrange. intros o n H. rewrite rd_map in H. destruct (rd c3 o) as [row|] eqn:EO; [|discriminate]. injection H as <-.
    destruct (dec3 o row EO) as (g & O & j & HO & Hj & Ho & Hid3).
    destruct (dec2 g O HO) as (k & f & i & s & foo & Hk & Hi & Hb & H1 & HS & Hg & Hid & _).
    unfold num_oarcs. rewrite Hid3. destruct (rs_at c2 _ _ HO) as [-> _]. rewrite Hid. destruct (rs_at c1 _ _ H1) as [-> ->].
    replace (g - off1 c1 (off1 V k + i)) with foo by lia. replace (o - off1 c2 g) with j by lia. rewrite zlen_blk.
    destruct (row_inv i s foo O j row Hb Hj) as [(-> & -> & ->)|(F & e & E & Bj & ->)].
    - change (0 =? 0) with true. cbv iota. rewrite zlen_map, zlen_zrange by apply zlen_nonneg. f_equal. lia.
    - replace (foo =? 0) with false by lia. reflexivity.
  Qed.

  Definition base (k : Z) : Z := off1 (map (@concat _) (map (@concat _) W)) k.

  Lemma glob k f i s foo : rd V k = Some f -> rd f i = Some s -> 0 <= foo <= zlen (blk i s) ->
    off1 c2 (off1 c1 (off1 V k + i) + foo) = base k + lst f i foo.
  Proof.
    intros Hk Hi B. pose proof (rd_Some_bound _ _ _ Hi) as Bi.
    assert (HW : rd W k = Some (U f)) by (unfold W; rewrite rd_map, Hk; reflexivity).
    unfold c1. rewrite <- (off_W k), (off1_concat W k (U f) i) by (auto; rewrite zlen_U; lia). rewrite <- off1_map_concat.
    assert (HW2 : rd (map (@concat _) W) k = Some (concat (U f))) by (rewrite rd_map, HW; reflexivity).
    unfold c2, c1. rewrite <- (concat_map_concat W). rewrite <- Z.add_assoc. rewrite (off1_concat _ k _ _ HW2).
    - rewrite <- off1_map_concat. reflexivity.
    - pose proof (off1_nonneg (U f) i). pose proof (off1_next (U f) i _ (rd_U f i s Hi)). pose proof (off1_bound (U f) (i + 1)). lia.
  Qed.

  Lemma base_0 k f i s : rd V k = Some f -> rd f i = Some s -> off1 c2 (off1 c1 (off1 V k)) = base k.
  Proof.
    intros Hk Hi. pose proof (rd_Some_bound _ _ _ Hi) as Bi. destruct (rd_in_bound f 0 ltac:(lia)) as (s0 & H0).
    pose proof (glob k f 0 s0 0 Hk H0 ltac:(rewrite zlen_blk; pose proof (zlen_nonneg s0); lia)) as G. rewrite !Z.add_0_r in G. rewrite G.
    unfold lst. change (off1 (U f) 0) with 0. change (off1 (concat (U f)) (0 + 0)) with 0. lia.
  Qed.

  (** number of the first arc of an FSA *)
  Definition abase (k : Z) : Z := off1 (map (@concat _) V) k.

  Definition KK (k : Z) (f : list (list xarc)) (l : leaf) : arc * (Z * Z) :=
    (K f l, (if kpos l =? 0 then abase k + kidx f l else -1,
             if kpos l <? zlen (snd (karc f l)) then off1 (map snd A) (abase k + kidx f l) + kpos l else -1)).
  Definition out : list (arc * (Z * Z)) := concat (imap (fun k f => map (KK k f) (concat (concat (concat (U f))))) 0 V).

  Lemma zlen_out : zlen out = zlen c4.
  Proof.
    unfold out, c4, c3, c2, c1, W. generalize KK as h. intros h. generalize 0. clear. induction V as [|f fs IH]; intros z; [reflexivity|].
    cbn [imap map concat]. rewrite !concat_app, !zlen_app, zlen_map. f_equal. apply IH.
  Qed.

  Hypothesis dst_ok : forall f a, In f V -> In a (concat f) -> 0 <= dst (fst a) < zlen f.

  Lemma out_ok : mapM (set_arcs (splits_of S) (map fst A) (splits_of (map snd A)) (splits_of W) (ids_of W) (splits_of c1) (ids_of c1)
                         (splits_of c2) (ids_of c2) (splits_of c3) (ids_of c3)) (zrange (zlen c4)) = Some out.
  Proof.
    rewrite <- zlen_out. apply mapM_zrange. intros p r Hp.
    assert (Bp : 0 <= p < zlen c4) by (rewrite <- zlen_out; eapply rd_Some_bound; eauto).
    destruct (rd_in_bound c4 p Bp) as (l & Hl).
    destruct (dec4 p l Hl) as (o & row & m & Hrow & Hm & Ep & Id4).
    destruct (dec3 o row Hrow) as (g & O & j & HO & Hj & Ho & Id3).
    destruct (dec2 g O HO) as (k & f & i & s & foo & Hk & Hi & Hb & H1 & HS & Hg & Id2 & Id1).
    pose proof (rd_Some_bound _ _ _ Hb) as Bfoo. pose proof (rd_Some_bound _ _ _ Hi) as Bi.
    pose proof (glob k f i s foo Hk Hi ltac:(lia)) as G. rewrite <- Hg in G.
    pose proof (base_0 k f i s Hk Hi) as G0.
    (* what is in [out] *)
    assert (Er : r = KK k f l).
    { assert (Hin : rd (concat (concat (concat (U f)))) (off1 (concat (concat (U f))) (lst f i foo + j) + m) = Some l).
      { apply (rd_concat_off _ _ row m l); auto. apply (rd_concat_off _ _ O j row); auto. apply (rd_concat_off _ _ (blk i s) foo O); auto. now apply rd_U. }
      assert (HL : rd (map (fun f => concat (concat (concat (U f)))) V) k = Some (concat (concat (concat (U f))))) by (rewrite rd_map, Hk; reflexivity).
      pose proof (rd_concat_imap_map (fun k l => KK k f l) _ k _ _ _ HL Hin) as R0.
      assert (Epp : off1 (map (fun f => concat (concat (concat (U f)))) V) k + (off1 (concat (concat (U f))) (lst f i foo + j) + m) = p).
      { rewrite Ep, Ho, G. unfold c3.
        assert (HW3 : rd (map (@concat _) (map (@concat _) W)) k = Some (concat (concat (U f)))) by (rewrite !rd_map; unfold W; rewrite rd_map, Hk; reflexivity).
        unfold base. unfold c2, c1. rewrite <- (concat_map_concat W). rewrite <- (concat_map_concat (map (@concat _) W)).
        rewrite <- Z.add_assoc. rewrite (off1_concat _ k _ _ HW3).
        - rewrite <- off1_map_concat. unfold W. rewrite !map_map. lia.
        - pose proof (rd_Some_bound _ _ _ Hj) as Bj.
          assert (HO' : rd (concat (U f)) (off1 (U f) i + foo) = Some O) by (apply (rd_concat_off _ _ (blk i s) foo O); auto; now apply rd_U).
          unfold lst. pose proof (off1_nonneg (concat (U f)) (off1 (U f) i + foo)). pose proof (off1_next _ _ _ HO'). pose proof (off1_bound (concat (U f)) (off1 (U f) i + foo + 1)). lia. }
      rewrite Epp in R0.
      assert (R1 : rd out p = Some (KK k f l)).
      { unfold out. assert (HL' : rd (imap (fun k f => map (KK k f) (concat (concat (concat (U f))))) 0 V) k = Some (map (KK k f) (concat (concat (concat (U f)))))).
        { rewrite rd_imap, Hk. cbn. do 2 f_equal. }
        assert (HR : rd (map (KK k f) (concat (concat (concat (U f))))) (off1 (concat (concat (U f))) (lst f i foo + j) + m) = Some (KK k f l)) by (rewrite rd_map, Hin; reflexivity).
        pose proof (proj1 (rd_concat_off _ _ _ _ _ HL' HR)) as R2. rewrite <- R2. f_equal. rewrite <- Epp. f_equal.
        unfold off1. rewrite firstn_imap, firstn_map. generalize (firstn (Z.to_nat k) V). clear. intros L. generalize 0. induction L as [|f L IH]; intros z; [reflexivity|].
        cbn [imap map concat]. now rewrite !zlen_app, zlen_map, (IH (z + 1)). }
      congruence. }
    subst r. clear Hp.
    (* the input arc *)
    destruct (leaf_inv i s foo O j row m l Hb Hj Hm) as [El Cases].
    assert (exists a, rd s (kx l) = Some a) as (a & Ha).
    { rewrite El. cbn [kx]. destruct Cases as [(-> & -> & Bm)|(F & -> & e & He & Bj)]; [change (0 =? 0) with true; cbv iota; now apply rd_in_bound|]. replace (foo =? 0) with false by lia. eauto. }
    assert (Ka : karc f l = a) by (unfold karc; rewrite El at 1; cbn [fst]; rewrite Hi, Ha; reflexivity).
    assert (IA : rd A (off1 S (off1 V k + i) + kx l) = Some a) by (apply (rd_concat_off S _ s (kx l) a HS Ha)).
    assert (EA : off1 S (off1 V k + i) = abase k + off1 f i).
    { unfold S, abase. rewrite (off1_concat V k f i) by (auto; lia). now rewrite <- off1_map_concat. }
    assert (IA1 : rd (map fst A) (off1 S (off1 V k + i) + kx l) = Some (fst a)) by (rewrite rd_map, IA; reflexivity).
    assert (IA2 : rd (map snd A) (off1 S (off1 V k + i) + kx l) = Some (snd a)) by (rewrite rd_map, IA; reflexivity).
    destruct (rs_at _ _ _ IA2) as [L0 L1].
    assert (Hda : 0 <= dst (fst a) < zlen f).
    { apply dst_ok; [eapply rd_In; eauto|]. apply in_concat. exists s. split; eapply rd_In; eauto. }
    destruct (rd_in_bound f (dst (fst a)) Hda) as (sd & Hsd).
    unfold set_arcs. rewrite Id4. destruct (rs_at c3 _ _ Hrow) as [-> _]. cbv zeta. rewrite Id3. destruct (rs_at c2 _ _ HO) as [-> _].
    rewrite Id2. destruct (rs_at c1 _ _ H1) as [-> _]. rewrite Id1.
    assert (HWk : rd W k = Some (U f)) by (unfold W; rewrite rd_map, Hk; reflexivity).
    destruct (rs_at W _ _ HWk) as [-> _]. rewrite off_W.
    assert (HVk : 0 <= off1 V k <= zlen S).
    { pose proof (off1_nonneg V k). pose proof (off1_bound V k). unfold S. lia. }
    rewrite (rd_splits_off c1) by (rewrite zlen_c1; lia).
    rewrite (rd_splits_off c2).
    2:{ pose proof (off1_nonneg c1 (off1 V k)). pose proof (off1_bound c1 (off1 V k)). unfold c2. lia. }
    rewrite G0. destruct (rs_at S _ _ HS) as [-> _].
    replace (o - off1 c2 g) with j by lia. replace (g - off1 c1 (off1 V k + i)) with foo by lia. replace (p - off1 c3 o) with m by lia.
    assert (PR : (if foo =? 0 then check (j =? 0);; Some (m, 0) else check (m =? 0);; Some (foo - 1, j + 1)) = Some (kx l, kpos l)).
    { rewrite El. cbn [kx kpos]. destruct Cases as [(-> & -> & Bm)|(F & -> & e & He & Bj)]; [reflexivity|]. replace (foo =? 0) with false by lia. reflexivity. }
    rewrite PR. cbv zeta beta iota. rewrite IA1, L0, L1. replace (off1 (map snd A) (off1 S (off1 V k + i) + kx l) + zlen (snd a) - off1 (map snd A) (off1 S (off1 V k + i) + kx l)) with (zlen (snd a)) by lia.
    assert (CP : (kpos l <? Z.max 1 (zlen (snd a))) = true).
    { rewrite El. cbn [kpos]. rewrite El in Ha. cbn [kx] in Ha. destruct Cases as [(-> & -> & Bm)|(F & -> & e & He & Bj)]; [change (0 =? 0) with true; cbv iota; lia|].
      replace (foo =? 0) with false in * by lia. replace e with a in * by congruence. lia. }
    rewrite CP. cbv iota.
    assert (HSd : rd c1 (off1 V k + dst (fst a)) = Some (blk (dst (fst a)) sd)) by (rewrite <- off_W; apply (rd_concat_off W k (U f)); auto; now apply rd_U).
    destruct (rs_at c1 _ _ HSd) as [-> _].
    assert (Hd0 : rd c2 (off1 c1 (off1 V k + dst (fst a)) + 0) = Some [map (fun m => (dst (fst a), 0, 0, m)) (zrange (zlen sd))]) by (apply (rd_concat_off c1 _ _ 0 _ HSd); apply rd_blk_0).
    rewrite Z.add_0_r in Hd0. destruct (rs_at c2 _ _ Hd0) as [-> _].
    pose proof (glob k f (dst (fst a)) sd 0 Hk Hsd ltac:(rewrite zlen_blk; pose proof (zlen_nonneg sd); lia)) as Gd. rewrite Z.add_0_r in Gd. rewrite Gd.
    assert (Bx : 0 <= kx l < zlen s) by (eapply rd_Some_bound; eauto).
    assert (Hx : rd (splits_of c2) (off1 c1 (off1 V k + i) + (kx l + 1)) = Some (base k + lst f i (kx l + 1))).
    { rewrite rd_splits_off.
      - f_equal. apply glob with (s := s); auto. rewrite zlen_blk. lia.
      - pose proof (off1_nonneg c1 (off1 V k + i)). pose proof (off1_next c1 _ _ H1) as N. rewrite zlen_blk in N. pose proof (off1_bound c1 (off1 V k + i + 1)). unfold c2. lia. }
    assert (KE : forall l', l' = (i, foo, j, m) -> K f l' = let '(a, ls) := karc f l' in
      mkArc (lst f i foo + j) (if zlen ls <=? kpos l' + 1 then lst f (dst a) 0 else lst f i (kx l' + 1) + kpos l')
        (if negb (lab a =? -1) then (if kpos l' =? 0 then lab a else 0) else (if zlen ls <=? kpos l' + 1 then -1 else 0))
        (if kpos l' =? 0 then sc a else 0)) by (intros l' ->; reflexivity).
    rewrite Hx. unfold KK. rewrite (KE l El), Ka. destruct a as [a ls]. cbn [fst snd] in *.
    replace (kidx f l) with (off1 f i + kx l) by (unfold kidx; replace (fst (fst (fst l))) with i by (rewrite El; reflexivity); reflexivity).
    replace (abase k + (off1 f i + kx l)) with (off1 S (off1 V k + i) + kx l) by lia.
    destruct (zlen ls <=? kpos l + 1); cbv iota beta; do 3 f_equal; lia.
  Qed.

  Definition Ts : list nfsa := map expanded V.

  Lemma arcs_out : map fst out = concat (concat Ts).
  Proof.
    unfold out, Ts. assert (E : forall k f l, fst (KK k f l) = K f l) by reflexivity. revert E. generalize KK as h. intros h E. generalize 0. revert E. clear.
    intros E. induction V as [|f fs IH]; intros z; [reflexivity|]. cbn [imap map concat]. rewrite map_app, concat_app, IH. f_equal.
    rewrite map_map. unfold expanded. rewrite <- concat_map. apply map_ext. intros l. apply E.
  Qed.

  Lemma rs1_out : splits_of Ts = splits_of (map (@concat _) (map (@concat _) W)).
  Proof. unfold splits_of, Ts, W. rewrite !map_map. f_equal. apply map_ext. intros f. unfold expanded. apply zlen_map. Qed.

  Lemma rs2_out : splits_of (concat Ts) = splits_of c3.
  Proof.
    unfold splits_of. f_equal. unfold c3, c2, c1, W, Ts. clear. induction V as [|f fs IH]; [reflexivity|]. cbn [map concat].
    rewrite !concat_app, !map_app, IH. f_equal. unfold expanded. rewrite map_map. apply map_ext. intros r. apply zlen_map.
  Qed.

  Lemma rd_out k f q l : rd V k = Some f -> rd (concat (concat (concat (U f)))) q = Some l ->
    rd out (off1 (map (@concat _) Ts) k + q) = Some (KK k f l).
  Proof.
    intros Hk Hl. unfold out.
    assert (HL : rd (imap (fun k f => map (KK k f) (concat (concat (concat (U f))))) 0 V) k = Some (map (KK k f) (concat (concat (concat (U f)))))).
    { rewrite rd_imap, Hk. cbn. do 2 f_equal. }
    assert (HR : rd (map (KK k f) (concat (concat (concat (U f))))) q = Some (KK k f l)) by (rewrite rd_map, Hl; reflexivity).
    pose proof (proj1 (rd_concat_off _ _ _ _ _ HL HR)) as R2. rewrite <- R2. f_equal. f_equal.
    unfold off1, Ts. rewrite firstn_imap, !firstn_map. generalize KK as h. intros h. generalize (firstn (Z.to_nat k) V). clear. intros L. generalize 0. induction L as [|f L IH]; intros z; [reflexivity|].
    cbn [imap map concat]. rewrite !zlen_app, zlen_map, (IH (z + 1)). f_equal. unfold expanded. rewrite <- concat_map. now rewrite zlen_map.
  Qed.

  Theorem expand_arcs_ok :
    expand_arcs (splits_of V) (splits_of S) (map fst A) (splits_of (map snd A)) = Some (splits_of Ts, splits_of (concat Ts), out) /\
    map fst out = concat (concat Ts).
  Proof.
    split; [|apply arcs_out]. unfold expand_arcs. rewrite zlen_splits_of, !zlen_map. replace (zlen A =? zlen A + 1 - 1) with true by lia. cbv iota.
    rewrite zlen_splits_of. replace (zlen S + 1 - 1) with (zlen S) by lia. cbv zeta. rewrite rs2_c1.
    rewrite (rd_splits_off c1) by (rewrite zlen_c1; pose proof (zlen_nonneg S); lia). replace (off1 c1 (zlen S)) with (zlen c2) by (rewrite <- zlen_c1, off1_all; reflexivity).
    unfold c2 at 1. rewrite row_ids_of_splits. rewrite nos_ok. change (exsum (map zlen c2)) with (splits_of c2).
    rewrite rs1_W. rewrite <- zlen_c1. unfold c1 at 1. rewrite row_ids_of_splits. fold c1.
    rewrite (rd_splits_off c2) by (pose proof (zlen_nonneg c2); lia). rewrite off1_all. fold c3. unfold c3 at 1. rewrite row_ids_of_splits. fold c3.
    rewrite noa_ok. change (exsum (map zlen c3)) with (splits_of c3).
    rewrite (rd_splits_off c3) by (pose proof (zlen_nonneg c3); lia). rewrite off1_all. fold c4.
    assert (LA : zlen A <= zlen c4).
    { unfold A, S, c4, c3, c2, c1, W. clear. induction V as [|f fs IH]; [reflexivity|]. cbn [map concat]. rewrite !concat_app, !zlen_app.
      assert (zlen (concat f) <= zlen (concat (concat (concat (U f))))); [|lia].
      unfold U. generalize 0. induction f as [|s f IHf]; intros z; [reflexivity|]. cbn [imap concat]. rewrite !concat_app, !zlen_app. specialize (IHf (z + 1)).
      pose proof (blk_arcs z s). lia. }
    replace (zlen A <=? zlen c4) with true by lia. cbv iota. unfold c4 at 1. rewrite row_ids_of_splits. fold c4. rewrite out_ok.
    assert (R1 : mapM (rd (splits_of c1)) (splits_of W) = Some (splits_of (map (@concat _) W))).
    { apply RaggedOpsProofs.mapM_by_rd; [rewrite !zlen_splits_of, zlen_map; reflexivity|]. intros k x Hx. pose proof (rd_Some_bound _ _ _ Hx) as B.
      rewrite zlen_splits_of in B. rewrite rd_splits_off in Hx by lia. injection Hx as <-.
      pose proof (off1_nonneg W k). pose proof (off1_bound W k). rewrite !rd_splits_off by (rewrite ?zlen_map; unfold c1; lia). f_equal. apply off1_off1. lia. }
    rewrite R1.
    assert (R2 : mapM (rd (splits_of c2)) (splits_of (map (@concat _) W)) = Some (splits_of (map (@concat _) (map (@concat _) W)))).
    { unfold c2, c1. rewrite <- (concat_map_concat W). apply RaggedOpsProofs.mapM_by_rd; [rewrite !zlen_splits_of, !zlen_map; reflexivity|]. intros k x Hx. pose proof (rd_Some_bound _ _ _ Hx) as B.
      rewrite zlen_splits_of in B. rewrite rd_splits_off in Hx by lia. injection Hx as <-. set (L := map (@concat _) W) in *.
      pose proof (off1_nonneg L k). pose proof (off1_bound L k). rewrite !rd_splits_off by (rewrite ?zlen_map; lia). f_equal. apply off1_off1. lia. }
    rewrite R2. now rewrite rs1_out, rs2_out.
  Qed.
End Kernels.
