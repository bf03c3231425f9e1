(** * Inversion of FSTs with ragged aux labels *)
From Coq Require Import ZArith List Lia Bool.
From Verif Require Import Base RaggedModel RaggedSpec RaggedProofs FsaSpec FsaLemmas EpsLoopProofs ScoreSpec ShortestSpec ScorePaths IntersectSpec IntersectPaths ExpandModel ExpandProofs ExpandPaths ExpandProps.
Import ListNotations.
Open Scope Z_scope.

(** the documented condition on aux labels: -1 is the last label of a final arc, and
    occurs nowhere else *)
Definition aux_ok (a : arc) (row : list Z) : Prop :=
  Forall (fun l => -1 <= l) row /\
  (lab a = -1 -> exists r, row = r ++ [-1] /\ ~ In (-1) r) /\ (lab a <> -1 -> ~ In (-1) row).

Definition newlab (f : list (list xarc)) (l : leaf) : Z :=
  match rd (snd (karc f l)) (kpos l) with Some v => v | None => 0 end.
Definition K' (f : list (list xarc)) (l : leaf) : arc :=
  mkArc (src (K f l)) (dst (K f l)) (newlab f l) (sc (K f l)).
Definition inverted (f : list (list xarc)) : nfsa := map (map (K' f)) (concat (concat (U f))).

Lemma all_inverted f q : rd (all_arcs (inverted f)) q = option_map (K' f) (rd (concat (concat (concat (U f)))) q).
Proof. unfold all_arcs, inverted. rewrite <- concat_map, rd_map. reflexivity. Qed.
Lemma all_expanded f q : rd (all_arcs (expanded f)) q = option_map (K f) (rd (concat (concat (concat (U f)))) q).
Proof. unfold all_arcs, expanded. rewrite <- concat_map, rd_map. reflexivity. Qed.

Lemma apath_inverted f s q t : apath (inverted f) s q t <-> apath (expanded f) s q t.
Proof.
  split; (induction 1 as [s|a arc p t Ha H IH]; [constructor|]).
  - rewrite all_inverted in Ha. destruct (rd (concat (concat (concat (U f)))) a) as [l|] eqn:El; [|discriminate]. injection Ha as <-.
    change (src (K' f l)) with (src (K f l)). apply (ap_cons _ _ (K f l)); [rewrite all_expanded, El; reflexivity|exact IH].
  - rewrite all_expanded in Ha. destruct (rd (concat (concat (concat (U f)))) a) as [l|] eqn:El; [|discriminate]. injection Ha as <-.
    change (src (K f l)) with (src (K' f l)). apply (ap_cons _ _ (K' f l)); [rewrite all_inverted, El; reflexivity|exact IH].
Qed.
Lemma successful_inverted f q : successful (inverted f) q <-> successful (expanded f) q.
Proof. unfold successful, nstates. replace (zlen (inverted f)) with (zlen (expanded f)) by (unfold inverted, expanded; now rewrite !zlen_map). now rewrite apath_inverted. Qed.

Section Inv.
  Variable f : list (list xarc).

  Lemma in_f i s x e : rd f i = Some s -> rd s x = Some e -> In e (concat f).
  Proof. intros H1 H2. apply in_concat. exists s. split; eapply rd_In; eauto. Qed.

  Lemma leaf_arc q l : rd (concat (concat (concat (U f)))) q = Some l -> exists e, karc f l = e /\ In e (concat f) /\ 0 <= kpos l < Z.max 1 (zlen (snd e)).
  Proof.
    intros Hl. destruct (rd_concat_inv _ _ _ Hl) as (o & row & m & H1 & H2 & _).
    destruct (rd_concat_inv _ _ _ H1) as (g & O & j & K1 & K2 & _). destruct (rd_concat_inv _ _ _ K1) as (i & B & foo & L1 & L2 & _).
    pose proof (rd_Some_bound _ _ _ L1) as Bi. rewrite zlen_U in Bi. destruct (rd_in_bound f i Bi) as (s & Hs). rewrite (rd_U f i s Hs) in L1. injection L1 as <-.
    destruct (leaf_inv i s foo O j row m l L2 K2 H2) as [-> [(-> & -> & Bm)|(Hfoo & -> & e & He & Bj)]].
    - destruct (rd_in_bound s m Bm) as (e & He). exists e. destruct (first_arc_at f i s m e Hs He) as [_ Ka]. split; [exact Ka|]. split; [eapply in_f; eauto|]. change (kpos (i, 0, 0, m)) with 0. lia.
    - exists e. replace foo with (foo - 1 + 1) by lia. destruct (inner_arc_at f i s (foo - 1) e j Hs He Bj) as [_ Ka]. split; [exact Ka|]. split; [eapply in_f; eauto|]. rewrite kpos_inner by lia. lia.
  Qed.

  (** labels along a chain *)
  Lemma labels_chain i s x e : rd f i = Some s -> rd s x = Some e -> strip (labels (arcs_at (inverted f) (chain f i x (zlen (snd e))))) = strip (snd e).
  Proof.
    intros Hi Hx. pose proof (rd_Some_bound _ _ _ Hx) as Bx. destruct (first_arc_at f i s x e Hi Hx) as [Fa Ka].
    assert (F1 : rd (all_arcs (inverted f)) (ai f i 0 0 x) = Some (K' f (i, 0, 0, x))).
    { rewrite all_inverted. destruct (at_coords f i s 0 [map (fun m => (i, 0, 0, m)) (zrange (zlen s))] 0 (map (fun m => (i, 0, 0, m)) (zrange (zlen s))) x (i, 0, 0, x)) as (_ & _ & -> & _); auto.
      rewrite rd_map, rd_zrange by lia. reflexivity. }
    unfold chain. rewrite (arcs_at_cons _ _ _ _ F1). unfold labels. cbn [map]. change (lab (K' f (i, 0, 0, x))) with (newlab f (i, 0, 0, x)). unfold newlab at 1. rewrite Ka. change (kpos (i, 0, 0, x)) with 0.
    destruct (snd e) as [|v ls] eqn:Es; [reflexivity|]. change (rd (v :: ls) 0) with (Some v).
    assert (Q : forall d j, 0 <= j -> zlen (v :: ls) - 1 - j = Z.of_nat d -> map lab (arcs_at (inverted f) (rest f i x (zlen (v :: ls)) j)) = skipn (Z.to_nat j) ls).
    { induction d as [|d IH]; intros j Hj Hd.
      - rewrite rest_nil by lia. rewrite zlen_cons in Hd. rewrite skipn_all2 by (unfold zlen in Hd; lia). reflexivity.
      - rewrite rest_cons by lia. rewrite zlen_cons in Hd. destruct (rd_in_bound ls j ltac:(lia)) as (w & Hw).
        assert (Bj : 0 <= j < zlen (snd e) - 1) by (rewrite Es, zlen_cons; lia). destruct (inner_arc_at f i s x e j Hi Hx Bj) as [_ Kj].
        assert (F2 : rd (all_arcs (inverted f)) (ai f i (x + 1) j 0) = Some (K' f (i, x + 1, j, 0))).
        { rewrite all_inverted. destruct (at_coords f i s (x + 1) (map (fun j => [(i, x + 1, j, 0)]) (zrange (Z.max (zlen (snd e) - 1) 0))) j [(i, x + 1, j, 0)] 0 (i, x + 1, j, 0)) as (_ & _ & -> & _); auto.
          - rewrite rd_blk_S by lia. rewrite Hx. reflexivity.
          - rewrite rd_map, rd_zrange by lia. reflexivity. }
        rewrite (arcs_at_cons _ _ _ _ F2). cbn [map]. rewrite IH by (rewrite ?zlen_cons; lia). change (lab (K' f (i, x + 1, j, 0))) with (newlab f (i, x + 1, j, 0)). unfold newlab. rewrite Kj, kpos_inner by lia. rewrite Es.
        rewrite rd_cons. replace (j + 1 =? 0) with false by lia. replace (j + 1 - 1) with j by lia. rewrite Hw.
        replace (Z.to_nat (j + 1)) with (S (Z.to_nat j)) by lia. clear -Hw Hj. unfold rd in Hw. replace (j <? 0) with false in Hw by lia. revert Hw. generalize (Z.to_nat j) as n. clear.
        induction ls as [|a ls IH]; intros [|n] H; try discriminate.
        + injection H as ->. reflexivity.
        + cbn [skipn]. now apply IH. }
    rewrite (Q (Z.to_nat (zlen (v :: ls) - 1)) 0); [reflexivity|lia|]. rewrite zlen_cons. pose proof (zlen_nonneg ls). lia.
  Qed.
  Hypothesis wf : forall e, In e (concat f) -> aux_ok (fst e) (snd e).

  (** -1 is the label of exactly the same arcs *)
  Lemma newlab_final l e : karc f l = e -> In e (concat f) -> 0 <= kpos l < Z.max 1 (zlen (snd e)) -> (newlab f l = -1 <-> lab (K f l) = -1) /\ -1 <= newlab f l.
  Proof.
    intros Ke He Bp. destruct (wf e He) as (W1 & W2 & W3). rewrite Forall_forall in W1. unfold newlab. rewrite lab_K, Ke. destruct (lab (fst e) =? -1) eqn:C; cbn [negb].
    - destruct (W2 ltac:(lia)) as (r & Er & Nr). assert (LE : zlen (snd e) = zlen r + 1) by (rewrite Er, zlen_app; reflexivity). pose proof (zlen_nonneg r).
      destruct (rd_in_bound (snd e) (kpos l) ltac:(lia)) as (v & Hv). rewrite Hv. split; [|apply W1; eapply rd_In; eauto].
      destruct (zlen (snd e) <=? kpos l + 1) eqn:D.
      + rewrite Er, rd_app_r in Hv by lia. replace (kpos l - zlen r) with 0 in Hv by lia. injection Hv as <-. lia.
      + rewrite Er, rd_app_l in Hv by lia. split; [intros ->; exfalso; apply Nr; eapply rd_In; eauto|lia].
    - specialize (W3 ltac:(lia)). destruct (rd (snd e) (kpos l)) as [v|] eqn:Hv; (split; [|try lia]).
      + split; [intros ->; exfalso; apply W3; eapply rd_In; eauto|]. destruct (kpos l =? 0); lia.
      + apply W1. eapply rd_In; eauto.
      + destruct (kpos l =? 0); lia.
  Qed.

  Lemma valid_inverted : valid (expanded f) -> valid (inverted f).
  Proof.
    assert (N : nstates (inverted f) = nstates (expanded f)) by (unfold nstates, inverted, expanded; now rewrite !zlen_map).
    assert (FN : final (inverted f) = final (expanded f)) by (unfold final, nstates in *; now rewrite N).
    intros (SO & N2 & VA). split; [|split; [rewrite N; exact N2|]].
    - intros o row b Ho Hb. unfold inverted in Ho. rewrite rd_map in Ho. destruct (rd (concat (concat (U f))) o) as [r|] eqn:Er; [|discriminate]. injection Ho as <-.
      apply in_map_iff in Hb. destruct Hb as (l & <- & Hl). change (src (K' f l)) with (src (K f l)).
      apply (SO o (map (K f) r)); [unfold expanded; rewrite rd_map, Er; reflexivity|now apply in_map].
    - intros b Hb. apply In_rd in Hb. destruct Hb as (q & _ & Hq). rewrite all_inverted in Hq. destruct (rd (concat (concat (concat (U f)))) q) as [l|] eqn:El; [|discriminate]. injection Hq as <-.
      destruct (leaf_arc q l El) as (e & Ke & He & Bp). destruct (newlab_final l e Ke He Bp) as [W1 W2].
      destruct (VA (K f l)) as (V1 & V2 & V3 & V4). { eapply rd_In. rewrite all_expanded, El. reflexivity. }
      unfold K'. cbn [src dst lab]. rewrite N, FN. split; [exact V1|]. split; [exact W2|]. split; [rewrite W1; exact V3|exact V4].
  Qed.

End Inv.

Lemma labels_E f s p t : apath (map (map fst) f) s p t -> strip (labels (arcs_at (inverted f) (E f p))) = strip (lists (map snd (concat f)) 0 p).
Proof.
  induction 1 as [s|a arc p t Ha H IH]; [reflexivity|].
  unfold all_arcs in Ha. rewrite <- concat_map, rd_map in Ha. destruct (rd (concat f) a) as [e|] eqn:Ee; [|discriminate]. injection Ha as <-.
  unfold lists. cbn [flat_map]. change (0 + a) with a. rewrite rd_map, Ee. cbn [option_map].
  destruct (rd_concat_inv _ _ _ Ee) as (i & st & x & H1 & H2 & -> & _). unfold E. cbn [flat_map]. rewrite (chain_of_at f i st x e H1 H2), arcs_at_app.
  unfold labels in *. rewrite map_app, strip_app. fold (labels (arcs_at (inverted f) (chain f i x (zlen (snd e))))). rewrite (labels_chain f i st x e H1 H2).
  fold (E f p). rewrite IH. unfold lists. rewrite strip_app. reflexivity.
Qed.

Lemma score_inverted f s q t : apath (expanded f) s q t -> score (arcs_at (inverted f) q) = score (arcs_at (expanded f) q).
Proof.
  induction 1 as [s|a arc p t Ha H IH]; [reflexivity|]. rewrite (arcs_at_cons _ _ _ _ Ha).
  rewrite all_expanded in Ha. destruct (rd (concat (concat (concat (U f)))) a) as [l|] eqn:El; [|discriminate]. injection Ha as <-.
  assert (Hb : rd (all_arcs (inverted f)) a = Some (K' f l)) by (rewrite all_inverted, El; reflexivity). rewrite (arcs_at_cons _ _ _ _ Hb).
  unfold score in *. cbn [map zsum]. rewrite IH. reflexivity.
Qed.

Section Vec.
  Variable X : list (list (list xarc)).
  Let V : list nfsa := map (map (map fst)) X.
  Hypothesis ok : Forall (fun f => f = [] \/ valid f) V.

  Definition Is : list nfsa := map inverted X.

  Lemma zlen_Is : zlen (concat (concat Is)) = zlen (concat (concat (Ts X))).
  Proof.
    unfold Is, Ts. clear. induction X as [|f fs IH]; [reflexivity|]. cbn [map concat]. rewrite !concat_app, !zlen_app, IH. f_equal.
    unfold inverted, expanded. rewrite <- !concat_map, !zlen_map. reflexivity.
  Qed.
  Lemma first_arc_Is k : first_arc Is k = first_arc (Ts X) k.
  Proof.
    unfold first_arc, Is, Ts, off1. rewrite !firstn_map. generalize (firstn (Z.to_nat k) X). clear. induction l as [|f l IH]; [reflexivity|].
    cbn [map concat]. rewrite !zlen_app, IH. f_equal. unfold all_arcs, inverted, expanded. rewrite <- !concat_map, !zlen_map. reflexivity.
  Qed.
  Lemma rd_Is k f q l : rd X k = Some f -> rd (concat (concat (concat (U f)))) q = Some l -> rd (concat (concat Is)) (first_arc (Ts X) k + q) = Some (K' f l).
  Proof.
    intros Hk Hl. rewrite <- (concat_map_concat Is), <- first_arc_Is. apply (rd_concat_off (map (@concat _) Is) k (concat (inverted f))).
    - unfold Is. rewrite !rd_map, Hk. reflexivity.
    - change (concat (inverted f)) with (all_arcs (inverted f)). rewrite all_inverted, Hl. reflexivity.
  Qed.

  Lemma out_leaf q y : rd (out X) q = Some y -> exists k f q' l, rd X k = Some f /\ rd (concat (concat (concat (U f)))) q' = Some l /\ q = first_arc (Ts X) k + q' /\ y = KK X k f l.
  Proof.
    intros H. destruct (rd_concat_inv (map (@concat _) (Ts X)) q (fst y)) as (k & a & q' & H1 & H2 & H3 & _).
    { rewrite concat_map_concat. rewrite <- arcs_out, rd_map, H. reflexivity. }
    unfold Ts in H1. rewrite !rd_map in H1. destruct (rd X k) as [f|] eqn:Hk; [|discriminate]. cbn [option_map] in H1. injection H1 as <-.
    change (concat (expanded f)) with (all_arcs (expanded f)) in H2. rewrite all_expanded in H2. destruct (rd (concat (concat (concat (U f)))) q') as [l|] eqn:El; [|discriminate].
    exists k, f, q', l. split; auto. split; auto. change (off1 (map (@concat _) (Ts X)) k) with (first_arc (Ts X) k) in H3. split; auto.
    pose proof (rd_out X k f q' l Hk El) as R. change (off1 (map (@concat _) (Ts X)) k) with (first_arc (Ts X) k) in R. rewrite <- H3 in R. congruence.
  Qed.

  Lemma A_leaf k f q l : rd X k = Some f -> rd (concat (concat (concat (U f)))) q = Some l -> rd (concat (concat X)) (abase X k + kidx f l) = Some (karc f l).
  Proof.
    intros Hk Hl. destruct (rd_concat_inv _ _ _ Hl) as (o & row & m & H1 & H2 & _).
    destruct (rd_concat_inv _ _ _ H1) as (g & O & j & K1 & K2 & _). destruct (rd_concat_inv _ _ _ K1) as (i & B & foo & L1 & L2 & _).
    pose proof (rd_Some_bound _ _ _ L1) as Bi. rewrite zlen_U in Bi. destruct (rd_in_bound f i Bi) as (s & Hs). rewrite (rd_U f i s Hs) in L1. injection L1 as <-.
    destruct (leaf_inv i s foo O j row m l L2 K2 H2) as [-> [(-> & -> & Bm)|(Hfoo & -> & e & He & Bj)]].
    - destruct (rd_in_bound s m Bm) as (e & He). destruct (first_arc_at f i s m e Hs He) as [_ ->]. rewrite kidx_first. now apply (A_at X k f i s m e).
    - replace foo with (foo - 1 + 1) by lia. destruct (inner_arc_at f i s (foo - 1) e j Hs He Bj) as [_ ->]. rewrite kidx_inner by lia. now apply (A_at X k f i s (foo - 1) e).
  Qed.

  Definition laux : list Z := concat (map snd (concat (concat X))).

  Lemma new_ok : mapM (fun y : arc * (Z * Z) =>
           l <- (if snd (snd y) =? -1 then Some 0 else rd laux (snd (snd y)));;
           let a := fst y in Some (mkArc (src a) (dst a) l (sc a))) (out X) = Some (concat (concat Is)).
  Proof.
    apply RaggedOpsProofs.mapM_by_rd.
    - rewrite zlen_Is, <- arcs_out, zlen_map. reflexivity.
    - intros q y Hy. destruct (out_leaf q y Hy) as (k & f & q' & l & Hk & Hl & -> & ->). rewrite (rd_Is k f q' l Hk Hl).
      pose proof (A_leaf k f q' l Hk Hl) as HA. set (a := abase X k + kidx f l) in *.
      assert (HS : rd (map snd (concat (concat X))) a = Some (snd (karc f l))) by (rewrite rd_map, HA; reflexivity).
      destruct (leaf_arc f q' l Hl) as (e & Ke & _ & Bp). unfold KK. cbn [fst snd]. fold a. unfold K', newlab. rewrite Ke in *.
      destruct (kpos l <? zlen (snd e)) eqn:C.
      + pose proof (off1_nonneg (map snd (concat (concat X))) a). replace (off1 (map snd (concat (concat X))) a + kpos l =? -1) with false by lia.
        destruct (rd_in_bound (snd e) (kpos l) ltac:(lia)) as (v & Hv). unfold laux. destruct (rd_concat_off _ _ _ _ _ HS Hv) as [-> _]. rewrite Hv. reflexivity.
      + change (-1 =? -1) with true. cbv iota. rewrite (proj2 (rd_None (snd e) (kpos l))) by lia. reflexivity.
  Qed.

  Definition auxs : list (list Z) := map (fun y : arc * (Z * Z) => strip [lab (fst y)]) (out X).

  Lemma auxs_path k f s q t : rd X k = Some f -> apath (expanded f) s q t -> lists auxs (first_arc Is k) q = strip (labels (arcs_at (expanded f) q)).
  Proof.
    intros Hk. induction 1 as [s|a arc p t Ha H IH]; [reflexivity|]. rewrite (arcs_at_cons _ _ _ _ Ha). unfold lists. cbn [flat_map].
    fold (lists auxs (first_arc Is k) p). rewrite IH. unfold labels. cbn [map]. change (lab arc :: map lab (arcs_at (expanded f) p)) with ([lab arc] ++ map lab (arcs_at (expanded f) p)). rewrite strip_app. f_equal.
    rewrite all_expanded in Ha. destruct (rd (concat (concat (concat (U f)))) a) as [l|] eqn:El; [|discriminate]. injection Ha as <-.
    unfold auxs. rewrite rd_map, first_arc_Is. pose proof (rd_out X k f a l Hk El) as R. change (off1 (map (@concat _) (Ts X)) k) with (first_arc (Ts X) k) in R. rewrite R. reflexivity.
  Qed.
End Vec.

Lemma lists_shift X k fx s p t : rd X k = Some fx -> apath (map (map fst) fx) s p t ->
  lists (map snd (concat fx)) 0 p = lists (map snd (concat (concat X))) (abase X k) p.
Proof.
  intros Hk. induction 1 as [s|a arc p t Ha H IH]; [reflexivity|]. unfold lists in *. cbn [flat_map]. rewrite IH. f_equal. change (0 + a) with a.
  unfold all_arcs in Ha. rewrite <- concat_map, rd_map in Ha. destruct (rd (concat fx) a) as [e|] eqn:Ee; [|discriminate].
  rewrite rd_map, Ee. cbn [option_map]. rewrite rd_map. unfold abase. rewrite <- (concat_map_concat X).
  assert (HA : rd (concat (map (@concat _) X)) (off1 (map (@concat _) X) k + a) = Some e) by (apply (rd_concat_off (map (@concat _) X) k (concat fx)); auto; rewrite rd_map, Hk; reflexivity).
  rewrite HA. reflexivity.
Qed.

(** ** C57: inverting an FST with ragged aux labels *)
Theorem C57_invert_ragged (V : list nfsa) (L : list (list Z)) :
  Forall (fun f => f = [] \/ valid f) V ->
  zlen L = zlen (concat (concat V)) ->
  (forall i a row, rd (concat (concat V)) i = Some a -> rd L i = Some row -> aux_ok a row) ->
  exists Ws aux m,
    invert_ragged (splits_of V) (splits_of (concat V)) (concat (concat V)) (splits_of L) (concat L) =
      Some (splits_of Ws, splits_of (concat Ws), concat (concat Ws), rag_of aux, m) /\
    zlen Ws = zlen V /\ zlen aux = zlen (concat (concat Ws)) /\ zlen m = zlen (concat (concat Ws)) /\
    forall k f g, rd V k = Some f -> rd Ws k = Some g ->
      let pr := proj m (first_arc Ws k) (first_arc V k) in
      (f = [] -> g = []) /\ (f <> [] -> valid g) /\
      (forall q, successful g q -> successful f (pr q)) /\
      (forall p, successful f p -> exists q, successful g q /\ pr q = p) /\
      (forall q q', successful g q -> successful g q' -> pr q = pr q' -> q = q') /\
      (forall q, successful g q ->
         score (arcs_at g q) = score (arcs_at f (pr q)) /\
         strip (labels (arcs_at g q)) = strip (lists L (first_arc V k) (pr q)) /\
         lists aux (first_arc Ws k) q = strip (labels (arcs_at f (pr q)))).
Proof.
  intros OK LL WF. destruct (attach V L LL) as (X & X1 & X2).
  assert (XA : map fst (concat (concat X)) = concat (concat V)) by (rewrite flat_A, X1; reflexivity).
  rewrite <- X1 in OK. pose proof (general_run X OK) as [GR GF]. rewrite X1, X2 in GR.
  exists (Is X), (auxs X), (map (fun y => fst (snd y)) (out X)).
  assert (S1 : splits_of (Ts X) = splits_of (Is X)).
  { unfold splits_of, Ts, Is. rewrite !map_map. f_equal. apply map_ext. intros f. unfold expanded, inverted. now rewrite !zlen_map. }
  assert (S2 : splits_of (concat (Ts X)) = splits_of (concat (Is X))).
  { unfold splits_of, Ts, Is. f_equal. clear. induction X as [|f fs IH]; [reflexivity|]. cbn [map concat]. rewrite !map_app, IH. f_equal. unfold expanded, inverted. rewrite !map_map. apply map_ext. intros r. now rewrite !zlen_map. }
  split.
  { unfold invert_ragged. rewrite GR. pose proof (new_ok X) as NW. unfold laux in NW. rewrite X2 in NW. cbv zeta. cbv zeta in NW. rewrite NW, S1, S2. unfold rag_of, auxs. do 3 f_equal. f_equal.
    - unfold splits_of. f_equal. rewrite map_map. apply map_ext. intros y. unfold strip. cbn [filter]. destruct (lab (fst y) =? 0); reflexivity.
    - f_equal. apply map_ext. intros y. unfold strip. cbn [filter]. destruct (lab (fst y) =? 0); reflexivity. }
  split; [unfold Is; rewrite <- X1, !zlen_map; reflexivity|]. split; [unfold auxs; rewrite zlen_map, zlen_Is, <- GF, zlen_map; reflexivity|].
  split; [rewrite zlen_map, zlen_Is, <- GF, zlen_map; reflexivity|]. intros k f g Hf Hg. cbv zeta.
  rewrite <- X1, rd_map in Hf. destruct (rd X k) as [fx|] eqn:Hk; [|discriminate]. injection Hf as <-.
  unfold Is in Hg. rewrite rd_map, Hk in Hg. injection Hg as <-.
  destruct (general X OK k fx Hk) as [(G1 & G2 & G3 & G4) GV]. rewrite X1 in G1, G2, G3, G4. rewrite first_arc_Is.
  assert (WX : forall e, In e (concat fx) -> aux_ok (fst e) (snd e)).
  { intros e He. apply In_rd in He. destruct He as (a & _ & He).
    assert (HA : rd (concat (concat X)) (off1 (map (@concat _) X) k + a) = Some e).
    { rewrite <- (concat_map_concat X). apply (rd_concat_off (map (@concat _) X) k (concat fx)); auto. rewrite rd_map, Hk. reflexivity. }
    apply (WF (off1 (map (@concat _) X) k + a)); [rewrite <- XA, rd_map, HA; reflexivity|rewrite <- X2, rd_map, HA; reflexivity]. }
  split; [destruct fx; [reflexivity|discriminate]|].
  split; [intros N; apply valid_inverted; auto; apply GV; intros ->; now apply N|].
  split; [intros q Hq; apply successful_inverted in Hq; now apply G1|].
  split; [intros p Hp; destruct (G2 p Hp) as (q & Hq & Ep); exists q; split; auto; now apply successful_inverted|].
  split; [intros q q' Hq Hq'; apply G3; now apply successful_inverted|].
  intros q Hq. apply successful_inverted in Hq. destruct (G4 q Hq) as [E1 E2]. pose proof (proj2 Hq) as Pq. split; [|split].
  - rewrite (score_inverted fx _ _ _ Pq). exact E2.
  - pose proof Hq as Hq2. apply (paths X OK k fx Hk) in Hq2. destruct Hq2 as (p & [N Hp] & ->). rewrite (labels_E fx _ _ _ Hp).
    pose proof (proj_E X k fx _ _ _ Hk Hp) as PE. rewrite X1 in PE. rewrite PE. f_equal.
    rewrite <- X1, <- abase_V, <- X2. apply (lists_shift X k fx _ _ _ Hk Hp).
  - rewrite <- first_arc_Is. rewrite (auxs_path X k fx _ _ _ Hk Pq). rewrite first_arc_Is. exact E1.
Qed.
Print Assumptions C57_invert_ragged.

Example C57_ex :
  invert_ragged (splits_of [exf]) (splits_of (concat [exf])) (concat (concat [exf]))
    (splits_of [[1; 2]; [7; -1]; [-1]; []]) (concat [[1; 2]; [7; -1]; [-1]; []]) =
  Some ([0; 5], [0; 2; 3; 4; 6; 6],
        [mkArc 0 1 1 10; mkArc 0 2 7 20; mkArc 1 3 2 0; mkArc 2 4 (-1) 0; mkArc 3 4 (-1) 30; mkArc 3 3 0 7],
        ([0; 1; 1; 1; 2; 3; 3], [5; -1; -1]), [0; 1; -1; -1; 2; 3]) /\
  valid exf /\
  (forall i a row, rd (concat (concat [exf])) i = Some a -> rd [[1; 2]; [7; -1]; [-1]; []] i = Some row -> aux_ok a row).
Proof.
  split; [reflexivity|]. split; [apply validb_ok; reflexivity|]. intros i a row Ha Hr. pose proof (rd_Some_bound _ _ _ Hr) as B. change (zlen [[1; 2]; [7; -1]; [-1]; []]) with 4 in B.
  assert (C : i = 0 \/ i = 1 \/ i = 2 \/ i = 3) by lia.
  destruct C as [->|[->|[->| ->]]]; vm_compute in Ha, Hr; injection Ha as <-; injection Hr as <-; (split; [repeat constructor; lia|]); cbn [lab]; split; intros H; try lia.
  - intros [E|[E|[]]]; lia.
  - exists [7]. split; [reflexivity|]. intros [E|[]]; lia.
  - exists []. split; [reflexivity|intros []].
  - intros [].
Qed.
