(** * Determinization: the invariant of the main loop *)
From Coq Require Import ZArith List Lia Bool Permutation.
From Verif Require Import Base RaggedModel RaggedSpec RaggedProofs FsaSpec FsaLemmas OpsModel ScoreSpec ScorePaths ShortestSpec IntersectPaths DetModel DetSpec DetProofs DetRun.
Import ListNotations.
Open Scope Z_scope.

Lemma rd_snoc_old {T} (l : list T) x i y : rd l i = Some y -> rd (l ++ [x]) i = Some y.
Proof. intros H. rewrite rd_app_l; [exact H|]. apply rd_Some_bound in H. lia. Qed.
Lemma rd_snoc_new {T} (l : list T) x : rd (l ++ [x]) (zlen l) = Some x.
Proof. rewrite rd_app_r by lia. now rewrite Z.sub_diag. Qed.
Lemma rd_snoc_inv {T} (l : list T) x i y : rd (l ++ [x]) i = Some y -> rd l i = Some y \/ (i = zlen l /\ y = x).
Proof.
  intros H. pose proof (rd_Some_bound _ _ _ H) as B. rewrite zlen_app in B. change (zlen [x]) with 1 in B. destruct (Z.eq_dec i (zlen l)) as [->|N].
  - rewrite rd_snoc_new in H. injection H as <-. now right.
  - rewrite rd_app_l in H by lia. now left.
Qed.
Lemma NoDup_snoc {T} (l : list T) x : NoDup l -> ~ In x l -> NoDup (l ++ [x]).
Proof. intros H1 H2. apply NoDup_rev in H1. rewrite <- (rev_involutive (l ++ [x])). apply NoDup_rev. rewrite rev_app_distr. cbn. constructor; [now rewrite <- in_rev|exact H1]. Qed.
Lemma NoDup_rd {T} (l : list T) i j x : NoDup l -> rd l i = Some x -> rd l j = Some x -> i = j.
Proof.
  intros H. revert i j. induction H as [|y l Hn Hd IH]; intros i j Hi Hj; [apply rd_Some_bound in Hi; unfold zlen in Hi; cbn in Hi; lia|].
  rewrite rd_cons in Hi, Hj. destruct (i =? 0) eqn:E1, (j =? 0) eqn:E2; try lia.
  - injection Hi as <-. apply rd_In in Hj. tauto.
  - injection Hj as <-. apply rd_In in Hi. tauto.
  - assert (i - 1 = j - 1) by eauto. lia.
Qed.

Section Inv.
Variable f : nfsa.
Variable wp : pushing.
Notation A := (all_arcs f).
Notation lb p := (labels (arcs_at f p)).
Notation scp p := (score (arcs_at f p)).
Notation key := (Z * list Z * Z)%type.

Definition hk (k : key) : Z * Z := hash_key (fst (fst k)) (snd (fst k)).
Definition arc_K (K : list key) (a : arc) (D : list Z) : Prop :=
  exists b w N b' w' N', rd K (src a) = Some (b, w, N) /\ rd K (dst a) = Some (b', w', N') /\ arc_ok f b w N b' w' N' (lab a) (sc a) D.
Definition key_ok (k : key) : Prop :=
  let '(b, w, N) := k in 0 <= b < nstates f /\ N_ok f wp b w N /\ exists p s, apath f b p s /\ lb p = w.
Definition d_ok (K : list key) (U : list (list Z)) (d : dstate) : Prop :=
  exists u B w N, rd U (d_id d) = Some u /\ rd K (d_id d) = Some (t_state B, w, N) /\ D_ok f wp d u B w N.

(** [e] is the state being processed, [L] its labels done so far; [K] the keys of the
    states with their potentials, [U] for each state a string that leads to it *)
Record Inv (e : Z) (L : list Z) (st : dsts) (K : list key) (U : list (list Z)) : Prop := {
  i_map : s_map st = imap (fun i k => (hk k, i)) 0 K;
  i_zero : rd K 0 = Some (0, [], 0);
  i_key : forall i k, rd K i = Some k -> key_ok k;
  i_nd : NoDup (map fst K);
  i_len : zlen U = zlen K;
  i_U : NoDup U;
  i_U0 : rd U 0 = Some [];
  i_Up : forall i u, rd U i = Some u -> exists p s, apath f 0 p s /\ lb p = u;
  i_q : NoDup (map d_id (s_queue st));
  i_qd : forall d, In d (s_queue st) -> d_id d <> e /\ d_ok K U d;
  i_dl : zlen (s_derivs st) = zlen (s_arcs st);
  i_arc : forall i a D, rd (s_arcs st) i = Some a -> rd (s_derivs st) i = Some D -> arc_K K a D;
  i_src : forall a, In a (s_arcs st) -> ~ In (src a) (map d_id (s_queue st));
  i_det : NoDup (map (fun a => (src a, lab a)) (s_arcs st));
  i_L : forall a, In a (s_arcs st) -> src a = e -> In (lab a) L;
  i_all : forall i b w N p s l, rd K i = Some (b, w, N) -> ~ In i (map d_id (s_queue st)) -> i <> e ->
    apath f b p s -> lb p = w ++ [l] -> exists a, In a (s_arcs st) /\ src a = i /\ lab a = l;
  i_tree : forall i u, rd U i = Some u -> 0 < i -> exists a u', In a (s_arcs st) /\ dst a = i /\ rd U (src a) = Some u' /\ u = u' ++ [lab a]
}.

Lemma find_key_ok (K : list key) k : forall i0, match find_key k (imap (fun i k => (hk k, i)) i0 K) with
  | Some i => exists x, rd K (i - i0) = Some x /\ hk x = k
  | None => forall x, In x K -> hk x <> k
  end.
Proof.
  induction K as [|x K IH]; intros i0; cbn [imap find_key]; [intros x []|]. destruct ((fst (hk x) =? fst k) && (snd (hk x) =? snd k)) eqn:E.
  - apply andb_true_iff in E as (E1 & E2). exists x. rewrite Z.sub_diag. split; [reflexivity|]. destruct (hk x), k; cbn in *; f_equal; lia.
  - specialize (IH (i0 + 1)). destruct (find_key k (imap (fun i k => (hk k, i)) (i0 + 1) K)) as [i|].
    + destruct IH as (y & H1 & H2). exists y. split; [|exact H2]. rewrite rd_cons. destruct (i - i0 =? 0) eqn:E0; [|rewrite <- H1; f_equal; lia].
      exfalso. apply rd_Some_bound in H1. lia.
    + intros y [<-|Hy]; [|auto]. intros <-. apply andb_false_iff in E as [E|E]; lia.
Qed.

Hypothesis HV : valid f.
Hypothesis HN : no_collision f.
Variables (ordE : elements -> elements) (ordL : list (Z * elements) -> list (Z * elements)).
Hypothesis HE : forall l, Permutation l (ordE l).

Lemma arc_K_mono K x a D : arc_K K a D -> arc_K (K ++ [x]) a D.
Proof. intros (b & w & N & b' & w' & N' & H1 & H2 & H3). exists b, w, N, b', w', N'. split; [now apply rd_snoc_old|]. split; [now apply rd_snoc_old|exact H3]. Qed.
Lemma key_inj k k' : key_ok k -> key_ok k' -> hk k = hk k' -> k = k'.
Proof.
  destruct k as ((b, w), N), k' as ((b', w'), N'). intros (B1 & N1 & p & s & P1 & P2) (B2 & N2 & p' & s' & P1' & P2') E. unfold hk in E. cbn [fst snd] in E.
  subst w w'. destruct (HN b p s b' p' s' B1 B2 P1 P1' E) as (-> & EL). rewrite EL in *. now rewrite (N_fun f wp _ _ _ _ N1 N2).
Qed.

Lemma process_label_ok d L st K U l els0 u B w N :
  Inv (d_id d) L st K U -> ~ In (d_id d) (map d_id (s_queue st)) -> ~ In l L ->
  rd U (d_id d) = Some u -> rd K (d_id d) = Some (t_state B, w, N) -> D_ok f wp d u B w N ->
  els_ok f (u ++ [l]) els0 -> (forall s t, In (s, t) els0 -> exists t0, In (t_state t0, t0) (d_els d) /\ t_prev t = Some t0) ->
  exists st' K' U', process_label ordE wp A d st (l, els0) = Some st' /\ Inv (d_id d) (l :: L) st' (K ++ K') (U ++ U') /\
    ~ In (d_id d) (map d_id (s_queue st')) /\ (forall a, In a (s_arcs st) -> In a (s_arcs st')) /\ (exists a, In a (s_arcs st') /\ src a = d_id d /\ lab a = l) /\
    zlen (s_queue st') = zlen (s_queue st) + zlen K'.
Proof.
  intros I NQ NL HU HK HD HEl HP. destruct (child_ok f HV wp ordE HE d u B w N l els0 HD HEl HP) as (B' & w' & N' & D & nz & C1 & C2 & C3 & C4 & C5 & C6 & C7 & C8 & C9).
  unfold process_label. cbn [fst snd]. cbv zeta. rewrite C1. assert (E : (zlen w' <=? d_len d + 1) = true) by lia. rewrite E, C3, C4, C5. cbn [fst snd].
  set (x := match wp with NoWeight => t_fp B' - t_fp B | MaxWeight => nz - d_nz d end) in *.
  assert (KN : key_ok (t_state B', w', N')) by (split; [exact C8|]; split; [apply (C7 0)|exact C9]).
  pose proof (find_key_ok K (hash_key (t_state B') w') 0) as FK. rewrite <- (i_map _ _ _ _ _ I) in FK.
  assert (ZB : 0 <= d_id d < zlen K) by (apply rd_Some_bound in HK; exact HK).
  assert (DET : forall y, ~ In (d_id d, l) (map (fun a => (src a, lab a)) (s_arcs st)) -> NoDup (map (fun a => (src a, lab a)) (s_arcs st ++ [mkArc (d_id d) y l x]))).
  { intros y H. rewrite map_app. apply NoDup_snoc; [exact (i_det _ _ _ _ _ I)|exact H]. }
  assert (NEW : ~ In (d_id d, l) (map (fun a => (src a, lab a)) (s_arcs st))).
  { intros X. apply in_map_iff in X as (a & X1 & X2). injection X1 as X3 X4. apply NL. rewrite <- X4. exact (i_L _ _ _ _ _ I a X2 X3). }
  destruct (find_key (hash_key (t_state B') w') (s_map st)) as [id|].
  - destruct FK as (k & F1 & F2). rewrite Z.sub_0_r in F1. assert (k = (t_state B', w', N')) by (apply key_inj; [exact (i_key _ _ _ _ _ I _ _ F1)|exact KN|exact F2]). subst k.
    eexists _, [], []. split; [reflexivity|]. rewrite !app_nil_r. split; [|split; [exact NQ|split; [intros a Ha; apply in_or_app; now left|split; [eexists; split; [apply in_or_app; right; now left|auto]|cbn [s_queue]; change (zlen (@nil key)) with 0; lia]]]].
    constructor; cbn [s_map s_queue s_arcs s_derivs]; try apply I.
    + rewrite !zlen_app, (i_dl _ _ _ _ _ I). reflexivity.
    + intros i a D' Ha Hd. apply rd_snoc_inv in Ha as [Ha|(Ha & ->)]; apply rd_snoc_inv in Hd as [Hd|(Hd & ->)].
      * exact (i_arc _ _ _ _ _ I _ _ _ Ha Hd).
      * apply rd_Some_bound in Ha. pose proof (i_dl _ _ _ _ _ I). lia.
      * apply rd_Some_bound in Hd. pose proof (i_dl _ _ _ _ _ I). lia.
      * exists (t_state B), w, N, (t_state B'), w', N'. cbn [src dst lab sc]. auto.
    + intros a Ha. apply in_app_or in Ha as [Ha|[<-|[]]]; [exact (i_src _ _ _ _ _ I a Ha)|exact NQ].
    + apply DET, NEW.
    + intros a Ha Hs. apply in_app_or in Ha as [Ha|[<-|[]]]; [right; exact (i_L _ _ _ _ _ I a Ha Hs)|now left].
    + intros i b w1 N1 p s l1 H1 H2 H3 H4 H5. destruct (i_all _ _ _ _ _ I i b w1 N1 p s l1 H1 H2 H3 H4 H5) as (a & Ha). exists a. split; [apply in_or_app; left|]; apply Ha.
    + intros i u1 H1 H2. destruct (i_tree _ _ _ _ _ I i u1 H1 H2) as (a & u' & Ha & Hr). exists a, u'. split; [apply in_or_app; now left|exact Hr].
  - set (id := zlen (s_map st)). assert (EI : id = zlen K) by (unfold id; rewrite (i_map _ _ _ _ _ I); apply zlen_imap).
    assert (QB : forall d', In d' (s_queue st) -> 0 <= d_id d' < zlen K).
    { intros d' Hd. destruct (i_qd _ _ _ _ _ I d' Hd) as (_ & u1 & B1 & w1 & N1 & _ & X & _). apply rd_Some_bound in X. exact X. }
    assert (IDQ : ~ In id (map d_id (s_queue st))) by (intros X; apply in_map_iff in X as (d' & X1 & X2); pose proof (QB d' X2); lia).
    assert (SB : forall a, In a (s_arcs st) -> 0 <= src a < zlen K /\ 0 <= dst a < zlen K).
    { intros a Ha. apply In_rd in Ha as (i & Hi & Ha). destruct (rd_in_bound (s_derivs st) i) as (D' & HD'); [rewrite (i_dl _ _ _ _ _ I); exact Hi|].
      destruct (i_arc _ _ _ _ _ I _ _ _ Ha HD') as (b1 & w1 & N1 & b2 & w2 & N2 & X1 & X2 & _). apply rd_Some_bound in X1. apply rd_Some_bound in X2. auto. }
    eexists _, [(t_state B', w', N')], [u ++ [l]]. split; [reflexivity|].
    split; [|cbn [s_queue s_arcs]; split; [rewrite map_app, in_app_iff; cbn; intros [X|[X|[]]]; [tauto|lia]|split; [intros a Ha; apply in_or_app; now left|split; [eexists; split; [apply in_or_app; right; now left|auto]|rewrite zlen_app; reflexivity]]]].
    constructor; cbn [s_map s_queue s_arcs s_derivs].
    + rewrite imap_app, <- (i_map _ _ _ _ _ I), EI. reflexivity.
    + apply rd_snoc_old, I.
    + intros i k Hi. apply rd_snoc_inv in Hi as [Hi|(_ & ->)]; [exact (i_key _ _ _ _ _ I _ _ Hi)|exact KN].
    + rewrite map_app. apply NoDup_snoc; [apply I|]. intros X. apply in_map_iff in X as (((b1, w1), N1) & X1 & X2). cbn in X1. injection X1 as -> ->. apply (FK _ X2). reflexivity.
    + rewrite !zlen_app, (i_len _ _ _ _ _ I). reflexivity.
    + apply NoDup_snoc; [apply I|]. intros X. apply In_rd in X as (i & Hi & X). destruct (Z.eq_dec i 0) as [->|N0].
      * rewrite (i_U0 _ _ _ _ _ I) in X. injection X as X. destruct u; discriminate.
      * destruct (i_tree _ _ _ _ _ I i _ X) as (a & u' & T1 & T2 & T3 & T4); [lia|]. apply app_inj_tail in T4 as (<- & T4). apply NEW. apply in_map_iff. exists a. split; [|exact T1]. f_equal; [|auto].
        exact (NoDup_rd _ _ _ _ (i_U _ _ _ _ _ I) T3 HU).
    + apply rd_snoc_old, I.
    + intros i u1 Hi. apply rd_snoc_inv in Hi as [Hi|(_ & ->)]; [exact (i_Up _ _ _ _ _ I _ _ Hi)|]. destruct HEl as (_ & Y2 & Y3 & _). destruct els0 as [|(s, t) els1]; [congruence|]. destruct (Y3 s t (or_introl eq_refl)) as (Y4 & Y5).
      destruct (tbk_path f _ _ Y5) as (Y6 & Y7 & _). eauto.
    + rewrite map_app. apply NoDup_snoc; [apply I|exact IDQ].
    + intros d' Hd. apply in_app_or in Hd as [Hd|[<-|[]]].
      * destruct (i_qd _ _ _ _ _ I d' Hd) as (X0 & u1 & B1 & w1 & N1 & X1 & X2 & X3). split; [exact X0|]. exists u1, B1, w1, N1. split; [now apply rd_snoc_old|]. split; [now apply rd_snoc_old|exact X3].
      * cbn [d_id]. split; [lia|]. exists (u ++ [l]), B', w', N'. cbn [d_id]. rewrite EI. split; [rewrite <- (i_len _ _ _ _ _ I); apply rd_snoc_new|]. split; [apply rd_snoc_new|]. rewrite <- EI. apply C7.
    + rewrite !zlen_app, (i_dl _ _ _ _ _ I). reflexivity.
    + intros i a D' Ha Hd. apply rd_snoc_inv in Ha as [Ha|(Ha & ->)]; apply rd_snoc_inv in Hd as [Hd|(Hd & ->)].
      * apply arc_K_mono. exact (i_arc _ _ _ _ _ I _ _ _ Ha Hd).
      * apply rd_Some_bound in Ha. pose proof (i_dl _ _ _ _ _ I). lia.
      * apply rd_Some_bound in Hd. pose proof (i_dl _ _ _ _ _ I). lia.
      * exists (t_state B), w, N, (t_state B'), w', N'. cbn [src dst lab sc]. split; [now apply rd_snoc_old|]. split; [rewrite EI; apply rd_snoc_new|exact C6].
    + intros a Ha X. rewrite map_app, in_app_iff in X. destruct X as [X|[X|[]]]; apply in_app_or in Ha as [Ha|[<-|[]]]; cbn [d_id src] in *; try tauto.
      * exact (i_src _ _ _ _ _ I a Ha X).
      * pose proof (SB a Ha). lia.
      * lia.
    + apply DET, NEW.
    + intros a Ha Hs. apply in_app_or in Ha as [Ha|[<-|[]]]; [right; exact (i_L _ _ _ _ _ I a Ha Hs)|now left].
    + intros i b w1 N1 p s l1 H1 H2 H3 H4 H5. rewrite map_app, in_app_iff in H2. apply rd_snoc_inv in H1 as [H1|(H1 & _)]; [|exfalso; apply H2; right; left; cbn [d_id]; lia].
      destruct (i_all _ _ _ _ _ I i b w1 N1 p s l1 H1) as (a & Ha); try tauto. exists a. split; [apply in_or_app; left|]; apply Ha.
    + intros i u1 H1 H2. apply rd_snoc_inv in H1 as [H1|(H1 & ->)].
      * destruct (i_tree _ _ _ _ _ I i u1 H1 H2) as (a & u' & T1 & T2 & T3 & T4). exists a, u'. split; [apply in_or_app; now left|]. split; [exact T2|]. split; [now apply rd_snoc_old|exact T4].
      * exists (mkArc (d_id d) id l x), u. split; [apply in_or_app; right; now left|]. cbn [dst src lab]. split; [rewrite EI, H1; symmetry; apply (i_len _ _ _ _ _ I)|]. split; [now apply rd_snoc_old|reflexivity].
Qed.

Lemma labels_ok d u B w N : forall m L st K U,
  Inv (d_id d) L st K U -> ~ In (d_id d) (map d_id (s_queue st)) -> NoDup (map fst m) -> (forall l, In l L -> ~ In l (map fst m)) ->
  rd U (d_id d) = Some u -> rd K (d_id d) = Some (t_state B, w, N) -> D_ok f wp d u B w N ->
  (forall l els', In (l, els') m -> els_ok f (u ++ [l]) els' /\ forall s t, In (s, t) els' -> exists t0, In (t_state t0, t0) (d_els d) /\ t_prev t = Some t0) ->
  exists st' K' U' L', foldM (process_label ordE wp A d) m st = Some st' /\ Inv (d_id d) L' st' (K ++ K') (U ++ U') /\
    ~ In (d_id d) (map d_id (s_queue st')) /\ (forall a, In a (s_arcs st) -> In a (s_arcs st')) /\ (forall l els', In (l, els') m -> exists a, In a (s_arcs st') /\ src a = d_id d /\ lab a = l) /\
    zlen (s_queue st') = zlen (s_queue st) + zlen K'.
Proof.
  induction m as [|(l, els0) m IH]; intros L st K U I NQ ND HLm HU HK HD HM.
  - exists st, [], [], L. rewrite !app_nil_r. cbn. split; [reflexivity|]. split; [exact I|]. split; [exact NQ|]. split; [auto|]. split; [intros l els' []|change (zlen (@nil key)) with 0; lia].
  - cbn [map fst] in ND, HLm. inversion ND as [|? ? X1 X2]; subst.
    assert (NL : ~ In l L) by (intros X; apply (HLm l X); now left).
    destruct (HM l els0 (or_introl eq_refl)) as (M1 & M2).
    destruct (process_label_ok d L st K U l els0 u B w N I NQ NL HU HK HD M1 M2) as (st1 & K1 & U1 & P1 & P2 & P3 & P4 & (a1 & P5) & P6).
    assert (OLD : forall {T} (l l' : list T) i y, rd l i = Some y -> rd (l ++ l') i = Some y) by (intros T l1 l2 i y H; rewrite rd_app_l; [exact H|apply rd_Some_bound in H; lia]).
    destruct (IH (l :: L) st1 (K ++ K1) (U ++ U1) P2 P3 X2) as (st' & K' & U' & L' & Q1 & Q2 & Q3 & Q4 & Q5 & Q6).
    { intros l' [<-|Hl] X; [tauto|]. apply (HLm l' Hl). now right. } { now apply OLD. } { now apply OLD. } { exact HD. } { intros l' els' H. apply HM. now right. }
    exists st', (K1 ++ K'), (U1 ++ U'), L'. cbn [foldM]. rewrite P1, !app_assoc. split; [exact Q1|]. split; [exact Q2|]. split; [exact Q3|]. split; [auto|]. split; [|rewrite zlen_app; lia].
    intros l' els' [X|X]; [injection X as <- <-; exists a1; split; [apply Q4, P5|apply P5]|eauto].
Qed.

Hypothesis HL : forall l, Permutation l (ordL l).
Hypothesis HC : coaccessible f.

Notation Done := (Inv (-1) []).

Lemma process_ok d st K U rest : Done st K U -> Permutation (s_queue st) (d :: rest) ->
  exists st' K' U', process ordE ordL wp (splits_of f) A d (mkS (s_map st) rest (s_arcs st) (s_derivs st)) = Some st' /\ Done st' (K ++ K') (U ++ U') /\
    zlen (s_queue st') = zlen rest + zlen K'.
Proof.
  intros I PM. assert (Hd : In d (s_queue st)) by (eapply Permutation_in; [apply Permutation_sym, PM|now left]).
  pose proof (i_q _ _ _ _ _ I) as QN. pose proof (Permutation_map d_id PM) as PM'. apply (Permutation_NoDup PM') in QN. cbn [map] in QN. inversion QN as [|? ? Q1 Q2]; subst.
  destruct (i_qd _ _ _ _ _ I d Hd) as (_ & u & B & w & N & HU & HK & HD).
  assert (SRC : forall a, In a (s_arcs st) -> src a <> d_id d) by (intros a Ha X; apply (i_src _ _ _ _ _ I a Ha); rewrite X; now apply in_map).
  assert (SUB : forall i, In i (map d_id rest) -> In i (map d_id (s_queue st))) by (intros i Hi; eapply Permutation_in; [apply Permutation_sym, PM'|now right]).
  set (st0 := mkS (s_map st) rest (s_arcs st) (s_derivs st)).
  assert (I0 : Inv (d_id d) [] st0 K U).
  { constructor; unfold st0; cbn [s_map s_queue s_arcs s_derivs]; try apply I.
    - exact Q2.
    - intros d' Hd'. split; [intros X; apply Q1; rewrite <- X; now apply in_map|]. apply (i_qd _ _ _ _ _ I). eapply Permutation_in; [apply Permutation_sym, PM|now right].
    - intros a Ha X. exact (i_src _ _ _ _ _ I a Ha (SUB _ X)).
    - intros a Ha X. exfalso. exact (SRC a Ha X).
    - intros i b w1 N1 p s l H1 H2 H3 H4 H5. apply (i_all _ _ _ _ _ I i b w1 N1 p s l H1); auto; [|apply rd_Some_bound in H1; lia].
      intros X. apply (Permutation_in _ PM') in X as [X|X]; [congruence|tauto]. }
  destruct (successors_ok f HV HC u (d_els d) (proj1 HD)) as (m & S1 & S2 & S3 & S4).
  destruct (labels_ok d u B w N (ordL m) [] st0 K U I0) as (st' & K' & U' & L' & R1 & R2 & R3 & R4 & R5 & R6).
  { exact Q1. } { eapply Permutation_NoDup; [apply Permutation_map, HL|exact S2]. } { intros l []. } { exact HU. } { exact HK. } { exact HD. }
  { intros l els' H. apply S3. eapply Permutation_in; [apply Permutation_sym, HL|exact H]. }
  exists st', K', U'. unfold process. rewrite S1. fold st0. split; [exact R1|]. split; [|exact R6].
  assert (SB : forall a, In a (s_arcs st') -> 0 <= src a).
  { intros a Ha. apply In_rd in Ha as (i & Hi & Ha). destruct (rd_in_bound (s_derivs st') i) as (D' & HD'); [rewrite (i_dl _ _ _ _ _ R2); exact Hi|].
    destruct (i_arc _ _ _ _ _ R2 _ _ _ Ha HD') as (b1 & w1 & N1 & b2 & w2 & N2 & X1 & _). apply rd_Some_bound in X1. lia. }
  constructor; try apply R2.
  - intros d' Hd'. destruct (i_qd _ _ _ _ _ R2 d' Hd') as (_ & u1 & B1 & w1 & N1 & X1 & X2 & X3). split; [apply rd_Some_bound in X1; lia|]. exists u1, B1, w1, N1. auto.
  - intros a Ha X. pose proof (SB a Ha). lia.
  - intros i b w1 N1 p s l H1 H2 H3 H4 H5. destruct (Z.eq_dec i (d_id d)) as [->|NE]; [|exact (i_all _ _ _ _ _ R2 i b w1 N1 p s l H1 H2 NE H4 H5)].
    rewrite rd_app_l in H1 by (apply rd_Some_bound in HK; lia). rewrite HK in H1. injection H1 as <- <- <-.
    destruct HD as (_ & _ & _ & (u0 & X1 & X2) & _). destruct (tbk_path f _ _ X2) as (Y1 & Y2 & _).
    destruct (S4 (tpath B ++ p) s l) as (els' & HM); [apply apath_app; eauto|rewrite lb_app, Y2, H5, X1, app_assoc; reflexivity|].
    apply (R5 l els'). eapply Permutation_in; [apply HL|exact HM].
Qed.

Variable pick : nat -> list dstate -> nat.
Lemma pick_perm {T} (q : list T) q0 i : (i < length q)%nat -> Permutation q (nth i q q0 :: firstn i q ++ skipn (S i) q).
Proof.
  intros H. rewrite <- (firstn_skipn i q) at 1. replace (skipn i q) with (nth i q q0 :: skipn (S i) q); [apply Permutation_sym, Permutation_middle|].
  revert i H. induction q as [|x q IH]; intros [|i] H; cbn in *; try lia; [reflexivity|]. apply IH. lia.
Qed.

Lemma run_step st K U q0 q' k : Done st K U -> s_queue st = q0 :: q' ->
  let i := Nat.modulo k (length (s_queue st)) in
  exists st' K' U', process ordE ordL wp (splits_of f) A (nth i (s_queue st) q0) (mkS (s_map st) (firstn i (s_queue st) ++ skipn (S i) (s_queue st)) (s_arcs st) (s_derivs st)) = Some st' /\
    Done st' (K ++ K') (U ++ U') /\ zlen (s_queue st') = zlen (s_queue st) - 1 + zlen K'.
Proof.
  intros I Q i. assert (PM := pick_perm (s_queue st) q0 i). destruct (process_ok (nth i (s_queue st) q0) st K U (firstn i (s_queue st) ++ skipn (S i) (s_queue st)) I) as (st' & K' & U' & H1 & H2 & H3).
  { apply PM. apply Nat.mod_upper_bound. rewrite Q. discriminate. }
  exists st', K', U'. split; [exact H1|]. split; [exact H2|]. rewrite H3. assert (X : length (s_queue st) = S (length (firstn i (s_queue st) ++ skipn (S i) (s_queue st)))).
  { rewrite (Permutation_length (PM ltac:(apply Nat.mod_upper_bound; rewrite Q; discriminate))) at 1. reflexivity. }
  unfold zlen in *. lia.
Qed.

Lemma run_ok fuel : forall st K U st', Done st K U -> run ordE ordL pick wp (splits_of f) A fuel st = Some st' ->
  exists K' U', Done st' (K ++ K') (U ++ U') /\ s_queue st' = [].
Proof.
  induction fuel as [|fuel IH]; intros st K U st' I; cbn [run]; destruct (s_queue st) as [|q0 q'] eqn:Q; try discriminate.
  1-2: intros H; injection H as <-; exists [], []; rewrite !app_nil_r; auto.
  rewrite <- Q. cbv zeta. destruct (run_step st K U q0 q' (pick fuel (s_queue st)) I Q) as (st1 & K1 & U1 & H1 & H2 & _). rewrite H1.
  intros H. destruct (IH _ _ _ _ H2 H) as (K' & U' & X). exists (K1 ++ K'), (U1 ++ U'). rewrite !app_assoc. exact X.
Qed.
Lemma run_total M : (forall st K U, Done st K U -> zlen K <= M) -> forall fuel st K U, Done st K U -> M - (zlen K - zlen (s_queue st)) <= Z.of_nat fuel ->
  exists st', run ordE ordL pick wp (splits_of f) A fuel st = Some st'.
Proof.
  intros HM. induction fuel as [|fuel IH]; intros st K U I F; cbn [run]; destruct (s_queue st) as [|q0 q'] eqn:Q; eauto.
  - pose proof (HM _ _ _ I). rewrite zlen_cons in F. pose proof (zlen_nonneg q'). lia.
  - rewrite <- Q in *. cbv zeta. destruct (run_step st K U q0 q' (pick fuel (s_queue st)) I Q) as (st1 & K1 & U1 & H1 & H2 & H3). rewrite H1. apply (IH st1 _ _ H2). rewrite zlen_app. lia.
Qed.

Lemma start_ok : Done start [(0, [], 0)] [[]].
Proof.
  assert (S0 : 0 <= 0 < nstates f) by exact (state0 f HV).
  assert (EM : forall p s, apath f 0 p s -> lb p = [] -> s = 0 /\ p = []) by (intros p s P1 P2; destruct (lb_nil f _ _ _ P1 P2); auto).
  assert (PN : apath f 0 [] 0) by (constructor; exact S0).
  constructor; unfold start; cbn [s_map s_queue s_arcs s_derivs]; try reflexivity.
  - intros i k Hi. apply rd_In in Hi as [<-|[]]. split; [exact S0|]. split; [|exists [], 0; split; [exact PN|reflexivity]].
    unfold N_ok. destruct wp; [reflexivity|]. split; [exists [], 0; split; [exact PN|split; reflexivity]|]. intros p s P1 P2. destruct (EM p s P1 P2) as (_ & ->). cbn. lia.
  - cbn. constructor; [intros []|constructor].
  - constructor; [intros []|constructor].
  - intros i u Hi. apply rd_In in Hi as [<-|[]]. exists [], 0. split; [exact PN|reflexivity].
  - cbn. constructor; [intros []|constructor].
  - intros d [<-|[]]. cbn [d_id]. split; [lia|]. exists [], Tb0, [], 0. split; [reflexivity|]. split; [reflexivity|]. split; [|split; [|split; [reflexivity|split; [exists []; split; [reflexivity|constructor]|split]]]].
    + split; [cbn; constructor; [intros []|constructor]|]. split; [discriminate|]. split; [intros s t [E|[]]; injection E as <- <-; split; [reflexivity|constructor]|].
      intros p s P1 P2. destruct (EM p s P1 P2) as (-> & ->). exists Tb0. split; [now left|cbn; lia].
    + intros s t [E|[]]. injection E as <- <-. reflexivity.
    + unfold N_ok. destruct wp; [reflexivity|]. split; [exists [], 0; split; [exact PN|split; reflexivity]|]. intros p s P1 P2. destruct (EM p s P1 P2) as (_ & ->). cbn. lia.
    + destruct wp; auto.
  - intros i a D H. apply rd_Some_bound in H. unfold zlen in H. cbn in H. lia.
  - intros a [].
  - constructor.
  - intros a [].
  - intros i b w N p s l Hi Hq _ _ _. exfalso. apply Hq. apply rd_Some_bound in Hi. unfold zlen in Hi. cbn in *. left. lia.
  - intros i u Hi H0. apply rd_Some_bound in Hi. unfold zlen in Hi. cbn in Hi. lia.
Qed.
End Inv.
