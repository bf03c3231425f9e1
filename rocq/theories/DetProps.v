(** * C28: determinization *)
From Coq Require Import ZArith List Lia Bool Permutation.
From Verif Require Import Base RaggedModel RaggedSpec RaggedProofs FsaSpec FsaLemmas OpsModel ScoreSpec ScorePaths ShortestSpec IntersectPaths DetModel DetSpec DetProofs DetRun DetInv DetCreate DetLang DetOut.
Import ListNotations.
Open Scope Z_scope.

(** Whatever determinize returns, for any valid connected FSA, cycles or not: the
    result is valid, deterministic and equivalent.  Without weight pushing the score of
    each arc is the score of the arcs it stands for.  [ordE] and [ordL] are the
    iteration orders of the hash maps, [pick] the choice of the priority queue. *)
Theorem C28_determinize_result f wp ordE ordL pick fuel rs' arcs' der :
  valid f -> coaccessible f -> no_collision f ->
  (forall l, Permutation l (ordE l)) -> (forall l, Permutation l (ordL l)) ->
  determinize ordE ordL pick wp fuel (splits_of f) (all_arcs f) = Some (rs', arcs', der) ->
  exists g, rs' = splits_of g /\ arcs' = all_arcs g /\ valid g /\ deterministic g /\ is_determinized f g der /\
    (wp = NoWeight -> forall k a D, rd (all_arcs g) k = Some a -> rd der k = Some D -> sc a = score (arcs_at f D)).
Proof.
  intros HV HC HN HE HL. unfold determinize. rewrite zlen_splits_of. destruct (zlen f + 1 - 1 =? 0) eqn:E0; [exfalso; destruct HV as (_ & V & _); unfold nstates in V; lia|].
  destruct (run ordE ordL pick wp (splits_of f) (all_arcs f) fuel start) as [st|] eqn:ER; [|discriminate].
  destruct (run_ok f wp HV HN ordE ordL HE HL HC pick fuel _ _ _ st (start_ok f wp HV) ER) as (K' & U' & I & Q).
  destruct (out_ok f HV wp st _ _ I Q HC) as (g & der' & H1 & H2). intros X. pose proof (eq_trans (eq_sym X) H1) as Y. injection Y as -> -> ->. exists g. auto.
Qed.

(** For an acyclic FSA determinize terminates, so it is total there. *)
Theorem C28_determinize f wp ordE ordL pick :
  valid f -> coaccessible f -> acyclic f -> no_collision f ->
  (forall l, Permutation l (ordE l)) -> (forall l, Permutation l (ordL l)) ->
  exists fuel0, forall fuel, (fuel0 <= fuel)%nat ->
  exists g der, determinize ordE ordL pick wp fuel (splits_of f) (all_arcs f) = Some (splits_of g, all_arcs g, der) /\
    valid g /\ deterministic g /\ is_determinized f g der.
Proof.
  intros HV HC HA HN HE HL. exists (length (words f (length f))). intros fuel HF.
  destruct (run_total f wp HV HN ordE ordL HE HL HC pick _ (bound_ok f HV HA wp) fuel _ _ _ (start_ok f wp HV)) as (st & ER).
  { change (zlen [(0, @nil Z, 0)]) with 1. change (zlen (s_queue start)) with 1. unfold zlen. lia. }
  unfold determinize. rewrite zlen_splits_of. destruct (zlen f + 1 - 1 =? 0) eqn:E0; [exfalso; destruct HV as (_ & V & _); unfold nstates in V; lia|]. rewrite ER.
  destruct (run_ok f wp HV HN ordE ordL HE HL HC pick fuel _ _ _ st (start_ok f wp HV) ER) as (K' & U' & I & Q).
  destruct (out_ok f HV wp st _ _ I Q HC) as (g & der' & H1 & H2 & H3 & H4 & _). exists g, der'. auto.
Qed.

(** ** Deciding the hypotheses *)
Fixpoint pathb (f : nfsa) (s : Z) (p : list Z) (t : Z) : bool :=
  match p with
  | [] => s =? t
  | j :: p' => match rd (all_arcs f) j with Some a => (src a =? s) && pathb f (dst a) p' t | None => false end
  end.
Lemma pathb_ok f p : forall s t, pathb f s p t = true -> apath f s p t.
Proof.
  induction p as [|j p IH]; intros s t H; cbn in H; [apply Z.eqb_eq in H; subst; constructor|]. destruct (rd (all_arcs f) j) as [a|] eqn:E; [|discriminate].
  apply andb_true_iff in H as (H1 & H2). apply Z.eqb_eq in H1. subst s. apply (ap_cons f j a p t E). auto.
Qed.
Fixpoint greedy (f : nfsa) (m : nat) (s : Z) : list Z :=
  match m with
  | O => []
  | S m' => match find (fun j => match rd (all_arcs f) j with Some a => src a =? s | None => false end) (zrange (zlen (all_arcs f))) with
            | Some j => match rd (all_arcs f) j with Some a => j :: greedy f m' (dst a) | None => [] end
            | None => []
            end
  end.
Lemma coaccessible_b f : forallb (fun s => pathb f s (greedy f (length f) s) (final f)) (zrange (nstates f)) = true -> coaccessible f.
Proof. intros H s Hs. eexists. apply pathb_ok. eapply forallb_forall in H; [exact H|]. now apply in_zrange. Qed.
Lemma acyclic_b f : forallb (fun a => src a <? dst a) (all_arcs f) = true -> acyclic f.
Proof.
  intros H. assert (G : forall s p t, apath f s p t -> s <= t /\ (p <> [] -> s < t)).
  { induction 1 as [s|j a p t Ha Hp IH]; [split; [lia|congruence]|]. eapply forallb_forall in H; [|exact (rd_In _ _ _ Ha)]. lia. }
  intros s p Hp. destruct p; [reflexivity|]. destruct (G _ _ _ Hp) as (_ & X). specialize (X ltac:(discriminate)). lia.
Qed.
Fixpoint pwords (f : nfsa) (m : nat) (s : Z) : list (list Z) :=
  match m with
  | O => [[]]
  | S m' => [] :: flat_map (fun a => if src a =? s then map (cons (lab a)) (pwords f m' (dst a)) else []) (all_arcs f)
  end.
Lemma pwords_ok f m : forall s p t, apath f s p t -> (length p <= m)%nat -> In (labels (arcs_at f p)) (pwords f m s).
Proof.
  induction m as [|m IH]; intros s p t H L; [destruct p; [now left|cbn in L; lia]|]. destruct H as [s|j a p t Ha Hp]; [now left|]. cbn [pwords]. right. rewrite (arcs_at_cons f j p a Ha). cbn [labels map].
  apply in_flat_map. exists a. split; [exact (rd_In _ _ _ Ha)|]. rewrite Z.eqb_refl. apply in_map. apply (IH _ _ _ Hp). cbn in L. lia.
Qed.
Lemma no_collision_b f : valid f -> acyclic f ->
  (let l := flat_map (fun s => map (fun w => (s, w)) (pwords f (length f) s)) (zrange (nstates f)) in
   forallb (fun x => forallb (fun y =>
      if (fst (hash_key (fst x) (snd x)) =? fst (hash_key (fst y) (snd y))) && (snd (hash_key (fst x) (snd x)) =? snd (hash_key (fst y) (snd y)))
      then (fst x =? fst y) && (if list_eq_dec Z.eq_dec (snd x) (snd y) then true else false) else true) l) l) = true -> no_collision f.
Proof.
  intros HV HA H s p t s' p' t' B B' P P' E. cbv zeta in H. set (l := flat_map _ _) in H.
  assert (IN : forall s p t, 0 <= s < nstates f -> apath f s p t -> In (s, labels (arcs_at f p)) l).
  { intros s1 p1 t1 B1 P1. unfold l. apply in_flat_map. exists s1. split; [now apply in_zrange|]. apply in_map. apply (pwords_ok _ _ _ _ _ P1). exact (path_len f HV HA _ _ _ P1). }
  eapply forallb_forall in H; [|exact (IN _ _ _ B P)]. eapply forallb_forall in H; [|exact (IN _ _ _ B' P')]. cbn [fst snd] in H. rewrite E, !Z.eqb_refl in H. cbn [andb] in H.
  apply andb_true_iff in H as (H1 & H2). split; [lia|]. now destruct (list_eq_dec _ _ _).
Qed.

(** A nondeterministic FSA: two paths with the string 1 2 and different scores, and
    two paths that part after the first symbol *)
Definition ex_f : nfsa := [[mkArc 0 1 1 5; mkArc 0 2 1 3]; [mkArc 1 3 2 1; mkArc 1 3 4 0]; [mkArc 2 3 2 4; mkArc 2 3 3 2]; [mkArc 3 4 (-1) 0]; []].
Example C28_hyps_ex : valid ex_f /\ coaccessible ex_f /\ acyclic ex_f /\ no_collision ex_f.
Proof.
  assert (V : valid ex_f) by (apply validb_ok; reflexivity). assert (AC : acyclic ex_f) by (apply acyclic_b; reflexivity).
  split; [exact V|]. split; [apply coaccessible_b; reflexivity|]. split; [exact AC|]. apply no_collision_b; [exact V|exact AC|vm_compute; reflexivity].
Qed.
Example C28_determinize_ex :
  determinize (@rev _) (fun l => l) (fun _ _ => 1%nat) MaxWeight 9 (splits_of ex_f) (all_arcs ex_f) =
  Some ([0; 1; 4; 5; 5], [mkArc 0 1 1 5; mkArc 1 2 2 2; mkArc 1 2 3 0; mkArc 1 2 4 0; mkArc 2 3 (-1) 0], [[]; [1; 4]; [1; 5]; [0; 3]; [6]]) /\
  determinize (fun l => l) (fun l => l) (fun _ _ => O) NoWeight 9 (splits_of ex_f) (all_arcs ex_f) =
  Some ([0; 1; 4; 5; 5], [mkArc 0 1 1 0; mkArc 1 2 2 7; mkArc 1 2 4 5; mkArc 1 2 3 5; mkArc 2 3 (-1) 0], [[]; [1; 4]; [0; 3]; [1; 5]; [6]]).
Proof. split; vm_compute; reflexivity. Qed.

(** ** What fails *)
(** states reached along a string *)
Fixpoint reach (f : nfsa) (S : list Z) (w : list Z) : list Z :=
  match w with
  | [] => S
  | l :: w' => reach f (flat_map (fun s => map dst (filter (fun a => (src a =? s) && (lab a =? l)) (all_arcs f))) S) w'
  end.
Lemma reach_ok f s p t : apath f s p t -> forall S, In s S -> In t (reach f S (labels (arcs_at f p))).
Proof.
  induction 1 as [s|j a p t Ha Hp IH]; intros S HS; [exact HS|]. rewrite (arcs_at_cons f j p a Ha). cbn [labels map reach]. apply IH. apply in_flat_map. exists (src a). split; [exact HS|].
  apply in_map. apply filter_In. split; [exact (rd_In _ _ _ Ha)|]. now rewrite !Z.eqb_refl.
Qed.
Lemma reach_no f w : forallb (fun t => negb (t =? nstates f - 1)) (reach f [0] w) = true -> forall p, successful f p -> labels (arcs_at f p) <> w.
Proof. intros H p (_ & Hp) <-. eapply forallb_forall in H; [|apply (reach_ok _ _ _ _ Hp); now left]. rewrite Z.eqb_refl in H. discriminate. Qed.

(** two strings of twelve symbols below 600 with the same key *)
Definition w1 := [1; 512; 249; 1; 1; 1; 1; 1; 509; 1; 581; 407].
Definition w2 := [475; 1; 1; 596; 570; 194; 174; 175; 1; 28; 1; 1].
Definition chain (base : Z) (w : list Z) (l : Z) : list (list arc) :=
  imap (fun i x => [mkArc (base + i) (if i =? 11 then 49 else base + i + 1) x 0]) 0 (tl w ++ [l]).
Definition bad_f : nfsa :=
  [mkArc 0 1 1 0; mkArc 0 13 1 0; mkArc 0 25 475 0; mkArc 0 37 475 0] :: chain 1 w1 1 ++ chain 13 w1 2 ++ chain 25 w2 3 ++ chain 37 w2 4 ++ [[mkArc 49 50 (-1) 0]; []].
(** A collision of the 128-bit keys merges two states: the string [w2 ++ [3]] is lost,
    the string [w2 ++ [1]] is added. *)
Theorem C28_collision_refuted : hash_key 0 w1 = hash_key 0 w2 /\
  valid bad_f /\ coaccessible bad_f /\ acyclic bad_f /\ (forall a, In a (all_arcs bad_f) -> lab a < 600) /\
  exists g der, determinize (fun l => l) (fun l => l) (fun _ _ => O) NoWeight 100 (splits_of bad_f) (all_arcs bad_f) = Some (splits_of g, all_arcs g, der) /\
    (exists p, successful bad_f p /\ forall q, successful g q -> labels (arcs_at g q) <> labels (arcs_at bad_f p)) /\
    (exists q, successful g q /\ forall p, successful bad_f p -> labels (arcs_at bad_f p) <> labels (arcs_at g q)).
Proof.
  split; [vm_compute; reflexivity|]. split; [apply validb_ok; vm_compute; reflexivity|]. split; [apply coaccessible_b; vm_compute; reflexivity|]. split; [apply acyclic_b; vm_compute; reflexivity|].
  split. { intros a Ha. assert (H : forallb (fun a => lab a <? 600) (all_arcs bad_f) = true) by (vm_compute; reflexivity). eapply forallb_forall in H; [|exact Ha]. lia. }
  pose (out := match determinize (fun l => l) (fun l => l) (fun _ _ => O) NoWeight 100 (splits_of bad_f) (all_arcs bad_f) with Some r => r | None => ([], [], []) end).
  pose (g := map (fun i => filter (fun a => src a =? i) (snd (fst out))) (zrange 26)). exists g, (snd out). split; [vm_compute; reflexivity|]. split.
  - exists ([2; 28; 29; 30; 31; 32; 33; 34; 35; 36; 37; 38; 39; 52]). split; [split; [vm_compute; reflexivity|apply pathb_ok; vm_compute; reflexivity]|]. apply reach_no. vm_compute. reflexivity.
  - exists [1; 3; 5; 7; 9; 11; 13; 15; 17; 19; 21; 23; 24; 26]. split; [split; [vm_compute; reflexivity|apply pathb_ok; vm_compute; reflexivity]|]. apply reach_no. vm_compute. reflexivity.
Qed.

(** For an FsaVec the arc map is meant to hold indexes into the arcs of the whole
    FsaVec (fsa_algo.cu:330).  It does not: the entries of the second FSA are not
    shifted by the number of arcs of the first one, so its arcs are mapped to arcs of
    the first FSA, with other labels. *)
Definition ex_g : nfsa := [[mkArc 0 1 7 1]; [mkArc 1 2 (-1) 0]; []].
Theorem C28_vec_arc_map_refuted : exists out ders,
  determinize_vec (fun l => l) (fun l => l) (fun _ _ => O) NoWeight 9 [(splits_of ex_f, all_arcs ex_f); (splits_of ex_g, all_arcs ex_g)] = Some (out, ders) /\
  exists k a j b, rd (concat (map snd out)) k = Some a /\ rd ders k = Some [j] /\ rd (all_arcs ex_f ++ all_arcs ex_g) j = Some b /\ lab b <> lab a.
Proof.
  eexists _, _. split; [vm_compute; reflexivity|]. exists 5, (mkArc 0 1 7 1), 0, (mkArc 0 1 1 5). split; [reflexivity|]. split; [reflexivity|]. split; [reflexivity|]. cbn. lia.
Qed.

Print Assumptions C28_determinize_result.
Print Assumptions C28_determinize.
Print Assumptions C28_collision_refuted.
Print Assumptions C28_vec_arc_map_refuted.
