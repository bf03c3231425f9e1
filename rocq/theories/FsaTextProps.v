(** * C13: the k2 text format of FSAs. *)
From Coq Require Import ZArith List Lia Bool.
From Verif Require Import Base RaggedModel RaggedSpec FsaSpec FsaLemmas PyBase RaggedOpsProofs RaggedListProofs FsaTextModel FsaTextSpec FsaTextProofs FsaTextK2.
Import ListNotations.
Open Scope Z_scope.

(** ** What a parsed FSA looks like, for every text *)

(** Whatever the text is: if it is accepted, the result is an FSA whose arcs
    are stored under the states they leave, whose arcs end in existing states,
    and whose labels are as many as its arcs. *)
Theorem C13_parse_sound wsf fl dbl na nr text rs A aux rag :
  k2_from_str wsf fl dbl na nr text = Some (rs, A, aux, rag) ->
  (exists f, mkFsa rs A = flat f /\ src_ok f /\ forall a, In a (all_arcs f) -> 0 <= dst a < nstates f) /\
  length aux = na /\ (forall row, In row aux -> zlen row = zlen A) /\
  length rag = nr /\
  (forall x, In x rag -> exists L : list (list Z), zlen L = zlen A /\ fst x = splits_of L /\ snd x = concat L).
Proof.
  unfold k2_from_str. destruct (k2_lines _ _ _ _ _ _ _) as [k|] eqn:E; [|discriminate].
  apply (kinv_lines wsf fl dbl na nr) in E; [|apply kinv_init].
  destruct E as ((g & G1 & G2 & G3 & G4 & G5) & D & M & A1 & R1 & R2).
  destruct (negb (k_final k =? -1) || is_nil (k_arcs k)); [|discriminate].
  destruct (k_max k =? k_final k) eqn:EM; [|discriminate]. cbv zeta.
  destruct (Nat.eqb na 0 || (zlen (k_aux k) =? zlen (k_arcs k) * Z.of_nat na)); [|discriminate].
  destruct (mapM _ (zrange (Z.of_nat na))) as [aux'|] eqn:EX; [|discriminate].
  intros [= <- <- <- <-].
  assert (Lg : zlen (k_rs k) = zlen g) by (rewrite G4, zlen_map, zlen_zrange; auto; apply zlen_nonneg).
  split; [|split; [|split; [|split]]].
  - set (f := g ++ repeat [] (Z.to_nat (k_max k + 1 - zlen g))).
    assert (Hf : src_ok f) by (now apply src_ok_pad).
    assert (Hc : concat f = k_arcs k) by (unfold f; rewrite concat_app, concat_repeat_nil, app_nil_r; exact G3).
    assert (Hn : zlen f = k_max k + 1) by (unfold f; rewrite zlen_app, zlen_repeat; lia).
    exists f. split; [|split; [exact Hf|]].
    + unfold flat. f_equal; [|auto]. rewrite (cnt_splits f Hf), Hc, Hn, Lg, G4. apply splits_pad.
      * apply zlen_nonneg.
      * lia.
      * intros a Ha. rewrite <- G3 in Ha. apply src_ok_bound in Ha; auto. lia.
    + intros a Ha. unfold nstates, all_arcs in *. rewrite Hc in Ha. apply D in Ha. lia.
  - apply mapM_length in EX. rewrite EX, zrange_length. lia.
  - intros row Hr. apply In_rd in Hr. destruct Hr as (j & _ & Hj). destruct (mapM_rd _ _ _ _ _ EX Hj) as (j' & _ & Er).
    apply mapM_length in Er. rewrite zrange_length in Er. unfold zlen. rewrite Er. pose proof (zlen_nonneg (k_arcs k)). unfold zlen in *. lia.
  - exact R1.
  - intros x Hx. rewrite Forall_forall in R2. exact (R2 x Hx).
Qed.
Print Assumptions C13_parse_sound.

(** ** Round trip *)

Lemma sorted_src f : src_ok f -> forall i j a b, i < j ->
  rd (concat f) i = Some a -> rd (concat f) j = Some b -> src a <= src b.
Proof.
  induction f as [|row f IH] using rev_ind; intros H i j a b Hij Ha Hb; [cbn [concat] in Ha; now rewrite rd_nil in Ha|].
  apply src_ok_app in H. destruct H as [H1 H2]. rewrite concat_app in *. cbn [concat] in *. rewrite app_nil_r in *.
  pose proof (rd_Some_bound _ _ _ Ha). pose proof (rd_Some_bound _ _ _ Hb).
  destruct (Z_lt_dec j (zlen (concat f))) as [L|L].
  - rewrite rd_app_l in Ha by lia. rewrite rd_app_l in Hb by lia. eauto.
  - rewrite rd_app_r in Hb by lia. rewrite (H2 b) by (eapply rd_In; eauto).
    destruct (Z_lt_dec i (zlen (concat f))) as [L'|L'].
    + rewrite rd_app_l in Ha by lia. apply rd_In in Ha. apply src_ok_bound in Ha; auto. lia.
    + rewrite rd_app_r in Ha by lia. rewrite (H2 a) by (eapply rd_In; eauto). lia.
Qed.

Lemma cnt_rescore rr A q : cnt (map (rescore rr) A) q = cnt A q.
Proof.
  unfold cnt. induction A as [|a A IH]; auto. cbn [map filter]. change (src (rescore rr a)) with (src a).
  destruct (src a <? q); rewrite ?zlen_cons; lia.
Qed.

Definition auxrow (aux : list (list Z)) (i : Z) : list Z := map (fun col => match rd col i with Some v => v | None => 0 end) aux.
Definition rl (l : list Z) : str := [91; 32] ++ concat (map pfield l) ++ [93; 32].
Definition ragrow (Ls : list (list (list Z))) (i : Z) : list (list Z) :=
  map (fun L => match rd L i with Some v => v | None => [] end) Ls.
Definition line_of (pr : Z -> str) (a : arc) (auxs : list Z) (rls : list (list Z)) : str :=
  pfield (src a) ++ pfield (dst a) ++ pfield (lab a) ++ concat (map pfield auxs) ++ concat (map rl rls) ++ pr (sc a).

Lemma auxrow_length aux i : length (auxrow aux i) = length aux.
Proof. apply map_length. Qed.

Lemma print_row L i l : rd L i = Some l ->
  mapM (fun j => v <- rd (concat L) j;; Some (pfield v)) (map (fun j => off1 L i + j) (zrange (zlen l))) = Some (map pfield l).
Proof.
  intros H. apply mapM_by_rd.
  - rewrite !zlen_map, zlen_zrange by apply zlen_nonneg. reflexivity.
  - intros j q Hq. rewrite rd_map in Hq. destruct (rd (zrange (zlen l)) j) as [j'|] eqn:E; [|discriminate]. injection Hq as <-.
    pose proof (rd_Some_bound _ _ _ E) as B. rewrite zlen_zrange in B by apply zlen_nonneg. rewrite rd_zrange in E by lia. injection E as <-.
    destruct (rd_in_bound l j B) as (v & Hv). rewrite (proj1 (rd_concat_off L i l j v H Hv)). rewrite rd_map, Hv. reflexivity.
Qed.

Lemma arc_line_ok pr neg aux Ls i a n : 0 <= i < n ->
  (forall col, In col aux -> zlen col = n) -> (forall L, In L Ls -> zlen L = n) ->
  arc_line pr neg false aux (map rag_of Ls) i a = Some (line_of pr a (auxrow aux i) (ragrow Ls i) ++ [10]).
Proof.
  intros Hi Ha Hl. unfold arc_line. cbn [andb]. cbv zeta iota.
  rewrite (mapM_Some_map _ (fun col => pfield (match rd col i with Some v => v | None => 0 end))).
  2:{ intros col Hc. apply Ha in Hc. destruct (rd_in_bound col i ltac:(lia)) as (v & ->). reflexivity. }
  replace (mapM _ (map rag_of Ls)) with (Some (map rl (ragrow Ls i))).
  - unfold line_of, auxrow. rewrite map_map. unfold pfield. rewrite <- !app_assoc. reflexivity.
  - symmetry. unfold ragrow. rewrite map_map. rewrite mapM_map. apply mapM_Some_map. intros L HL. apply Hl in HL.
    destruct (rd_in_bound L i ltac:(lia)) as (l & El). unfold rag_of. cbn [fst snd]. rewrite El.
    rewrite rd_splits_off by lia. rewrite rd_splits_off by lia. rewrite (off1_next _ _ _ El).
    replace (off1 L i + zlen l - off1 L i) with (zlen l) by lia.
    change (fun j : Z => v <- rd (concat L) j;; Some (print_int v ++ [32])) with (fun j : Z => v <- rd (concat L) j;; Some (pfield v)).
    rewrite (print_row _ _ _ El). reflexivity.
Qed.

Lemma to_str_ok pr neg f aux Ls : all_arcs f <> [] -> zlen aux <= 10 -> zlen Ls <= 10 ->
  (forall col, In col aux -> zlen col = zlen (all_arcs f)) -> (forall L, In L Ls -> zlen L = zlen (all_arcs f)) ->
  fsa_to_str pr neg false (nstates f) (all_arcs f) aux (map rag_of Ls) =
  Some (concat (map (fun l => l ++ [10])
    (imap (fun i a => line_of pr a (auxrow aux i) (ragrow Ls i)) 0 (all_arcs f) ++ [print_int (final f)]))).
Proof.
  intros Hne H1 H2 Ha Hl. unfold fsa_to_str. replace (zlen aux <=? 10) with true by lia.
  replace (forallb _ aux) with true by (symmetry; apply forallb_forall; intros col Hc; apply Z.eqb_eq; auto).
  rewrite zlen_map. replace (zlen Ls <=? 10) with true by lia.
  replace (forallb _ (map rag_of Ls)) with true.
  2:{ symmetry. apply forallb_forall. intros x Hx. apply in_map_iff in Hx. destruct Hx as (L & <- & HL). apply Z.eqb_eq.
      unfold rag_of. cbn [fst]. rewrite zlen_splits_of, (Hl L HL). reflexivity. }
  assert (Hpos : 0 < zlen (all_arcs f)).
  { pose proof (zlen_nonneg (all_arcs f)). destruct (Z.eq_dec (zlen (all_arcs f)) 0) as [E|N]; [apply zlen_0_nil in E; congruence|lia]. }
  rewrite (mapM_zrange _ (zlen (all_arcs f))
    (map (fun l => l ++ [10]) (imap (fun i a => line_of pr a (auxrow aux i) (ragrow Ls i)) 0 (all_arcs f)))).
  - replace (0 <? zlen (all_arcs f)) with true by lia. cbn [negb andb]. rewrite map_app, concat_app. cbn [map concat].
    rewrite app_nil_r. reflexivity.
  - lia.
  - rewrite zlen_map, zlen_imap. reflexivity.
  - intros i Hi. destruct (rd_in_bound (all_arcs f) i Hi) as (a & Ea). rewrite Ea.
    rewrite (arc_line_ok pr neg aux Ls i a (zlen (all_arcs f))) by auto.
    rewrite rd_map, rd_imap, Ea. reflexivity.
Qed.

Lemma pfield_no_nl v : ~ In 10 (pfield v).
Proof. unfold pfield. rewrite in_app_iff. intros [H|[H|[]]]; [now apply print_int_no_nl in H|lia]. Qed.

Lemma concat_no_nl (l : list str) : (forall x, In x l -> ~ In 10 x) -> ~ In 10 (concat l).
Proof. intros H Hin. apply in_concat in Hin. destruct Hin as (x & Hx & H10). exact (H x Hx H10). Qed.

Lemma pfields_no_nl l : ~ In 10 (concat (map pfield l)).
Proof. apply concat_no_nl. intros x Hx. apply in_map_iff in Hx. destruct Hx as (v & <- & _). apply pfield_no_nl. Qed.

Lemma line_of_no_nl pr a auxs rls : ~ In 10 (pr (sc a)) -> ~ In 10 (line_of pr a auxs rls).
Proof.
  intros H. unfold line_of. rewrite !in_app_iff.
  intros [I|[I|[I|[I|[I|I]]]]]; try (now apply pfield_no_nl in I); try tauto; [now apply pfields_no_nl in I|].
  revert I. apply concat_no_nl. intros x Hx. apply in_map_iff in Hx. destruct Hx as (l & <- & _). unfold rl.
  rewrite !in_app_iff. intros [[I|[I|[]]]|[I|[I|[I|[]]]]]; try lia. now apply pfields_no_nl in I.
Qed.

Lemma text_lines pr f aux Ls : (forall a, In a (all_arcs f) -> ~ In 10 (pr (sc a))) ->
  Forall (fun l => ~ In 10 l)
    (imap (fun i a => line_of pr a (auxrow aux i) (ragrow Ls i)) 0 (all_arcs f) ++ [print_int (final f)]).
Proof.
  intros H. apply Forall_forall. intros l Hl. apply in_app_iff in Hl. destruct Hl as [Hl|[<-|[]]]; [|apply print_int_no_nl].
  apply In_rd in Hl. destruct Hl as (i & _ & Hi). rewrite rd_imap in Hi. destruct (rd (all_arcs f) i) as [a|] eqn:Ea; [|discriminate].
  injection Hi as <-. apply line_of_no_nl. apply H. eapply rd_In; eauto.
Qed.

Lemma has_states g : all_arcs g <> [] -> 0 < zlen g.
Proof. destruct g as [|r g]; intros H; [now elim H|]. rewrite zlen_cons. pose proof (zlen_nonneg g). lia. Qed.

Section RoundTrip.
  Variables (wsf : bool) (fl : str -> option Z * str) (dbl : str -> option (option Z) * str).
  Variables (pr : Z -> str) (neg rr : Z -> Z).
  Variables (f : nfsa) (aux : list (list Z)).
  Hypothesis Hsrc : src_ok f.
  Hypothesis Hdst : forall a, In a (all_arcs f) -> 0 <= dst a < nstates f.
  Hypothesis Hne : all_arcs f <> [].
  Hypothesis Hst : nstates f <= 2 ^ 31.
  Hypothesis Hlab : forall a, In a (all_arcs f) -> in32 (lab a) = true.
  Hypothesis Hsc : forall a, In a (all_arcs f) -> fl_tok fl (pr (sc a)) (rr (sc a)) /\ ~ In 10 (pr (sc a)).
  Hypothesis Hcol : forall col, In col aux -> zlen col = zlen (all_arcs f).
  Hypothesis Haux : forall col v, In col aux -> In v col -> dbl_tok dbl (print_int v) v.

  Let line (i : Z) (a : arc) : str := line_of pr a (auxrow aux i) (ragrow [] i).

  Lemma state_in32 q : 0 <= q < nstates f -> in32 q = true.
  Proof. intros H. unfold in32, int32_min, int32_max. apply andb_true_iff. change (2 ^ 31) with 2147483648 in Hst. lia. Qed.

  (** the state after the lines of the arcs [A1] *)
  Lemma lines_prefix A1 : forall A2, all_arcs f = A1 ++ A2 ->
    exists k, k2_lines wsf fl dbl (length aux) 0 (imap line 0 A1) (mkK [] [] [] [] (-1) (-1)) = Some k /\
      k_arcs k = map (rescore rr) A1 /\ k_aux k = concat (map (auxrow aux) (zrange (zlen A1))) /\ k_rag k = [] /\
      k_max k <= final f /\ k_final k = -1.
  Proof.
    induction A1 as [|x A1 IH] using rev_ind; intros A2 E.
    - exists (mkK [] [] [] [] (-1) (-1)). cbn [imap k2_lines k_arcs k_aux k_rag k_max k_final].
      repeat split. unfold final. pose proof (has_states f Hne). lia.
    - rewrite <- app_assoc in E. destruct (IH _ E) as (k & K1 & K2 & K3 & K4 & K5 & K6).
      rewrite imap_app. rewrite k2_lines_app, K1. cbn [imap k2_lines].
      assert (Ex : rd (all_arcs f) (zlen A1) = Some x).
      { rewrite E, rd_app_r by lia. replace (zlen A1 - zlen A1) with 0 by lia. reflexivity. }
      assert (Ix : In x (all_arcs f)) by (eapply rd_In; eauto).
      assert (Bs : 0 <= src x < nstates f) by (now apply src_ok_bound).
      pose proof (Hdst x Ix) as Bd.
      replace (0 + zlen A1) with (zlen A1) by lia.
      unfold line, line_of. cbn [ragrow map concat]. change ([] ++ pr (sc x)) with (concat (repeat empty_list 0) ++ pr (sc x)).
      pose proof (k2_line_arc wsf fl dbl (auxrow aux (zlen A1)) 0 k (src x) (dst x) (lab x) (pr (sc x)) (rr (sc x))) as KL.
      rewrite auxrow_length in KL. rewrite KL; clear KL.
      + eexists. split; [reflexivity|]. cbn [k_arcs k_aux k_rag k_max k_final]. rewrite K2, K3, K4.
        split; [rewrite map_app; reflexivity|]. split.
        { rewrite zlen_app. change (zlen [x]) with 1. rewrite zrange_S by apply zlen_nonneg. rewrite map_app, concat_app. cbn [map concat]. now rewrite app_nil_r. }
        split; [reflexivity|]. split; [unfold final, nstates in *; lia|auto].
      + now apply state_in32.
      + now apply state_in32.
      + now apply Hlab.
      + lia.
      + lia.
      + apply Forall_forall. intros v Hv. unfold auxrow in Hv. apply in_map_iff in Hv. destruct Hv as (col & <- & Hc).
        destruct (rd_in_bound col (zlen A1)) as (v & Hv).
        { rewrite (Hcol col Hc). apply rd_Some_bound in Ex. lia. }
        rewrite Hv. apply (Haux col v Hc). eapply rd_In; eauto.
      + now apply Hsc.
      + exact K6.
      + (* sources are in order *)
        assert (I : kinv (length aux) 0 k) by (eapply kinv_lines; [|exact K1]; apply (kinv_init (length aux) 0)).
        destruct I as ((g & G1 & G2 & G3 & G4 & G5) & _).
        assert (Lg : zlen (k_rs k) = zlen g) by (rewrite G4, zlen_map, zlen_zrange; auto; apply zlen_nonneg).
        destruct G2 as [->|(g0 & row & a & ->)]; [left; rewrite <- G3; reflexivity|right].
        rewrite Lg, zlen_app. change (zlen [row ++ [a]]) with 1.
        apply src_ok_app in G1. destruct G1 as [_ G1]. rewrite <- (G1 a) by (apply in_app_iff; right; now left).
        rewrite K2, concat_app in G3. cbn [concat] in G3. rewrite app_nil_r, app_assoc in G3.
        destruct A1 as [|y A1'] eqn:EA using rev_ind; [now destruct (concat g0 ++ row)|].
        rewrite map_app in G3. cbn [map] in G3. apply app_inj_tail in G3. destruct G3 as [_ ->].
        change (src (rescore rr y)) with (src y). replace (src y + 1 - 1) with (src y) by lia. apply (sorted_src f Hsrc (zlen A1') (zlen (A1' ++ [y]))).
        * rewrite zlen_app. change (zlen [y]) with 1. lia.
        * unfold all_arcs in E. rewrite E, <- app_assoc, rd_app_r by lia. replace (zlen A1' - zlen A1') with 0 by lia. reflexivity.
        * exact Ex.
  Qed.

  Lemma aux_back (n : Z) : (forall col, In col aux -> zlen col = n) -> 0 <= n ->
    mapM (fun j => mapM (fun i => rd (concat (map (auxrow aux) (zrange n))) (i * Z.of_nat (length aux) + j)) (zrange n))
         (zrange (Z.of_nat (length aux))) = Some aux.
  Proof.
    intros Hc Hn. apply mapM_zrange; [lia|reflexivity|]. intros j Hj. destruct (rd_in_bound aux j Hj) as (col & Ec). rewrite Ec.
    pose proof (Hc col (rd_In _ _ _ Ec)) as Lc. apply mapM_zrange; auto. intros i Hi.
    destruct (rd_in_bound col i ltac:(lia)) as (v & Ev). rewrite Ev.
    set (R := map (auxrow aux) (zrange n)).
    assert (Ei : rd R i = Some (auxrow aux i)) by (unfold R; rewrite rd_map, rd_zrange by lia; reflexivity).
    assert (Ej : rd (auxrow aux i) j = Some v) by (unfold auxrow; rewrite rd_map, Ec; cbn [option_map]; now rewrite Ev).
    assert (Eo : forall q, 0 <= q <= n -> off1 R q = q * Z.of_nat (length aux)).
    { assert (LR : zlen R = n) by (unfold R; rewrite zlen_map, zlen_zrange; lia).
      intros q Hq. pattern q. apply (natlike_rec2 (fun q => q <= n -> off1 R q = q * Z.of_nat (length aux))); try lia.
      - intros _. reflexivity.
      - intros z Hz IHz Bz. replace (Z.succ z) with (z + 1) in * by lia.
        rewrite (off1_next R z (auxrow aux z)) by (unfold R; rewrite rd_map, rd_zrange by lia; reflexivity).
        rewrite IHz by lia. unfold zlen. rewrite auxrow_length. lia. }
    rewrite <- (Eo i) by lia. exact (proj1 (rd_concat_off R i _ j v Ei Ej)).
  Qed.

  Lemma round_trip : zlen aux <= 10 ->
    exists text,
      fsa_to_str pr neg false (nstates f) (all_arcs f) aux [] = Some text /\
      k2_from_str wsf fl dbl (length aux) 0 text =
        Some (splits_of f, map (rescore rr) (all_arcs f), aux, []).
  Proof.
    intros H10. eexists. split; [apply (to_str_ok pr neg f aux []); auto; [change (zlen (@nil (list (list Z)))) with 0; lia|intros L []]|].
    unfold k2_from_str. rewrite split_lines_text by (apply text_lines; intros a Ha; now apply Hsc).
    destruct (lines_prefix (all_arcs f) [] (eq_sym (app_nil_r _))) as (k & K1 & K2 & K3 & K4 & K5 & K6).
    rewrite !k2_lines_app. fold line. change (repeat ([0], []) 0) with (@nil (list Z * list Z)). rewrite K1. cbn [k2_lines].
    assert (Hf : 0 <= final f).
    { pose proof (has_states f Hne). unfold final. lia. }
    rewrite (k2_line_final wsf fl dbl) by (auto; apply state_in32; unfold final, nstates in *; lia).
    cbn [k2_lines]. rewrite k2_line_blank. cbn [k_arcs k_max k_final k_rs k_aux k_rag].
    replace (final f =? -1) with false by lia. cbn [negb orb].
    replace (Z.max (k_max k) (final f)) with (final f) by lia. rewrite Z.eqb_refl. cbv zeta.
    assert (I : kinv (length aux) 0 k) by (eapply kinv_lines; [|exact K1]; apply (kinv_init (length aux) 0)).
    destruct I as ((g & G1 & G2 & G3 & G4 & G5) & _ & _ & G6 & _).
    rewrite G6, Z.eqb_refl, orb_true_r.
    rewrite K2, K3, K4, zlen_map, (aux_back (zlen (all_arcs f))) by (auto; apply zlen_nonneg).
    do 4 f_equal.
    rewrite <- (zlen_map (rescore rr) (all_arcs f)), <- K2, G4, zlen_map, zlen_zrange by apply zlen_nonneg.
    rewrite splits_pad.
    - rewrite (cnt_splits f Hsrc). unfold final. replace (zlen f - 1 + 1 + 1) with (zlen f + 1) by lia.
      rewrite K2. apply map_ext. intros q. apply cnt_rescore.
    - apply zlen_nonneg.
    - lia.
    - intros a Ha. rewrite <- G3 in Ha. apply src_ok_bound in Ha; auto. lia.
  Qed.
End RoundTrip.

(** For every FSA with at least one arc, printing it with its aux labels and
    parsing the text gives the same states, arcs, labels and aux labels, and the
    scores as the float format preserves them: [reread s] is what the field
    printed for [s] reads as.  It holds for both behaviours of std::ws. *)
Theorem C13_round_trip wsf fl dbl pr neg reread f aux :
  src_ok f -> (forall a, In a (all_arcs f) -> 0 <= dst a < nstates f) -> all_arcs f <> [] ->
  nstates f <= 2 ^ 31 -> (forall a, In a (all_arcs f) -> - 2 ^ 31 <= lab a < 2 ^ 31) ->
  (forall a, In a (all_arcs f) -> fl_tok fl (pr (sc a)) (reread (sc a)) /\ ~ In 10 (pr (sc a))) ->
  zlen aux <= 10 -> (forall col, In col aux -> zlen col = zlen (all_arcs f)) ->
  (forall col v, In col aux -> In v col -> dbl_tok dbl (print_int v) v) ->
  exists text,
    fsa_to_str pr neg false (nstates f) (all_arcs f) aux [] = Some text /\
    k2_from_str wsf fl dbl (length aux) 0 text =
      Some (splits_of f, map (rescore reread) (all_arcs f), aux, []).
Proof.
  intros H1 H2 H3 H4 H5 H6 H7 H8 H9. apply round_trip; auto.
  intros a Ha. apply H5 in Ha. unfold in32, int32_min, int32_max. change (2 ^ 31) with 2147483648 in Ha. apply andb_true_iff. lia.
Qed.
Print Assumptions C13_round_trip.

(** In particular: a valid FSA whose scores survive the float format comes back
    unchanged. *)
Theorem C13_exact wsf fl dbl pr neg f :
  valid f -> all_arcs f <> [] -> nstates f <= 2 ^ 31 -> (forall a, In a (all_arcs f) -> lab a < 2 ^ 31) ->
  (forall a, In a (all_arcs f) -> fl_tok fl (pr (sc a)) (sc a) /\ ~ In 10 (pr (sc a))) ->
  exists text,
    fsa_to_str pr neg false (nstates f) (all_arcs f) [] [] = Some text /\
    k2_from_str wsf fl dbl 0 0 text = Some (row_splits (flat f), arcs (flat f), [], []).
Proof.
  intros (H1 & H2 & H3) H4 H5 H6 H7.
  destruct (C13_round_trip wsf fl dbl pr neg (fun s => s) f [] H1) as (text & T1 & T2); auto.
  - intros a Ha. apply (H3 a Ha).
  - intros a Ha. destruct (H3 a Ha) as (_ & B & _). specialize (H6 a Ha). change (2 ^ 31) with 2147483648 in *. lia.
  - change (zlen (@nil (list Z))) with 0. lia.
  - intros col [].
  - intros col v [].
  - exists text. split; auto. cbn [length] in T2. rewrite T2. do 4 f_equal. cbn [flat arcs].
    transitivity (map (fun a : arc => a) (concat f)); [apply map_ext; intros []; reflexivity|apply map_id].
Qed.
Print Assumptions C13_exact.

(** ** The float format of integers below 10^6 loses nothing *)
Lemma print_g6_small z : Z.abs z < 1000000 -> fl_tok read_g (print_g6 z) z /\ ~ In 10 (print_g6 z).
Proof.
  intros H. unfold print_g6. replace (Z.abs z <? 1000000) with true by lia.
  split; [|apply print_int_no_nl]. split.
  - destruct (print_int_head z []) as (c & u & E & Hc). rewrite app_nil_r in E. eauto.
  - intros r Hr. pose proof (parse_print_int z) as P. pose proof (uint_chars_nonempty z) as NE.
    unfold print_int in *.
    assert (D : forall u, Forall (fun c => digit c = true) (uint_chars u)).
    { intros u. apply Forall_forall. intros c Hc. apply uint_chars_digit in Hc. unfold digit. apply andb_true_iff. lia. }
    assert (Hr1 : match r with c :: _ => digit c = false | [] => True end) by (destruct r as [|c r]; auto; now apply cws_not_digit).
    assert (T : forall ds, (let '(fr, s2) := match r with 46 :: t => span_digits t | _ => ([], r) end in
             let '(ex, s3) := match s2 with 101 :: t => let '(x, t') := int_prefix t in (parse_int x, t') | _ => (Some 0, s2) end in
             (ds ++ fr, fr, ex, s3)) = (ds, [], Some 0, r)).
    { intros ds. destruct r as [|c r]; [now rewrite app_nil_r|]. cbn [sep_end] in Hr. apply cws_cases in Hr.
      assert (N1 : c <> 46) by lia. assert (N2 : c <> 101) by lia.
      destruct c as [|p|p]; try (now rewrite app_nil_r). do 7 (try destruct p as [p|p|]); try (now rewrite app_nil_r); congruence. }
    destruct (Z.to_int z) as [u|u] eqn:Eu; specialize (D u).
    + destruct (uint_chars u) as [|c t] eqn:E; [congruence|]. unfold read_g. rewrite <- app_comm_cons.
      assert (Hc : digit c = true) by (now inversion D). unfold digit in Hc. apply andb_true_iff in Hc.
      replace (c =? 45) with false by lia. replace (c =? 43) with false by lia. cbn [orb]. rewrite app_comm_cons.
      rewrite span_digits_app by auto. specialize (T (c :: t)). revert T.
      destruct (match r with 46 :: t0 => span_digits t0 | _ => ([], r) end) as [fr s2].
      destruct (match s2 with 101 :: t0 => let '(x, t') := int_prefix t0 in (parse_int x, t') | _ => (Some 0, s2) end) as [ex s3].
      intros [= _ -> -> ->]. rewrite app_nil_r, P. change (zlen (@nil Z)) with 0. change (0 <=? 0 - 0) with true. cbv iota. do 2 f_equal. change (10 ^ (0 - 0)) with 1. lia.
    + unfold read_g. rewrite <- app_comm_cons. change ((45 =? 45) || (45 =? 43)) with true. cbv iota beta.
      rewrite span_digits_app by auto. specialize (T (uint_chars u)). revert T.
      destruct (match r with 46 :: t0 => span_digits t0 | _ => ([], r) end) as [fr s2].
      destruct (match s2 with 101 :: t0 => let '(x, t') := int_prefix t0 in (parse_int x, t') | _ => (Some 0, s2) end) as [ex s3].
      intros [= _ -> -> ->]. rewrite app_nil_r.
      assert (PU : parse_int (uint_chars u) = Some (Z.of_int (Decimal.Pos u))).
      { destruct (uint_chars u) as [|c t] eqn:E; [congruence|]. inversion D as [|? ? Hc]; subst. unfold digit in Hc. apply andb_true_iff in Hc.
        unfold parse_int. replace (c =? 45) with false by lia. replace (c =? 43) with false by lia. now rewrite <- E, parse_uint_chars. }
      rewrite PU. assert (Zu : Z.of_int (Decimal.Pos u) = - z).
      { pose proof (DecimalZ.of_to z) as R. rewrite Eu in R. rewrite <- R. simpl. lia. }
      rewrite Zu. change (zlen (@nil Z)) with 0. change (0 <=? 0 - 0) with true. cbv iota. do 2 f_equal. change (10 ^ (0 - 0)) with 1. lia.
Qed.

Lemma dbl_int_tok v : in32 v = true -> dbl_tok dbl_int (print_int v) v.
Proof.
  intros H r Hr. unfold dbl_int. rewrite (int_tok_prefix _ _ _ (print_int_tok v H) Hr), parse_print_int, H. reflexivity.
Qed.

(** A transducer with two aux labels per arc, negative scores, a state without
    arcs and a self-loop. *)
Definition ex_f : nfsa :=
  [[mkArc 0 1 5 (-3); mkArc 0 0 7 999999]; []; [mkArc 2 1 0 12; mkArc 2 3 (-1) 0]; []].
Definition ex_aux : list (list Z) := [[1; -2; 0; -1]; [10; 20; 30; 40]].
Example C13_ex :
  (forall wsf, exists text,
    fsa_to_str print_g6 Z.opp false (nstates ex_f) (all_arcs ex_f) ex_aux [] = Some text /\
    k2_from_str wsf read_g dbl_int 2 0 text = Some (splits_of ex_f, all_arcs ex_f, ex_aux, [])) /\
  fsa_to_str print_g6 Z.opp false 2 [mkArc 0 1 (-1) (-30)] [[7]] [] =
    Some [48; 32; 49; 32; 45; 49; 32; 55; 32; 45; 51; 48; 10; 49; 10]   (* "0 1 -1 7 -30\n1\n" *).
Proof.
  split; [|reflexivity]. intros wsf.
  destruct (C13_round_trip wsf read_g dbl_int print_g6 Z.opp (fun s => s) ex_f ex_aux) as (text & T1 & T2).
  - unfold ex_f. intros i st a Hi Ha. pose proof (rd_Some_bound _ _ _ Hi) as B. change (zlen _) with 4 in B.
    assert (i = 0 \/ i = 1 \/ i = 2 \/ i = 3) as [->|[->|[->| ->]]] by lia; injection Hi as <-; simpl in Ha;
      repeat (destruct Ha as [<-|Ha]; [reflexivity|]); destruct Ha.
  - intros a Ha. change (nstates ex_f) with 4. simpl in Ha. repeat (destruct Ha as [<-|Ha]; [cbn [dst]; lia|]). destruct Ha.
  - discriminate.
  - vm_compute. discriminate.
  - intros a Ha. simpl in Ha. change (2 ^ 31) with 2147483648. repeat (destruct Ha as [<-|Ha]; [cbn [lab]; lia|]). destruct Ha.
  - intros a Ha. apply print_g6_small. simpl in Ha. repeat (destruct Ha as [<-|Ha]; [cbn [sc]; lia|]). destruct Ha.
  - vm_compute. discriminate.
  - intros col [<-|[<-|[]]]; reflexivity.
  - intros col v [<-|[<-|[]]] Hv; apply dbl_int_tok; simpl in Hv; repeat (destruct Hv as [<-|Hv]; [reflexivity|]); destruct Hv.
  - exists text. split; auto.
Qed.

(** ** Where the round trip fails *)

(** The stream prints six significant digits: 16777215 comes back as
    16777200. *)
Theorem C13_exact_refuted :
  exists f text f', valid f /\ all_arcs f <> [] /\
    fsa_to_str print_g6 Z.opp false (nstates f) (all_arcs f) [] [] = Some text /\
    (forall wsf, k2_from_str wsf read_g dbl_int 0 0 text = Some (splits_of f', all_arcs f', [], [])) /\
    map (map sc) f = [[16777215]; []] /\ map (map sc) f' = [[16777200]; []].
Proof.
  exists [[mkArc 0 1 (-1) 16777215]; []]. eexists. exists [[mkArc 0 1 (-1) 16777200]; []].
  split; [|split; [discriminate|split; [reflexivity|split; [intros []; reflexivity|split; reflexivity]]]].
  split; [|split; [vm_compute; discriminate|]].
  - intros i st a Hi Ha. pose proof (rd_Some_bound _ _ _ Hi) as B. change (zlen _) with 2 in B.
    assert (i = 0 \/ i = 1) as [->| ->] by lia; injection Hi as <-; simpl in Ha; [destruct Ha as [<-|[]]; reflexivity|destruct Ha].
  - intros a [<-|[]]. cbn [dst lab src]. change (nstates _) with 2. change (final _) with 1. lia.
Qed.
Print Assumptions C13_exact_refuted.

(** FSAs without arcs are printed as the empty text, which is read as the FSA
    without states. *)
Theorem C13_no_arcs wsf fl dbl pr neg f :
  all_arcs f = [] ->
  fsa_to_str pr neg false (nstates f) (all_arcs f) [] [] = Some [] /\
  k2_from_str wsf fl dbl 0 0 [] = Some ([0], [], [], []).
Proof. intros ->. split; reflexivity. Qed.
Print Assumptions C13_no_arcs.

(** *** Ragged labels.  They are printed as "[ 1 2 ] "; the parser, having read
    the last label, meets the space, tries to read another integer and fails. *)
Lemma fail_sticky_rags wsf n s : s_fail s = true ->
  match read_rags wsf n s with Some (_, s') => s_fail s' = true | None => True end.
Proof.
  intros H. destruct n as [|n]; [exact H|]. cbn [read_rags].
  assert (W : good (ws wsf s) = false).
  { unfold ws. assert (G : good s = false) by (unfold good; rewrite H, andb_false_r; reflexivity). rewrite G.
    destruct wsf; unfold good; cbn [s_eof s_fail]; [now rewrite andb_false_r|rewrite H; now rewrite andb_false_r]. }
  unfold peek. rewrite W. cbv iota beta. exact I.
Qed.

Lemma read_list_fail vs : forall acc fuel tl, (length vs < fuel)%nat -> Forall (fun v => in32 v = true) vs ->
  s_fail (snd (read_list fuel (open (32 :: concat (map pfield vs) ++ 93 :: tl)) acc)) = true.
Proof.
  induction vs as [|v vs IH]; intros acc fuel tl Hf Hv.
  - destruct fuel as [|fuel]; [lia|]. cbn [map concat app read_list].
    change (peek (open (32 :: 93 :: tl))) with (Some 32, open (32 :: 93 :: tl)). cbv iota beta.
    change (good (open (32 :: 93 :: tl))) with true. cbv iota.
    change (read_int (open (32 :: 93 :: tl))) with (0, mkS (93 :: tl) false true). cbv iota beta.
    destruct fuel as [|fuel]; reflexivity.
  - inversion Hv; subst. destruct fuel as [|fuel]; [simpl in Hf; lia|]. cbn [map concat read_list].
    unfold pfield at 1. rewrite <- !app_assoc. set (R := concat (map pfield vs) ++ 93 :: tl).
    change (32 :: print_int v ++ [32] ++ R) with ([32] ++ print_int v ++ 32 :: R).
    change (peek (open ([32] ++ print_int v ++ 32 :: R))) with (Some 32, open ([32] ++ print_int v ++ 32 :: R)). cbv iota beta.
    change (good (open ([32] ++ print_int v ++ 32 :: R))) with true. cbv iota.
    rewrite read_print_int by auto using sp1. unfold R. apply IH; auto. simpl in Hf. lia.
Qed.

Lemma read_rags_fail wsf rls : forall tl, Forall (Forall (fun v => in32 v = true)) rls -> (exists l, In l rls /\ l <> []) ->
  match read_rags wsf (length rls) (open (32 :: concat (map rl rls) ++ tl)) with Some (_, s) => s_fail s = true | None => True end.
Proof.
  induction rls as [|l rls IH]; intros tl Hv (l0 & Hl & Hl0); [destruct Hl|].
  inversion Hv as [|? ? Hv1 Hv2]; subst. cbn [length map concat]. rewrite <- app_assoc.
  set (t := concat (map rl rls) ++ tl) in *. unfold rl at 1. rewrite <- !app_assoc.
  set (u := concat (map pfield l) ++ [93; 32] ++ t).
  change (32 :: [91; 32] ++ u) with (32 :: 91 :: 32 :: u).
  cbn [read_rags]. rewrite ws_sp by reflexivity.
  change (peek (open (91 :: 32 :: u))) with (Some 91, open (91 :: 32 :: u)). cbv iota beta.
  change (read_char (open (91 :: 32 :: u))) with (Some 91, open (32 :: u)). cbv iota beta.
  destruct l as [|v vs].
  - unfold u. cbn [map concat app]. rewrite ws_sp by reflexivity.
    change (read_list (S (length (s_rest (open (93 :: 32 :: t))))) (open (93 :: 32 :: t)) []) with ([] : list Z, open (93 :: 32 :: t)). cbv iota beta.
    change (read_char (open (93 :: 32 :: t))) with (Some 93, open (32 :: t)). cbv iota beta.
    assert (E : exists l, In l rls /\ l <> []) by (exists l0; destruct Hl as [<-|Hl]; [congruence|auto]).
    specialize (IH tl Hv2 E). fold t in IH. destruct (read_rags wsf (length rls) (open (32 :: t))) as [[x s]|]; auto.
  - assert (F : s_fail (snd (read_list (S (length (s_rest (ws wsf (open (32 :: u)))))) (ws wsf (open (32 :: u))) [])) = true).
    { inversion Hv1; subst. unfold u. cbn [map concat]. unfold pfield at 1 3. rewrite <- !app_assoc.
      set (R := concat (map pfield vs) ++ [93; 32] ++ t).
      destruct (print_int_head v ([32] ++ R)) as (c & w & E & Hc).
      rewrite ws_sp by (rewrite E; exact Hc). cbn [open s_rest].
      assert (Hd : c <> 93).
      { destruct (int_tok_head _ _ (print_int_tok v H1)) as (c' & w' & E' & _ & N & _). rewrite E' in E. injection E as <- _. exact N. }
      remember (length (print_int v ++ [32] ++ R)) as fuel eqn:Ef. cbn [read_list].
      replace (peek (open (print_int v ++ [32] ++ R))) with (Some c, open (print_int v ++ [32] ++ R))
        by (rewrite E; reflexivity). cbv iota beta.
      replace (match c with 93 => true | _ => false end) with false.
      2:{ clear - Hd. destruct c as [|p|p]; auto. do 7 (try destruct p as [p|p|]); auto; congruence. }
      change (good (open (print_int v ++ [32] ++ R))) with true. cbv iota.
      change (open (print_int v ++ [32] ++ R)) with (open ([] ++ print_int v ++ 32 :: R)). rewrite (read_print_int [] v R) by auto.
      unfold R. change ([93; 32] ++ t) with (93 :: 32 :: t). apply read_list_fail; auto.
      rewrite Ef. rewrite !app_length. unfold R. rewrite !app_length. assert (Q : (length vs <= length (concat (map pfield vs)))%nat).
      { clear. induction vs as [|y vs IH]; auto. cbn [map concat length]. rewrite app_length. unfold pfield at 1. rewrite app_length. simpl. lia. }
      simpl. lia. }
    destruct (read_list (S (length (s_rest (ws wsf (open (32 :: u)))))) (ws wsf (open (32 :: u))) []) as [x s5]. cbn [snd] in F.
    unfold read_char at 1. assert (G : good s5 = false) by (unfold good; rewrite F, andb_false_r; reflexivity). rewrite G.
    pose proof (fail_sticky_rags wsf (length rls) (mkS (s_rest s5) (s_eof s5) true) eq_refl) as Q.
    destruct (read_rags wsf (length rls) (mkS (s_rest s5) (s_eof s5) true)) as [[y s]|]; auto.
Qed.

Lemma line_fails wsf fl dbl pr a auxs rls k : Forall (fun v => in32 v = true) [src a; dst a; lab a] ->
  Forall (fun v => dbl_tok dbl (print_int v) v) auxs ->
  Forall (Forall (fun v => in32 v = true)) rls -> (exists l, In l rls /\ l <> []) ->
  k2_line wsf fl dbl (length auxs) (length rls) (line_of pr a auxs rls) k = None.
Proof.
  intros Ha Hx Hv He. inversion Ha as [|? ? Is Ha1]; subst. inversion Ha1 as [|? ? Id Ha2]; subst. inversion Ha2 as [|? ? Il _]; subst.
  unfold k2_line, line_of. cbv zeta.
  set (T := concat (map pfield auxs) ++ concat (map rl rls) ++ pr (sc a)).
  replace (pfield (src a) ++ pfield (dst a) ++ pfield (lab a) ++ T)
    with (print_int (src a) ++ 32 :: print_int (dst a) ++ 32 :: print_int (lab a) ++ 32 :: T)
    by (unfold pfield; rewrite <- !app_assoc; reflexivity).
  set (L3 := print_int (lab a) ++ 32 :: T). set (L2 := print_int (dst a) ++ 32 :: L3).
  assert (E1 : ws_unless_eof wsf (open (print_int (src a) ++ 32 :: L2)) = open (print_int (src a) ++ 32 :: L2)).
  { unfold ws_unless_eof. cbn [open s_eof]. destruct (print_int_head (src a) (32 :: L2)) as (c & u & -> & Hc).
    change (c :: u) with ([] ++ c :: u) at 1. now rewrite ws_open by auto. }
  rewrite E1. cbn [s_eof open]. destruct (k_final k =? -1); [|reflexivity].
  change (open (print_int (src a) ++ 32 :: L2)) with (open ([] ++ print_int (src a) ++ 32 :: L2)). rewrite read_print_int by auto.
  assert (E2 : ws_unless_eof wsf (open (32 :: L2)) = open L2).
  { unfold ws_unless_eof. cbn [open s_eof]. apply ws_sp. destruct (print_int_head (dst a) (32 :: L3)) as (c & u & E & Hc). unfold L2. now rewrite E. }
  rewrite E2. cbn [s_eof open].
  change (open L2) with (open ([] ++ L2)). unfold L2. rewrite read_print_int by auto.
  change (open (32 :: L3)) with (open ([32] ++ L3)). unfold L3. rewrite read_print_int by (auto using sp1).
  destruct ((0 <=? src a) && (0 <=? dst a)); [|reflexivity].
  unfold T. rewrite read_auxs_print by auto. cbn [fst snd].
  pose proof (read_rags_fail wsf rls (pr (sc a)) Hv He) as Q.
  destruct (read_rags wsf (length rls) (open (32 :: concat (map rl rls) ++ pr (sc a)))) as [[x s7]|]; [|reflexivity]. cbn [fst snd].
  assert (F : s_fail (ws wsf s7) = true).
  { unfold ws. assert (G : good s7 = false) by (unfold good; rewrite Q, andb_false_r; reflexivity). rewrite G.
    destruct wsf; auto. }
  assert (F' : s_fail (snd (if s_eof (ws wsf s7) then (0, ws wsf s7) else let '(v, s) := read_float fl (ws wsf s7) in (v, ws_unless_eof wsf s))) = true).
  { destruct (s_eof (ws wsf s7)) eqn:Ee; [exact F|]. unfold read_float.
    assert (G : good (ws wsf s7) = false) by (unfold good; rewrite F, andb_false_r; reflexivity). rewrite G. cbv iota beta. cbn [snd].
    unfold ws_unless_eof. cbn [s_eof]. rewrite Ee. unfold ws. unfold good. cbn [s_eof s_fail s_rest negb]. destruct wsf; reflexivity. }
  destruct (if s_eof (ws wsf s7) then (0, ws wsf s7) else let '(v, s) := read_float fl (ws wsf s7) in (v, ws_unless_eof wsf s)) as [sc9 s9].
  cbn [snd] in F'. rewrite F'. cbn [negb]. rewrite andb_false_r. reflexivity.
Qed.

Lemma lines_fail wsf fl dbl na nr ls l : In l ls -> (forall k, k2_line wsf fl dbl na nr l k = None) ->
  forall k, k2_lines wsf fl dbl na nr ls k = None.
Proof.
  intros Hin Hl. induction ls as [|x ls IH]; intros k; [destruct Hin|]. cbn [k2_lines].
  destruct Hin as [->|Hin]; [now rewrite Hl|]. destruct (k2_line wsf fl dbl na nr x k); auto.
Qed.

(** Every FSA that has ragged labels with a non-empty list somewhere prints to a
    text that the parser rejects. *)
Theorem C13_ragged_raises wsf fl dbl pr neg f aux Ls :
  src_ok f -> (forall a, In a (all_arcs f) -> 0 <= dst a < nstates f) ->
  nstates f <= 2 ^ 31 -> (forall a, In a (all_arcs f) -> - 2 ^ 31 <= lab a < 2 ^ 31) ->
  (forall a, In a (all_arcs f) -> ~ In 10 (pr (sc a))) ->
  zlen aux <= 10 -> (forall col, In col aux -> zlen col = zlen (all_arcs f)) ->
  (forall col v, In col aux -> In v col -> dbl_tok dbl (print_int v) v) ->
  zlen Ls <= 10 -> (forall L, In L Ls -> zlen L = zlen (all_arcs f)) ->
  (forall L l v, In L Ls -> In l L -> In v l -> - 2 ^ 31 <= v < 2 ^ 31) ->
  (exists L l, In L Ls /\ In l L /\ l <> []) ->
  exists text,
    fsa_to_str pr neg false (nstates f) (all_arcs f) aux (map rag_of Ls) = Some text /\
    k2_from_str wsf fl dbl (length aux) (length Ls) text = None.
Proof.
  intros H1 H2 H4 H5 H6 H7 H8 H9 H10 H11 H12 (L & l & IL & Il & Nl).
  apply In_rd in Il. destruct Il as (i & Bi & Ei). rewrite (H11 L IL) in Bi.
  destruct (rd_in_bound (all_arcs f) i Bi) as (a & Ea). pose proof (rd_In _ _ _ Ea) as Ia.
  assert (Hne : all_arcs f <> []) by (intros E; rewrite E in Ia; destruct Ia).
  eexists. split; [now apply to_str_ok|].
  unfold k2_from_str. rewrite split_lines_text by (now apply text_lines).
  assert (V : forall v, - 2 ^ 31 <= v < 2 ^ 31 -> in32 v = true).
  { intros v Hv. change (2 ^ 31) with 2147483648 in Hv. unfold in32, int32_min, int32_max. apply andb_true_iff. lia. }
  rewrite (lines_fail wsf fl dbl (length aux) (length Ls) _ (line_of pr a (auxrow aux i) (ragrow Ls i))); [reflexivity| |].
  - apply in_app_iff. left. apply in_app_iff. left. eapply rd_In. rewrite rd_imap, Ea. reflexivity.
  - intros k. rewrite <- (auxrow_length aux i) at 1. replace (length Ls) with (length (ragrow Ls i)) by apply map_length.
    apply line_fails.
    + pose proof (src_ok_bound _ _ H1 Ia). pose proof (H2 a Ia). pose proof (H5 a Ia). unfold nstates in *.
      repeat constructor; apply V; lia.
    + apply Forall_forall. intros v Hv. unfold auxrow in Hv. apply in_map_iff in Hv. destruct Hv as (col & <- & Hc).
      destruct (rd_in_bound col i) as (v & Ev); [rewrite (H8 col Hc); lia|]. rewrite Ev. apply (H9 col v Hc). eapply rd_In; eauto.
    + apply Forall_forall. intros x Hx. unfold ragrow in Hx. apply in_map_iff in Hx. destruct Hx as (M & <- & HM).
      destruct (rd_in_bound M i) as (y & Ey); [rewrite (H11 M HM); lia|]. rewrite Ey. apply Forall_forall. intros v Hv.
      apply V. apply (H12 M y v HM); auto. eapply rd_In; eauto.
    + exists l. split; auto. unfold ragrow. apply in_map_iff. exists L. rewrite Ei. auto.
Qed.
Print Assumptions C13_ragged_raises.

(** The text "0 1 -1 [ 7 ] 0\n1\n" that is printed is rejected, while "0 1 -1 [7]
    0\n1\n" is accepted; and a line without a score is accepted or rejected
    according to std::ws. *)
Example C13_ragged_ex :
  fsa_to_str print_g6 Z.opp false 2 [mkArc 0 1 (-1) 0] [] [([0; 1], [7])] =
    Some [48; 32; 49; 32; 45; 49; 32; 91; 32; 55; 32; 93; 32; 48; 10; 49; 10] /\
  (forall wsf, k2_from_str wsf read_g dbl_int 0 1 [48; 32; 49; 32; 45; 49; 32; 91; 32; 55; 32; 93; 32; 48; 10; 49; 10] = None) /\
  (forall wsf, k2_from_str wsf read_g dbl_int 0 1 [48; 32; 49; 32; 45; 49; 32; 91; 55; 93; 32; 48; 10; 49; 10] =
               Some ([0; 1; 1], [mkArc 0 1 (-1) 0], [], [([0; 1], [7])])).
Proof. split; [reflexivity|split; intros []; reflexivity]. Qed.

Example C13_default_score_ex :
  k2_from_str false read_g dbl_int 0 0 [48; 32; 49; 32; 45; 49; 10; 49; 10] = Some ([0; 1; 1], [mkArc 0 1 (-1) 0], [], []) /\
  k2_from_str true read_g dbl_int 0 0 [48; 32; 49; 32; 45; 49; 10; 49; 10] = None.
Proof. split; reflexivity. Qed.
