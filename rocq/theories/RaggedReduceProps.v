(** * C72: reductions of ragged tensors and their gradients

    The ragged tensor with rows xs has the row splits [splits_of xs] (exclusive sums of
    the row lengths) and the values [concat xs]. *)
From Coq Require Import ZArith List Lia Bool Reals Lra Permutation.
From Verif Require RnntProofs.
From Verif Require Import Base RaggedModel RaggedSpec FsaLemmas LogReal ScoreModel PathSums GraphProofs RaggedReduceModel RaggedReduceSpec RaggedReduceProofs.
Import ListNotations.
Open Scope Z_scope.

Lemma Forall2_map_r {A B} (P : A -> B -> Prop) (f : A -> B) l : (forall x, In x l -> P x (f x)) -> Forall2 P l (map f l).
Proof. induction l as [|x l IH]; intros H; constructor; [apply H; now left|apply IH; intros; apply H; now right]. Qed.
Lemma splits_map {A B} (f : A -> B) (xs : list (list A)) : splits_of (map (map f) xs) = splits_of xs.
Proof. unfold splits_of. rewrite map_map. f_equal. apply map_ext. intros. apply zlen_map. Qed.

Lemma rd_ext {A} (l m : list A) : (forall i, rd l i = rd m i) -> l = m.
Proof.
  revert m. induction l as [|x l IH]; intros [|y m] H; auto; try (specialize (H 0); discriminate).
  f_equal; [specialize (H 0); rewrite !rd_cons_0 in H; congruence|]. apply IH. intros i. destruct (Z.ltb_spec i 0) as [L|L].
  - apply Z.ltb_lt in L. unfold rd. now rewrite L.
  - specialize (H (1 + i)). rewrite !RnntProofs.rd_cons_pos in H by lia. now replace (1 + i - 1) with i in H by lia.
Qed.
Lemma expo_nonneg x : (0 <= expo x)%R.
Proof. destruct x as [a|]; cbn; [left; apply exp_pos|right; reflexivity]. Qed.
(** Each result of sum is the initial value plus all elements of the row (-inf if one of them is). *)
Theorem C72_sum init xs : exists out, r_sum init (splits_of xs) (concat xs) = Some out /\
  Forall2 (fun row o => (In None (init :: row) -> o = None) /\
    forall i r, init = Some i -> row = map Some r -> o = Some (i + rsum r)%R) xs out.
Proof.
  eexists. split; [apply segmented_ok|]. apply Forall2_map_r. intros row _. split; [apply fold_sum_ninf|].
  intros i r -> ->. apply fold_sum.
Qed.
Theorem C72_max init xs : exists out, r_max init (splits_of xs) (concat xs) = Some out /\
  Forall2 (fun row o => greatest (init :: row) o) xs out.
Proof. eexists. split; [apply segmented_ok|]. apply Forall2_map_r. intros row _. apply fold_max. Qed.
Theorem C72_min init xs : exists out, r_min init (splits_of xs) (concat xs) = Some out /\
  Forall2 (fun row o => least (init :: row) o) xs out.
Proof. eexists. split; [apply segmented_ok|]. apply Forall2_map_r. intros row _. apply fold_min. Qed.
Theorem C72_logsumexp init xs : exists out, r_logsumexp init (splits_of xs) (concat xs) = Some out /\
  Forall2 (fun row o => expo o = (expo init + sumf expo row)%R) xs out.
Proof. eexists. split; [apply segmented_ok|]. apply Forall2_map_r. intros row _. apply fold_lse. Qed.

Lemma argmax_ok init xs : r_argmax init (splits_of xs) (concat xs) =
  Some (map (fun p => argmax_elems (snd p) (fst p) init (-1)) (combine (offs 0 xs) xs)).
Proof. unfold r_argmax, splits_of, exsum. rewrite exsum_head. exact (argmax_rows_ok init xs []). Qed.
Lemma zlen_offs {A} (xs : list (list A)) : forall j, zlen (offs j xs) = zlen xs.
Proof. induction xs as [|r xs IH]; intros j; cbn [offs]; [reflexivity|]. now rewrite !zlen_cons, IH. Qed.
Lemma rd_combine {A B} (l : list A) (m : list B) i a b : rd l i = Some a -> rd m i = Some b -> rd (combine l m) i = Some (a, b).
Proof.
  intros H1 H2. destruct (rd_split _ _ _ H1) as (l1 & l2 & -> & L1). destruct (rd_split _ _ _ H2) as (m1 & m2 & -> & M1).
  assert (E : length l1 = length m1) by (unfold zlen in *; lia).
  assert (C : combine (l1 ++ a :: l2) (m1 ++ b :: m2) = combine l1 m1 ++ (a, b) :: combine l2 m2).
  { clear - E. revert m1 E. induction l1 as [|x l1 IH]; intros [|y m1] E; try discriminate; [reflexivity|]. cbn. f_equal. apply IH. now injection E. }
  rewrite C. assert (Z1 : zlen (combine l1 m1) = i) by (unfold zlen in *; rewrite combine_length; lia).
  rewrite rd_app_r by (rewrite Z1; lia). rewrite Z1. replace (i - i) with 0 by lia. apply rd_cons_0.
Qed.
(** argmax gives the index, in the values of the tensor, of the last greatest element of each row. *)
Theorem C72_argmax init xs : exists out, r_argmax init (splits_of xs) (concat xs) = Some out /\ zlen out = zlen xs /\
  forall i row, rd xs i = Some row -> exists idx, rd out i = Some idx /\ is_argmax init (first_index xs i) row idx.
Proof.
  eexists. split; [apply argmax_ok|]. split.
  - rewrite zlen_map. unfold zlen. rewrite combine_length. pose proof (zlen_offs xs 0). unfold zlen in *. lia.
  - intros i row Hi. pose proof (rd_Some_bound _ _ _ Hi) as Hb. exists (argmax_elems row (first_index xs i) init (-1)). split.
    + rewrite rd_map. rewrite (rd_combine _ _ _ _ _ (rd_offs xs 0 i ltac:(lia)) Hi). reflexivity.
    + apply argmax_elems_ok.
Qed.

(** Whatever the order and the tree in which CUDA combines the elements, it returns what the CPU returns. *)
Theorem C72_cuda init xs :
  (forall out, Forall2 (cuda_result ladd init) xs out -> r_sum init (splits_of xs) (concat xs) = Some out) /\
  (forall out, Forall2 (cuda_result lmax init) xs out -> r_max init (splits_of xs) (concat xs) = Some out) /\
  (forall out, Forall2 (cuda_result lmin init) xs out -> r_min init (splits_of xs) (concat xs) = Some out) /\
  (forall out, Forall2 (cuda_result (logadd None) init) xs out -> r_logsumexp init (splits_of xs) (concat xs) = Some out) /\
  (forall out, zlen out = zlen xs ->
     (forall i row p, rd xs i = Some row -> rd out i = Some p -> cuda_result pair_max (init, -1) (number (first_index xs i) row) p) ->
     r_argmax init (splits_of xs) (concat xs) = Some (map snd out)).
Proof.
  assert (G : forall op, (forall x y z, op x (op y z) = op (op x y) z) -> (forall x y, op x y = op y x) ->
    forall out, Forall2 (cuda_result op init) xs out -> segmented_reduce op init (splits_of xs) (concat xs) = Some out).
  { intros op Ha Hc out H. rewrite segmented_ok. f_equal. induction H as [|row o xs' out' H1 H2 IH]; [reflexivity|]. cbn [map]. f_equal; auto.
    symmetry. now apply (cuda_fold op Ha Hc). }
  split; [|split; [|split; [|split]]].
  - intros out. apply (G ladd); intros; [apply ladd_assoc|apply ladd_comm].
  - intros out. apply (G lmax); intros; [apply lmax_assoc|apply lmax_comm].
  - intros out. apply (G lmin); intros; [apply lmin_assoc|apply lmin_comm].
  - intros out. apply (G (logadd None)); intros; [apply lse_assoc|apply lse_comm].
  - intros out HL H. rewrite argmax_ok. f_equal. apply rd_ext. intros i. rewrite !rd_map.
    destruct (rd xs i) as [row|] eqn:Hi.
    + pose proof (rd_Some_bound _ _ _ Hi) as Hb. destruct (rd_in_bound out i ltac:(lia)) as (p & Hp). rewrite Hp.
      rewrite (rd_combine _ _ _ _ _ (rd_offs xs 0 i ltac:(lia)) Hi). cbn [option_map fst snd]. f_equal.
      pose proof (off1_nonneg xs i). rewrite argmax_pairs by lia.
      f_equal. symmetry. apply (cuda_fold pair_max pair_max_assoc pair_max_comm). exact (H i row p Hi Hp).
    + assert (Hn : forall X (l : list X), zlen l = zlen xs -> rd l i = None).
      { intros X l El. destruct (rd l i) as [x|] eqn:E; auto. pose proof (rd_Some_bound _ _ _ E). destruct (rd_in_bound xs i ltac:(lia)) as (y & Hy). congruence. }
      rewrite (Hn _ out HL), Hn; [reflexivity|]. unfold zlen. rewrite combine_length. pose proof (zlen_offs xs 0). unfold zlen in *. lia.
Qed.

(** normalize(use_log=True): each element's share of its row's exponentials *)
Theorem C72_normalize_log xs : (forall row, In row xs -> row <> [] -> exists a, In (Some a) row) ->
  exists out, r_normalize_log (splits_of xs) (concat xs) = Some (concat out) /\
    Forall2 (fun row o => Forall2 (fun x y => expo y = (expo x / sumf expo row)%R) row o) xs out.
Proof.
  intros Hf. unfold r_normalize_log, r_logsumexp. rewrite segmented_ok. rewrite row_ids_of_splits.
  set (s := fun r : list (option R) => fold_left (fun v x => logadd None x v) r None).
  set (nu := fun r : list (option R) => map (fun x => match x, s r with Some a, Some b => Some (a - b)%R | _, _ => None end) r).
  assert (Es : forall r, expo (s r) = sumf expo r) by (intros r; unfold s; rewrite fold_lse; cbn; lra).
  assert (Hs : forall r, In r xs -> r <> [] -> exists b, s r = Some b).
  { intros r Hr Hn. destruct (Hf r Hr Hn) as (a & Ha). destruct (s r) as [b|] eqn:E; [eauto|]. exfalso. specialize (Es r). rewrite E in Es. change (expo None) with 0%R in Es.
    clear - Ha Es. assert (C : forall y l, sumf expo (y :: l) = (expo y + sumf expo l)%R) by reflexivity.
    assert (P : forall l, (0 <= sumf expo l)%R).
    { induction l as [|y l IHl]; [unfold sumf; cbn; lra|]. rewrite C. pose proof (expo_nonneg y). lra. }
    induction r as [|y r IH]; [destruct Ha|]. specialize (P r). rewrite C in Es. pose proof (expo_nonneg y).
    destruct Ha as [->|Ha]; [change (expo (Some a)) with (exp a) in *; pose proof (exp_pos a); lra|apply IH; [lra|auto]]. }
  exists (map nu xs). split.
  - apply (per_elem xs (map nu xs) (fun row i => n <- rd (map s xs) row;; x <- rd (concat xs) i;; lsub x n)).
    + rewrite map_map. apply map_ext. intros. apply zlen_map.
    + intros r k o c Ho Hc. rewrite rd_map in Ho. destruct (rd xs r) as [row|] eqn:Hr; [|discriminate]. injection Ho as <-.
      unfold nu in Hc. rewrite rd_map in Hc. destruct (rd row k) as [x|] eqn:Hk; [|discriminate]. injection Hc as <-.
      rewrite rd_map, Hr. cbn [option_map]. destruct (rd_concat_off xs r row k x Hr Hk) as (K1 & _). rewrite K1.
      destruct (Hs row) as (b & Hb); [eapply rd_In; eauto|intros ->; now rewrite rd_nil in Hk|]. rewrite Hb. cbn. destruct x; reflexivity.
  - apply Forall2_map_r. intros row Hr. unfold nu. apply Forall2_map_r. intros x Hx. rewrite <- Es.
    destruct (Hs row Hr) as (b & Hb); [intros ->; destruct Hx|]. rewrite Hb. destruct x as [a|]; cbn.
    + unfold Rminus. rewrite exp_plus, exp_Ropp. reflexivity.
    + unfold Rdiv. lra.
Qed.
(** A row that holds only -inf becomes NaN. *)
Theorem C72_normalize_ninf_refuted : r_normalize_log [0; 1; 3] [Some 0%R; None; None] = None.
Proof. reflexivity. Qed.

Lemma fold_plus row : forall i, fold_left (fun v x => x + v)%R row i = (i + rsum row)%R.
Proof. induction row as [|x row IH]; intros i; cbn [fold_left]; [unfold rsum; cbn; lra|]. rewrite IH, rsum_cons. lra. Qed.
(** normalize(use_log=False) *)
Theorem C72_normalize eps xs :
  r_normalize eps (splits_of xs) (concat xs) = Some (concat (map (fun row => map (fun x => x / (rsum row + eps))%R row) xs)).
Proof.
  unfold r_normalize. rewrite segmented_ok. rewrite row_ids_of_splits.
  apply (per_elem xs _ (fun row i => n <- rd (map (fun r => fold_left (fun v x => x + v)%R r 0%R) xs) row;; x <- rd (concat xs) i;; Some (x / (n + eps))%R)).
  - rewrite map_map. apply map_ext. intros. apply zlen_map.
  - intros r k o c Ho Hc. rewrite rd_map in Ho. destruct (rd xs r) as [row|] eqn:Hr; [|discriminate]. injection Ho as <-.
    rewrite rd_map in Hc. destruct (rd row k) as [x|] eqn:Hk; [|discriminate]. injection Hc as <-.
    rewrite rd_map, Hr. cbn [option_map]. destruct (rd_concat_off xs r row k x Hr Hk) as (K1 & _). rewrite K1.
    rewrite fold_plus. do 3 f_equal. lra.
Qed.
(** add: value[i] * alpha is added to every element of row i. *)
Theorem C72_add xs value alpha :
  (zlen value = zlen xs -> r_add (splits_of xs) (concat xs) value alpha =
     Some (concat (map (fun p => map (fun x => x + snd p * alpha)%R (fst p)) (combine xs value)))) /\
  (zlen value <> zlen xs -> r_add (splits_of xs) (concat xs) value alpha = None).
Proof.
  unfold r_add. rewrite zlen_splits_of. replace (zlen xs + 1 - 1) with (zlen xs) by lia. split; intros H.
  2:{ apply Z.eqb_neq in H. now rewrite H. }
  assert (E : zlen value =? zlen xs = true) by (apply Z.eqb_eq; exact H). rewrite E. rewrite row_ids_of_splits.
  apply (per_elem xs _ (fun row i => v <- rd value row;; x <- rd (concat xs) i;; Some (x + v * alpha)%R)).
  - rewrite map_map. apply rd_ext. intros i. rewrite !rd_map. destruct (rd xs i) as [row|] eqn:Hi.
    + pose proof (rd_Some_bound _ _ _ Hi). destruct (rd_in_bound value i ltac:(lia)) as (v & Hv). rewrite (rd_combine _ _ _ _ _ Hi Hv). cbn. now rewrite zlen_map.
    + destruct (rd (combine xs value) i) as [p|] eqn:Hp; auto. exfalso. apply rd_Some_bound in Hp. unfold zlen in Hp. rewrite combine_length in Hp.
      destruct (rd_in_bound xs i ltac:(unfold zlen; lia)) as (y & Hy). congruence.
  - intros r k o c Ho Hc. rewrite rd_map in Ho. destruct (rd (combine xs value) r) as [p|] eqn:Hp; [|discriminate]. injection Ho as <-.
    pose proof (rd_Some_bound _ _ _ Hp) as Hb. unfold zlen in Hb. rewrite combine_length in Hb.
    destruct (rd_in_bound xs r ltac:(unfold zlen; lia)) as (row & Hr). destruct (rd_in_bound value r ltac:(unfold zlen; lia)) as (v & Hv).
    rewrite (rd_combine _ _ _ _ _ Hr Hv) in Hp. injection Hp as <-. cbn [fst snd] in Hc.
    rewrite rd_map in Hc. destruct (rd row k) as [x|] eqn:Hk; [|discriminate]. injection Hc as <-.
    rewrite Hv. destruct (rd_concat_off xs r row k x Hr Hk) as (K1 & _). rewrite K1. reflexivity.
Qed.

(** ** Gradients *)
Lemma combine_rd {A B} (l : list A) (m : list B) i p : rd (combine l m) i = Some p -> rd l i = Some (fst p) /\ rd m i = Some (snd p).
Proof.
  intros Hp. pose proof (rd_Some_bound _ _ _ Hp) as Hb. unfold zlen in Hb. rewrite combine_length in Hb.
  destruct (rd_in_bound l i ltac:(unfold zlen; lia)) as (a & Ha). destruct (rd_in_bound m i ltac:(unfold zlen; lia)) as (b & Hb').
  rewrite (rd_combine _ _ _ _ _ Ha Hb') in Hp. injection Hp as <-. auto.
Qed.
Lemma combine_shape {A B C} (F : list A * B -> A -> C) (xs : list (list A)) (gl : list B) : zlen gl = zlen xs ->
  map zlen (map (fun p => map (F p) (fst p)) (combine xs gl)) = map zlen xs.
Proof.
  intros H. rewrite map_map. apply rd_ext. intros i. rewrite !rd_map. destruct (rd xs i) as [row|] eqn:Hi.
  - pose proof (rd_Some_bound _ _ _ Hi). destruct (rd_in_bound gl i ltac:(lia)) as (v & Hv). rewrite (rd_combine _ _ _ _ _ Hi Hv). cbn. now rewrite zlen_map.
  - destruct (rd (combine xs gl) i) as [p|] eqn:Hp; auto. apply combine_rd in Hp as (E & _). congruence.
Qed.
Lemma combine_entry {A B C} (F : list A * B -> A -> C) (xs : list (list A)) (gl : list B) i k o c :
  rd (map (fun p => map (F p) (fst p)) (combine xs gl)) i = Some o -> rd o k = Some c ->
  exists row g x, rd xs i = Some row /\ rd gl i = Some g /\ rd row k = Some x /\ c = F (row, g) x.
Proof.
  intros Ho Hc. rewrite rd_map in Ho. destruct (rd (combine xs gl) i) as [p|] eqn:Hp; [|discriminate]. injection Ho as <-.
  apply combine_rd in Hp as (E1 & E2). rewrite rd_map in Hc. destruct (rd (fst p) k) as [x|] eqn:Hk; [|discriminate]. injection Hc as <-.
  exists (fst p), (snd p), x. destruct p. auto.
Qed.
Lemma concat_some {A} (xs : list (list A)) : concat (map (map Some) xs) = map Some (concat xs).
Proof. symmetry. apply concat_map. Qed.
Lemma sumf_some row : sumf expo (map Some row) = rsum (map exp row).
Proof. induction row as [|x row IH]; [reflexivity|]. cbn [map]. rewrite rsum_cons, <- IH. reflexivity. Qed.

(** backward of sum is the gradient of sum, whatever the strides of the incoming gradient *)
Theorem C72_sum_grad init xs g gl : logical g (zlen xs) gl ->
  (forall ys, r_sum (Some init) (splits_of ys) (map Some (concat ys)) = Some (map Some (map (fun row => init + rsum row)%R ys))) /\
  exists grad, sum_backward (splits_of xs) (zlen (concat xs)) g = Some (concat grad) /\
    is_gradient (map (fun row => init + rsum row)%R) gl xs grad.
Proof.
  intros (HL & Hg). split.
  - intros ys. rewrite <- concat_some, <- (splits_map Some ys). unfold r_sum. rewrite segmented_ok, !map_map. f_equal. apply map_ext. intros row. apply fold_sum.
  - exists (map (fun p => map (fun _ => snd p) (fst p)) (combine xs gl)). split.
    + unfold sum_backward. rewrite row_ids_of_splits.
      apply (per_elem xs _ (fun row _ => rd (g_mem g) (row * g_stride g))); [now apply combine_shape|].
      intros r k o c Ho Hc. destruct (combine_entry (fun p _ => snd p) xs gl r k o c Ho Hc) as (row & gi & x & K1 & K2 & K3 & ->). auto.
    + split; [now apply combine_shape|]. intros i k d row' Ho Hc.
      destruct (combine_entry (fun p _ => snd p) xs gl i k row' d Ho Hc) as (row & gi & x & K1 & K2 & K3 & ->). cbn [snd].
      replace gi with (gi * 1)%R at 1 by lra. apply (grad_row (fun row => init + rsum row)%R gl xs i k row); auto. now apply (d_sum init row k x).
Qed.

Definition flse init (row : list R) : R := ln (expo init + rsum (map exp row))%R.
Lemma flse_pos init (row : list R) : (init <> None \/ row <> []) -> (0 < expo init + rsum (map exp row))%R.
Proof.
  intros H. pose proof (rsum_exp_nonneg row). pose proof (expo_nonneg init). destruct init as [a|].
  - change (expo (Some a)) with (exp a). pose proof (exp_pos a). lra.
  - destruct row as [|x row]; [destruct H; congruence|]. cbn [map]. rewrite rsum_cons. pose proof (rsum_exp_nonneg row). pose proof (exp_pos x). lra.
Qed.
Lemma lse_forward init ys : (forall row, In row ys -> init <> None \/ row <> []) ->
  r_logsumexp init (splits_of ys) (map Some (concat ys)) = Some (map Some (map (flse init) ys)).
Proof.
  intros H. rewrite <- concat_some, <- (splits_map Some ys). unfold r_logsumexp. rewrite segmented_ok, !map_map. f_equal. apply map_ext_in. intros row Hr.
  apply expo_inj. rewrite fold_lse, sumf_some. change (expo (Some (flse init row))) with (exp (flse init row)). unfold flse. rewrite exp_ln; [reflexivity|]. apply flse_pos. auto.
Qed.
(** backward of logsumexp, given what forward returned, is the gradient of logsumexp *)
Theorem C72_logsumexp_grad init xs g gl : logical g (zlen xs) gl -> (forall row, In row xs -> init <> None \/ row <> []) ->
  (forall ys, map zlen ys = map zlen xs ->
     r_logsumexp init (splits_of ys) (map Some (concat ys)) = Some (map Some (map (fun row => ln (expo init + rsum (map exp row)))%R ys))) /\
  exists out grad, r_logsumexp init (splits_of xs) (map Some (concat xs)) = Some out /\
    logsumexp_backward (splits_of xs) (map Some (concat xs)) out g = Some (concat grad) /\
    is_gradient (map (fun row => ln (expo init + rsum (map exp row)))%R) gl xs grad.
Proof.
  intros (HL & Hg) Hne. split.
  - intros ys E. apply lse_forward. intros row Hr. apply In_rd in Hr as (i & _ & Hi).
    assert (E' := f_equal (fun l => rd l i) E). cbn beta in E'. rewrite !rd_map, Hi in E'. destruct (rd xs i) as [row'|] eqn:Hx; [|discriminate].
    injection E' as E'. destruct (Hne row' (rd_In _ _ _ Hx)) as [N|N]; auto. right. intros ->. rewrite zlen_nil in E'. destruct row'; [congruence|]. rewrite zlen_cons in E'. pose proof (zlen_nonneg row'). lia.
  - exists (map Some (map (flse init) xs)), (map (fun p => map (fun x => snd p * exp (x - flse init (fst p)))%R (fst p)) (combine xs gl)).
    split; [now apply lse_forward|]. split.
    + unfold logsumexp_backward. rewrite zlen_map, row_ids_of_splits.
      apply (per_elem xs _ (fun row i => d <- rd (g_mem g) (row * g_stride g);; x <- rd (map Some (concat xs)) i;; s <- rd (map Some (map (flse init) xs)) row;;
                 p <- lexp_sub x s;; Some (d * p)%R)); [now apply (combine_shape (fun p x => snd p * exp (x - flse init (fst p)))%R)|].
      intros r k o c Ho Hc. destruct (combine_entry (fun p x => snd p * exp (x - flse init (fst p)))%R xs gl r k o c Ho Hc) as (row & gi & x & K1 & K2 & K3 & ->). cbn [fst snd].
      rewrite (Hg _ _ K2). rewrite rd_map. destruct (rd_concat_off xs r row k x K1 K3) as (K4 & _). rewrite K4. rewrite !rd_map, K1. reflexivity.
    + split; [now apply (combine_shape (fun p x => snd p * exp (x - flse init (fst p)))%R)|]. intros i k d row' Ho Hc.
      destruct (combine_entry (fun p x => snd p * exp (x - flse init (fst p)))%R xs gl i k row' d Ho Hc) as (row & gi & x & K1 & K2 & K3 & ->). cbn [fst snd].
      apply (grad_row _ gl xs i k row); auto. 
      replace (exp (x - flse init row)) with (exp x / (expo init + rsum (map exp row)))%R; [apply d_logsumexp; auto; apply expo_nonneg|].
      unfold flse, Rminus. rewrite exp_plus, exp_Ropp, exp_ln; [reflexivity|]. apply flse_pos. right. intros ->. now rewrite rd_nil in K3.
Qed.
(** A row of only -inf, with the default initial value: the gradient is NaN. *)
Theorem C72_logsumexp_ninf_refuted : exists out, r_logsumexp None [0; 1; 3] [Some 0%R; None; None] = Some out /\
  logsumexp_backward [0; 1; 3] [Some 0%R; None; None] out (mkVec1 [1%R; 1%R] 1) = None.
Proof. eexists. split; [vm_compute; reflexivity|]. reflexivity. Qed.

Lemma unflatten {A B} (xs : list (list A)) : forall gl : list B, zlen gl = zlen (concat xs) -> exists gls, map zlen gls = map zlen xs /\ concat gls = gl.
Proof.
  induction xs as [|r xs IH]; intros gl H.
  - exists []. split; auto. destruct gl; auto. cbn [concat] in H. rewrite zlen_nil, zlen_cons in H. pose proof (zlen_nonneg gl). lia.
  - cbn [concat] in H. rewrite zlen_app in H. destruct (IH (skipn (length r) gl)) as (gls & E1 & E2).
    { unfold zlen in *. rewrite skipn_length. lia. }
    exists (firstn (length r) gl :: gls). split.
    + cbn [map]. f_equal; auto. unfold zlen in *. rewrite firstn_length. lia.
    + cbn [concat]. rewrite E2. apply firstn_skipn.
Qed.
Lemma map_of_Forall2 {A B C} (P : B -> C -> Prop) (f : A -> B) (g : A -> C) ys : forall out, Forall2 P (map f ys) out ->
  (forall y b, In y ys -> P (f y) b -> b = g y) -> out = map g ys.
Proof.
  induction ys as [|y ys IH]; intros out H HP; inversion H; subst; [reflexivity|]. cbn [map]. f_equal; [apply HP; [now left|auto]|].
  apply IH; auto. intros. apply HP; auto. now right.
Qed.
Lemma norm_forward ys : r_normalize_log (splits_of ys) (map Some (concat ys)) = Some (map Some (concat (map lnorm ys))).
Proof.
  destruct (C72_normalize_log (map (map Some) ys)) as (out & E1 & E2).
  { intros row Hr Hn. apply in_map_iff in Hr as (r & <- & _). destruct r as [|a r]; [now contradiction Hn|]. exists a. now left. }
  rewrite splits_map, concat_some in E1. rewrite E1. f_equal. rewrite concat_map. f_equal. rewrite map_map.
  apply (map_of_Forall2 _ (map Some) _ _ _ E2). intros y b Hy Hb. unfold lnorm. rewrite map_map.
  apply (map_of_Forall2 _ Some _ _ _ Hb). intros x c Hx Hc. apply expo_inj. rewrite Hc, sumf_some.
  change (exp x / rsum (map exp y) = exp (x - ln (rsum (map exp y))))%R. unfold Rminus. rewrite exp_plus, exp_Ropp, exp_ln; [reflexivity|].
  pose proof (flse_pos None y) as P. change (expo None) with 0%R in P. rewrite Rplus_0_l in P. apply P. right. intros ->. destruct Hx.
Qed.
(** backward of normalize(use_log=True), given what forward returned, is the gradient
    of log-softmax -- also when the incoming gradient is an expanded scalar *)
Theorem C72_normalize_grad xs g gl : logical g (zlen (concat xs)) gl -> (g_stride g = 0 -> g_mem g <> []) ->
  (forall ys, r_normalize_log (splits_of ys) (map Some (concat ys)) = Some (map Some (concat (map lnorm ys)))) /\
  exists out grad, r_normalize_log (splits_of xs) (map Some (concat xs)) = Some out /\
    normalize_backward true (splits_of xs) out g = Some (concat grad) /\
    is_gradient (fun ys => concat (map lnorm ys)) gl xs grad.
Proof.
  intros (HL & Hg) H0. split; [apply norm_forward|].
  destruct (unflatten xs gl HL) as (gls & S1 & S2). destruct (shape_facts xs gls S1) as (F1 & F2 & F3 & F4 & F5).
  set (G := fun (p : list R * list R) (q : R * R) => (snd q - exp (fst q) * rsum (snd p))%R).
  set (grad := map (fun p => map (G p) (combine (lnorm (fst p)) (snd p))) (combine xs gls)).
  assert (Sh : map zlen grad = map zlen xs).
  { unfold grad. rewrite map_map. apply rd_ext. intros i. rewrite !rd_map. destruct (rd xs i) as [row|] eqn:Hi.
    - pose proof (rd_Some_bound _ _ _ Hi). destruct (rd_in_bound gls i ltac:(lia)) as (gr & Hv). rewrite (rd_combine _ _ _ _ _ Hi Hv). cbn [option_map fst snd].
      f_equal. rewrite zlen_map. assert (E := f_equal (fun l => rd l i) S1). cbn beta in E. rewrite !rd_map, Hi, Hv in E. injection E as E.
      unfold zlen in *. rewrite combine_length. unfold lnorm. rewrite map_length. lia.
    - destruct (rd (combine xs gls) i) as [p|] eqn:Hp; auto. apply combine_rd in Hp as (E & _). congruence. }
  assert (En : forall i k o c, rd grad i = Some o -> rd o k = Some c -> exists row gr x d, rd xs i = Some row /\ rd gls i = Some gr /\ rd row k = Some x /\ rd gr k = Some d /\
    zlen gr = zlen row /\ c = (d - exp (x - ln (rsum (map exp row))) * rsum gr)%R).
  { intros i k o c Ho Hc. unfold grad in Ho. rewrite rd_map in Ho. destruct (rd (combine xs gls) i) as [p|] eqn:Hp; [|discriminate]. injection Ho as <-.
    apply combine_rd in Hp as (E1 & E2). rewrite rd_map in Hc. destruct (rd (combine (lnorm (fst p)) (snd p)) k) as [q|] eqn:Hq; [|discriminate]. injection Hc as <-.
    apply combine_rd in Hq as (Q1 & Q2). unfold lnorm in Q1. rewrite rd_map in Q1. destruct (rd (fst p) k) as [x|] eqn:Hk; [|discriminate]. injection Q1 as Q1.
    exists (fst p), (snd p), x, (snd q). repeat (split; auto).
    - assert (E := f_equal (fun l => rd l i) S1). cbn beta in E. rewrite !rd_map, E1, E2 in E. now injection E.
    - unfold G. rewrite <- Q1. reflexivity. }
  exists (map Some (concat (map lnorm xs))), grad. split; [apply norm_forward|]. split.
  - unfold normalize_backward. rewrite zlen_map.
    assert (Ln : map zlen (map lnorm xs) = map zlen xs) by (rewrite map_map; apply map_ext; intros; apply zlen_map).
    destruct (shape_facts xs (map lnorm xs) Ln) as (N1 & N2 & N3 & N4 & N5). rewrite N2, row_ids_of_splits.
    assert (ES : (if negb (g_stride g =? 0) then
             logical <- mapM (fun i => rd (g_mem g) (i * g_stride g)) (zrange (zlen (concat xs)));;
             segmented_reduce Rplus 0%R (splits_of xs) logical
           else
             mapM (fun i => b <- rd (splits_of xs) i;; e <- rd (splits_of xs) (i + 1);; d <- rd (g_mem g) 0;; Some (IZR (e - b) * d)%R)
                  (zrange (zlen (splits_of xs) - 1))) = Some (map rsum gls)).
    { destruct (Z.eqb_spec (g_stride g) 0) as [E|E]; cbn [negb].
      - destruct (rd_in_bound (g_mem g) 0) as (d & Hd).
        { specialize (H0 E). destruct (g_mem g); [congruence|]. rewrite zlen_cons. pose proof (zlen_nonneg l). lia. }
        rewrite zlen_splits_of. replace (zlen xs + 1 - 1) with (zlen (map rsum gls)) by (rewrite zlen_map; lia).
        apply mapM_zrange. intros i c Hc. rewrite rd_map in Hc. destruct (rd gls i) as [gr|] eqn:Hi; [|discriminate]. injection Hc as <-.
        pose proof (rd_Some_bound _ _ _ Hi). rewrite <- F1. rewrite !rd_splits_off by lia. rewrite Hd. f_equal.
        rewrite (off1_next gls i gr Hi). replace (off1 gls i + zlen gr - off1 gls i) with (zlen gr) by lia.
        assert (All : forall y, In y gr -> y = d).
        { intros y Hy. apply In_rd in Hy as (k & _ & Hk). destruct (rd_concat_off gls i gr k y Hi Hk) as (K1 & _). rewrite S2 in K1. apply Hg in K1.
          rewrite E, Z.mul_0_r, Hd in K1. congruence. }
        clear - All. induction gr as [|y gr IH]; [rewrite zlen_nil; unfold rsum; cbn [fold_right]; lra|]. rewrite zlen_cons, plus_IZR, rsum_cons, Rmult_plus_distr_r.
        rewrite IH by (intros; apply All; now right). rewrite (All y) by now left. lra.
      - replace (zlen (concat xs)) with (zlen gl) by exact HL. rewrite (mapM_zrange gl); [|intros i x Hx; auto].
        rewrite <- F1, <- S2, segmented_ok. f_equal. apply map_ext. intros r. rewrite fold_plus. lra. }
    rewrite ES. 
    apply (per_elem xs grad (fun row i => scale <- rd (map rsum gls) row;; d <- rd (g_mem g) (i * g_stride g);; o <- rd (map Some (concat (map lnorm xs))) i;;
                 Some (d - expo o * scale)%R) Sh).
    intros r k o c Ho Hc. destruct (En r k o c Ho Hc) as (row & gr & x & d & K1 & K2 & K3 & K4 & K5 & ->).
    pose proof (rd_Some_bound _ _ _ K1). rewrite rd_map, K2. cbn [option_map].
    destruct (rd_concat_off gls r gr k d K2 K4) as (K6 & _). rewrite S2, F5 in K6 by lia. rewrite (Hg _ _ K6). rewrite rd_map.
    assert (K7 : rd (map lnorm xs) r = Some (lnorm row)) by (rewrite rd_map, K1; reflexivity).
    assert (K8 : rd (lnorm row) k = Some (x - ln (rsum (map exp row)))%R) by (unfold lnorm; rewrite rd_map, K3; reflexivity).
    destruct (rd_concat_off _ _ _ _ _ K7 K8) as (K9 & _). rewrite N5 in K9 by lia. rewrite K9. reflexivity.
  - split; [exact Sh|]. intros i k d' row' Ho Hc. destruct (En i k row' d' Ho Hc) as (row & gr & x & d & K1 & K2 & K3 & K4 & K5 & ->).
    destruct (split_same xs gls i row F4 K1) as (l1 & l2 & g1 & y & g2 & E1 & E2 & L1 & G1 & Hy). rewrite K2 in Hy. injection Hy as <-.
    apply (derivable_pt_lim_ext (fun h => (dot (concat g1) (concat (map lnorm l1)) + dot (concat g2) (concat (map lnorm l2))) + 1 * dot gr (lnorm (bump1 row k h)))%R).
    + intros h. rewrite <- S2, E1, E2, <- L1, bump_split, map_app, !concat_app. cbn [map concat].
      assert (Z1 : zlen (concat g1) = zlen (concat (map lnorm l1))).
      { rewrite E1, E2, !map_app in S1. cbn [map] in S1. rewrite <- !zsum_zlen_concat. f_equal. rewrite map_map.
        rewrite (map_ext (fun x => zlen (lnorm x)) zlen) by (intros; apply zlen_map).
        assert (LL : length (map zlen g1) = length (map zlen l1)) by (rewrite !map_length; unfold zlen in *; lia).
        clear - S1 LL. revert S1 LL. generalize (map zlen g1), (map zlen l1). intros u. induction u as [|a u IH]; intros [|b v] S1 LL; try discriminate; auto.
        cbn in S1. injection S1 as -> S1. f_equal. apply IH; auto. }
      rewrite (dot_app (concat g1)) by exact Z1. rewrite dot_app; [lra|]. rewrite K5. unfold lnorm. rewrite zlen_map, zlen_bump1. reflexivity.
    + rewrite <- (Rmult_1_l (d - _)). apply d_affine. now apply d_norm.
Qed.
(** with use_log=False there is no backward: it is refused *)
Theorem C72_normalize_no_log_grad row_splits out g : normalize_backward false row_splits out g = None.
Proof. reflexivity. Qed.

Print Assumptions C72_sum.
Print Assumptions C72_max.
Print Assumptions C72_min.
Print Assumptions C72_logsumexp.
Print Assumptions C72_argmax.
Print Assumptions C72_cuda.
Print Assumptions C72_normalize_log.
Print Assumptions C72_normalize.
Print Assumptions C72_add.
Print Assumptions C72_sum_grad.
Print Assumptions C72_logsumexp_grad.
Print Assumptions C72_normalize_grad.

(** Two rows and an empty one; ties, an expanded scalar as the gradient *)
Example C72_ex :
  let xs := [[Some 1%R; Some 2%R; Some 2%R]; []; [Some (-1)%R; None]] in
  splits_of xs = [0; 3; 3; 5] /\
  (forall row, In row xs -> row <> [] -> exists a, In (Some a) row) /\
  (exists idx, r_argmax (Some 0%R) (splits_of xs) (concat xs) = Some idx /\ is_argmax (Some 0%R) 0 [Some 1%R; Some 2%R; Some 2%R] 2 /\ is_argmax (Some 0%R) 3 [Some (-1)%R; None] (-1)) /\
  logical (mkVec1 [1%R] 0) 3 [1%R; 1%R; 1%R] /\ logical (mkVec1 [1%R; 9%R; 2%R; 9%R; 3%R] 2) 3 [1%R; 2%R; 3%R] /\
  cuda_result lmax (Some 0%R) [Some 1%R; Some 2%R] (lmax (lmax (Some 2%R) (Some 0%R)) (Some 1%R)).
Proof.
  intros xs. split; [reflexivity|]. split; [|split; [|split; [|split]]].
  - intros row [<-|[<-|[<-|[]]]] H; [exists 1%R|congruence|exists (-1)%R]; now left.
  - eexists. split; [apply argmax_ok|]. split.
    + right. exists 2, (Some 2%R). split; [reflexivity|]. split; [reflexivity|]. split; [cbn; lra|]. split.
      * intros x [<-|[<-|[<-|[]]]]; cbn; lra.
      * intros k' x H1 H2. apply rd_Some_bound in H2. change (zlen [Some 1%R; Some 2%R; Some 2%R]) with 3 in H2. lia.
    + left. split; [reflexivity|]. intros x [<-|[<-|[]]]; cbn; try lra.
  - split; [reflexivity|]. intros i d H. cbn [g_mem g_stride]. rewrite Z.mul_0_r. apply rd_In in H as [<-|[<-|[<-|[]]]]; reflexivity.
  - split; [reflexivity|]. intros i d H. pose proof (rd_Some_bound _ _ _ H) as B. change (zlen [1%R; 2%R; 3%R]) with 3 in B.
    assert (C : i = 0 \/ i = 1 \/ i = 2) by lia. destruct C as [->|[->| ->]]; exact H.
  - exists (RNode (RNode (RLeaf (Some 2%R)) (RLeaf (Some 0%R))) (RLeaf (Some 1%R))). split; [|reflexivity]. cbn [rleaves app].
    apply perm_trans with (Some 0%R :: [Some 2%R; Some 1%R]); [apply perm_swap|apply perm_skip, perm_swap].
Qed.
