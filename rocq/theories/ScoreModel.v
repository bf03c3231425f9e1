(** * Model of the forward / backward scores, total scores and arc posteriors.

    Scores are exact reals extended with -infinity (LogReal); the scores of the
    arcs are the array [scores], one entry per arc of the FsaVec (fsa.py:224: the
    last column of the arcs).  The cut-off and the rounding of LogAdd are not
    modelled here. *)
From Coq Require Import ZArith List Bool Reals.
From Verif Require Import Base RaggedModel FsaSpec RaggedOpsModel ReverseModel LogReal BatchModel.
Import ListNotations.
Open Scope Z_scope.

Definition is_ninf (x : option R) : bool := match x with None => true | Some _ => false end.
(** max on scores *)
Definition lmax (x y : option R) : option R :=
  match x, y with None, _ => y | _, None => x | Some a, Some b => Some (Rmax a b) end.
(** elem >= val *)
Definition lge (x y : option R) : bool :=
  match x, y with _, None => true | None, Some _ => false | Some a, Some b => if Rle_dec b a then true else false end.

(** ragged_ops_inl.h:645-660 ArgMaxPerSublist on one sub-list: the (value, arc)
    found, (-inf, -1) for an empty one.  [qs] are the arcs of the sub-list.  The
    CUDA operator PairMaxOp (591-600) makes the same choice. *)
Fixpoint argmax_loop (vals : list (option R)) (qs : list Z) (val : option R) (idx : Z) : option R * Z :=
  match vals, qs with
  | e :: vals', q :: qs' => if lge e val then argmax_loop vals' qs' e q else argmax_loop vals' qs' val idx
  | _, _ => (val, idx)
  end.

(** How the scores of the arcs of a state are combined, and the arc recorded
    in entering_arcs (-1: none).
    fsa_utils.cu:1205-1252 (forward): LogSumPerSublist, or ArgMaxPerSublist in the
    tropical semiring; 1420-1427 (backward): LogSumPerSublist or MaxPerSublist. *)
Definition reduce_fw (log_semiring : bool) (vals : list (option R)) (qs : list Z) : option R * Z :=
  if log_semiring then (fold_left (logadd None) vals None, -1) else argmax_loop vals qs None (-1).
Definition reduce_bw (log_semiring : bool) (vals : list (option R)) (qs : list Z) : option R * Z :=
  ((if log_semiring then fold_left (logadd None) vals None else fold_left lmax vals None), -1).

(** One iteration of the loop over batches: fsa_utils.cu:1180-1273 (forward),
    1389-1452 (backward).  [other] is the state at the other end of an arc (source
    / destination), [keep] tells the states whose score must not be replaced by
    -inf (start / final).  [ord]: the order in which a kernel runs its threads.
    The second component of the state is entering_arcs. *)
Definition pass_step (reduce : list (option R) -> list Z -> option R * Z) (ord : Z -> list Z)
    (other : Z -> option Z) (keep : Z -> option bool) (rs1 rs2 states rs3 vals : list Z) (scores : list (option R))
    (st : list (option R) * list Z) (i : Z) : option (list (option R) * list Z) :=
  b0 <- rd rs1 i;; e0 <- rd rs1 (i + 1);; b <- rd rs2 b0;; e <- rd rs2 e0;;
  red <- mapM (fun x =>
           y0 <- rd rs3 (b + x);; y1 <- rd rs3 (b + x + 1);;
           qs <- mapM (fun y => rd vals (y0 + y)) (zrange (y1 - y0));;
           sc <- mapM (fun q => o <- other q;; a <- rd (fst st) o;; w <- rd scores q;; Some (ladd a w)) qs;;
           Some (reduce sc qs)) (zrange (e - b));;
  ent <- k2_eval (ord (e - b)) (fun x => s <- rd states (b + x);; r <- rd red x;; Some [(s, snd r)]) (map Some (snd st));;
  sts <- k2_eval (ord (e - b)) (fun x => s <- rd states (b + x);; r <- rd red x;; k <- keep s;;
                                         Some (if is_ninf (fst r) && k then [] else [(s, fst r)])) (map Some (fst st));;
  ent' <- freeze ent;; sts' <- freeze sts;; Some (sts', ent').

Fixpoint foldB {S} (f : S -> Z -> option S) (l : list Z) (s : S) : option S :=
  match l with [] => Some s | x :: l' => s' <- f s x;; foldB f l' s' end.

(** The initial scores (1155-1164, 1374-1382): 0 at [cell b e] of every FSA
    that has states. *)
Definition init_scores (ord : Z -> list Z) (cell : Z -> Z -> Z) (v : fsavec) : option (list (option R)) :=
  m <- k2_eval (ord (zlen (v_rs1 v) - 1)) (fun k => b <- rd (v_rs1 v) k;; e <- rd (v_rs1 v) (k + 1);;
         Some (if 0 <? e - b then [(cell b e, lzero)] else []))
       (repeat (Some lninf) (Z.to_nat (zlen (v_rs2 v) - 1)));;
  freeze m.

(** fsa.py:590-624 _get_forward_scores, on a fresh cache: state batches,
    incoming arcs, entering arc batches, then fsa_utils.cu:1125-1278
    GetForwardScores.  Result: the scores and entering_arcs (meaningful in the
    tropical semiring only). *)
Definition get_forward_scores (log_semiring : bool) (log_power : nat) (sched : list Z) (ord : Z -> list Z)
    (v : fsavec) (scores : list (option R)) : option (list (option R) * list Z) :=
  sb <- get_state_batches log_power sched v;;
  let '(l1, l2, states) := sb in
  let num_states := zlen (v_rs2 v) - 1 in
  rids1 <- row_splits_to_row_ids (v_rs1 v) num_states;;
  rids2 <- row_splits_to_row_ids (v_rs2 v) (zlen (v_arcs v));;
  dests <- dest_states01 v rids2;;
  inc <- incoming_arcs num_states dests;;
  let '(inc_rs2, _, inc_vals) := inc in
  eb <- entering_arc_batches v inc_rs2 inc_vals states;;
  let '(rs3, vals) := eb in
  init <- init_scores ord (fun b _ => b) v;;
  foldB (pass_step (reduce_fw log_semiring) ord (rd rids2)
           (fun s => k <- rd rids1 s;; b <- rd (v_rs1 v) k;; Some (s =? b))
           (l_rs l1) (l_rs l2) states rs3 vals scores)
        (zrange (zlen (l_rs l1) - 1)) (init, repeat (-1) (Z.to_nat num_states)).

(** fsa.py:695-735 _get_backward_scores and fsa_utils.cu:1347-1455
    GetBackwardScores. *)
Definition get_backward_scores (log_semiring : bool) (log_power : nat) (sched : list Z) (ord : Z -> list Z)
    (v : fsavec) (scores : list (option R)) : option (list (option R)) :=
  sb <- get_state_batches log_power sched v;;
  let '(l1, l2, states) := sb in
  let num_states := zlen (v_rs2 v) - 1 in
  rids1 <- row_splits_to_row_ids (v_rs1 v) num_states;;
  rids2 <- row_splits_to_row_ids (v_rs2 v) (zlen (v_arcs v));;
  lb <- leaving_arc_batches v states;;
  let '(rs3, vals) := lb in
  init <- init_scores ord (fun _ e => e - 1) v;;
  r <- foldB (pass_step (reduce_bw log_semiring) ord
           (fun q => a <- rd (v_arcs v) q;; s01 <- rd rids2 q;; Some (s01 - src a + dst a))
           (fun s => k <- rd rids1 s;; e <- rd (v_rs1 v) (k + 1);; Some (s + 1 =? e))
           (l_rs l1) (l_rs l2) states rs3 vals scores)
        (rev (zrange (zlen (l_rs l1) - 1))) (init, repeat (-1) (Z.to_nat num_states));;
  Some (fst r).

(** fsa_utils.cu:1810-1838 GetTotScores *)
Definition tot_scores_of (v : fsavec) (fw : list (option R)) : option (list (option R)) :=
  check (zlen fw =? zlen (v_rs2 v) - 1);;
  mapM (fun k => b <- rd (v_rs1 v) k;; e <- rd (v_rs1 v) (k + 1);; if b <? e then rd fw (e - 1) else Some lninf)
       (zrange (zlen (v_rs1 v) - 1)).
(** fsa.py:646-674 _get_tot_scores *)
Definition get_tot_scores (log_semiring : bool) (log_power : nat) (sched : list Z) (ord : Z -> list Z)
    (v : fsavec) (scores : list (option R)) : option (list (option R)) :=
  fw <- get_forward_scores log_semiring log_power sched ord v scores;; tot_scores_of v (fst fw).

(** fsa_utils.cu:1840-1910 GetArcPost *)
Definition lhalf (x : option R) : option R := option_map (fun r => (/ 2 * r)%R) x.
Definition lneg (x : option R) : option R := option_map Ropp x.
Definition arc_post_of (v : fsavec) (scores fw bw : list (option R)) : option (list (option R)) :=
  let num_states := zlen (v_rs2 v) - 1 in
  check (num_states =? zlen fw);; check (num_states =? zlen bw);;
  rids1 <- row_splits_to_row_ids (v_rs1 v) num_states;;
  rids2 <- row_splits_to_row_ids (v_rs2 v) (zlen (v_arcs v));;
  neg <- mapM (fun k => b <- rd (v_rs1 v) k;; e <- rd (v_rs1 v) (k + 1);;
                 if b =? e then Some (lneg lzero)
                 else x <- rd fw (e - 1);; y <- rd bw b;; Some (lneg (lhalf (ladd x y))))
              (zrange (zlen (v_rs1 v) - 1));;
  mapM (fun q => a <- rd (v_arcs v) q;; w <- rd scores q;; i01 <- rd rids2 q;; i0 <- rd rids1 i01;; i0x <- rd (v_rs1 v) i0;;
                 f <- rd fw (i0x + src a);; g <- rd bw (i0x + dst a);; n <- rd neg i0;;
                 Some (ladd (ladd (ladd w f) g) n))
       (zrange (zlen (v_arcs v))).
(** fsa.py:754-788 _get_arc_post *)
Definition get_arc_post (log_semiring : bool) (log_power : nat) (sched : list Z) (ord : Z -> list Z)
    (v : fsavec) (scores : list (option R)) : option (list (option R)) :=
  fw <- get_forward_scores log_semiring log_power sched ord v scores;;
  bw <- get_backward_scores log_semiring log_power sched ord v scores;;
  arc_post_of v scores (fst fw) bw.

(** python/csrc/torch/fsa.cu:544-592 GetTotScoresLogBackward: the gradient
    w.r.t. the arc scores, and autograd.py:74-113 _GetTotScoresFunction.backward
    for log_semiring = True. *)
Definition tot_scores_log_backward (v : fsavec) (arc_post : list (option R)) (tot_grad : list R) : option (list R) :=
  rids1 <- row_splits_to_row_ids (v_rs1 v) (zlen (v_rs2 v) - 1);;
  rids2 <- row_splits_to_row_ids (v_rs2 v) (zlen (v_arcs v));;
  check (zlen (v_arcs v) =? zlen arc_post);; check (zlen tot_grad =? zlen (v_rs1 v) - 1);;
  mapM (fun q => s <- rd rids2 q;; k <- rd rids1 s;; p <- rd arc_post q;; g <- rd tot_grad k;; Some (expo p * g)%R)
       (zrange (zlen (v_arcs v))).
Definition tot_scores_backward_log (log_power : nat) (sched : list Z) (ord : Z -> list Z)
    (v : fsavec) (scores : list (option R)) (tot_grad : list R) : option (list R) :=
  post <- get_arc_post true log_power sched ord v scores;; tot_scores_log_backward v post tot_grad.
