(** * Model of IntersectDevice (k2/csrc/intersect.cu:85-1378), which
      k2.intersect_device (k2/python/k2/fsa_algo.py) calls.

    Scores are exact integers.  The hash from state pairs to states is a finite
    map given as an association list: Insert, Find and SetValue are those of
    hash.h, and the kernel that inserts runs its indexes in an arbitrary order.
    Not modelled: the choice of hash accessor, resizing of the hash, and the
    FATAL errors for problems with more than 2^30 arc pairs or more states than
    the hash values can hold (int32 indexes do not overflow in the model). *)
From Coq Require Import ZArith List Lia Bool.
From Verif Require Import Base RaggedModel FsaSpec RaggedOpsModel OpsModel PropsModel IDenseModel.
Import ListNotations.
Open Scope Z_scope.

(** hash.h Find, Insert (true iff the key was new) and SetValue *)
Definition hmap := list (Z * Z).
Fixpoint hfind (h : hmap) (key : Z) : option Z :=
  match h with
  | [] => None
  | (k, v) :: t => if k =? key then Some v else hfind t key
  end.
Definition hset (h : hmap) (key v : Z) : hmap := (key, v) :: h.

(** intersect.cu:57-80 StateInfo (a_fsas_state_idx01, b_fsas_state_idx01) and
    ArcInfo (a_arc_idx012, b_arc_idx012) are pairs.  [d_rows] is arcs_row_ids_,
    [d_iters] iter_to_state_row_splits_cpu_. *)
Record dint := mkDint {
  d_states : list (Z * Z); d_iters : list Z; d_arcs : list (Z * Z); d_rows : list Z; d_hash : hmap }.

(** 103-108: a_states_multiple_ = b_fsas_.TotSize(1) | 1 *)
Definition multiple (vb : fsavec) : Z := Z.lor (zlen (v_rs2 vb) - 1) 1.

(** 140-197 FirstIter: the object and final_states_ *)
Definition first_iter (ord : Z -> list Z) (va vb : fsavec) (b2a : list Z) : option (dint * list (Z * Z)) :=
  let num_fsas := zlen (v_rs1 vb) - 1 in
  keep <- mapM (fun i =>
      b1 <- rd (v_rs1 vb) (i + 1);; b0 <- rd (v_rs1 vb) i;;
      ia <- rd b2a i;;
      a1 <- rd (v_rs1 va) (ia + 1);; a0 <- rd (v_rs1 va) ia;;
      Some ((a0 <? a1) && (b0 <? b1))) (zrange num_fsas);;
  n2o <- new2old (ord (num_fsas + 1)) keep;;
  st <- mapM (fun b0 =>
      b01 <- rd (v_rs1 vb) b0;; ia <- rd b2a b0;; a01 <- rd (v_rs1 va) ia;;
      ae <- rd (v_rs1 va) (ia + 1);; be <- rd (v_rs1 vb) (b0 + 1);;
      Some ((a01, b01), (ae - 1, be - 1))) n2o;;
  Some (mkDint (map fst st) [0; zlen n2o] [] [] [], map snd st).

(** A pair of arcs considered in one iteration: the state (index into states_),
    a_arc_idx012, b_arc_idx012 and keep_arc. *)
Record cand := mkCand { c_st : Z; c_a : Z; c_b : Z; c_keep : bool }.

(** 407-484 Forward and 554-577: all pairs of arcs leaving the states
    [state_begin .. state_end-1] *)
Definition cands_all (va vb : fsavec) (states : list (Z * Z)) (state_begin state_end : Z) : option (list cand) :=
  nums <- mapM (fun i =>
      s <- rd states (state_begin + i);;
      b0 <- rd (v_rs2 vb) (snd s);; b1 <- rd (v_rs2 vb) (snd s + 1);;
      a0 <- rd (v_rs2 va) (fst s);; a1 <- rd (v_rs2 va) (fst s + 1);;
      Some (b1 - b0, (b1 - b0) * (a1 - a0))) (zrange (state_end - state_begin));;
  let rs_ab := exsum (map snd nums) in
  tot_ab <- rd rs_ab (state_end - state_begin);;
  ids_ab <- row_splits_to_row_ids rs_ab tot_ab;;
  mapM (fun i =>
      state_i <- rd ids_ab i;; x <- rd rs_ab state_i;; nb <- rd nums state_i;;
      let pair := i - x in
      s <- rd states (state_i + state_begin);;
      let a2 := pair / fst nb in let b2 := pair mod fst nb in
      a0 <- rd (v_rs2 va) (fst s);; b0 <- rd (v_rs2 vb) (snd s);;
      a <- rd (v_arcs va) (a0 + a2);; b <- rd (v_arcs vb) (b0 + b2);;
      Some (mkCand (state_i + state_begin) (a0 + a2) (b0 + b2) (lab a =? lab b))) (zrange tot_ab).

(** 1025-1040: the first index in [lo, hi) whose label (as uint32) is not less
    than [l]; [fuel] bounds the number of halvings *)
Fixpoint lower_bound (fuel : nat) (arcs : list arc) (l lo hi : Z) : option Z :=
  if lo <? hi then
    match fuel with
    | O => None
    | S n =>
        let mid := (lo + hi) / 2 in
        a <- rd arcs mid;;
        if u32 (lab a) <? l then lower_bound n arcs l (mid + 1) hi else lower_bound n arcs l lo mid
    end
  else Some lo.
(** 1054-1061: the end of the run of labels equal to [l] *)
Fixpoint run_end (fuel : nat) (arcs : list arc) (l i hi : Z) : option Z :=
  if i <? hi then
    match fuel with
    | O => None
    | S n => a <- rd arcs i;; if u32 (lab a) =? l then run_end n arcs l (i + 1) hi else Some i
    end
  else Some i.
(** 1018-1064 (CPU; the search by thread groups on GPU, 856-1000, is not
    modelled): the range of arcs of [a] in [lo, hi) that match [l] *)
Definition matching (arcs : list arc) (l lo hi : Z) : option (Z * Z) :=
  let fuel := Z.to_nat (hi - lo) in
  begin <- lower_bound fuel arcs l lo hi;;
  ok1 <- (if begin <? hi then x <- rd arcs begin;; Some (l <=? u32 (lab x)) else Some true);;
  check ok1;;
  ok2 <- (if lo <? begin - 1 then x <- rd arcs (begin - 1);; Some (u32 (lab x) <? l) else Some true);;
  check ok2;;
  e <- run_end fuel arcs l begin hi;;
  Some (begin, e - begin).

(** 786-1066 ForwardSortedA and 1177-1207: for each state and each arc of [b]
    leaving it, the matching arcs of [a] *)
Definition cands_sorted (va vb : fsavec) (states : list (Z * Z)) (state_begin state_end : Z) : option (list cand) :=
  nums <- mapM (fun i =>
      s <- rd states (state_begin + i);;
      b0 <- rd (v_rs2 vb) (snd s);; b1 <- rd (v_rs2 vb) (snd s + 1);;
      Some (b1 - b0)) (zrange (state_end - state_begin));;
  let rs_b := exsum nums in
  num_b <- rd rs_b (state_end - state_begin);;
  ids_b <- row_splits_to_row_ids rs_b num_b;;
  ms <- mapM (fun i =>
      state_i <- rd ids_b i;; x <- rd rs_b state_i;;
      s <- rd states (state_begin + state_i);;
      b0 <- rd (v_rs2 vb) (snd s);;
      a0 <- rd (v_rs2 va) (fst s);; a1 <- rd (v_rs2 va) (fst s + 1);;
      b <- rd (v_arcs vb) (b0 + (i - x));;
      matching (v_arcs va) (u32 (lab b)) a0 a1) (zrange num_b);;
  let rs_m := exsum (map snd ms) in
  tot <- rd rs_m num_b;;
  ids_m <- row_splits_to_row_ids rs_m tot;;
  mapM (fun i =>
      b_i <- rd ids_m i;; y <- rd rs_m b_i;;
      state_i <- rd ids_b b_i;; x <- rd rs_b state_i;;
      s <- rd states (state_begin + state_i);;
      b0 <- rd (v_rs2 vb) (snd s);;
      m <- rd ms b_i;;
      b <- rd (v_arcs vb) (b0 + (b_i - x));; a <- rd (v_arcs va) (fst m + (i - y));;
      check (lab b =? lab a);;
      Some (mkCand (state_begin + state_i) (fst m + (i - y)) (b0 + (b_i - x)) true)) (zrange tot).

(** 581-592, 1211-1221: the hash key of the destination of a kept pair whose
    label is not -1, as (a_dest_state_idx1, b_dest_state_idx01) and key *)
Definition dest_key (va vb : fsavec) (states : list (Z * Z)) (c : cand) : option (option (Z * Z * Z)) :=
  a <- rd (v_arcs va) (c_a c);; b <- rd (v_arcs vb) (c_b c);;
  if c_keep c && negb (lab a =? -1) then
    s <- rd states (c_st c);;
    let b01 := dst b + snd s - src b in
    Some (Some (dst a, b01, dst a * multiple vb + b01))
  else Some None.

(** 554-606, 1177-1245: the kernel; the indexes run in the order [sched].
    Result: the hash, and the indexes whose Insert succeeded.  The inserted
    value is replaced below. *)
Fixpoint insert_all (keys : list (option (Z * Z * Z))) (sched : list Z) (h : hmap) (won : list Z) : option (hmap * list Z) :=
  match sched with
  | [] => Some (h, won)
  | i :: t =>
      k <- rd keys i;;
      match k with
      | None => insert_all keys t h won
      | Some (_, _, key) =>
          match hfind h key with
          | Some _ => insert_all keys t h won
          | None => insert_all keys t (hset h key i) (i :: won)
          end
      end
  end.

(** 508-770 ForwardOneIter, 1119-1284 ForwardSortedAOneIter.  The renumbering of
    arcs and the one of states are combined in 546-616 ([sorted] = false); here
    they are two.  The loops at 620-666 and 1259-1282 write hash values and
    states at distinct places, so they are done in index order; for [sorted] the
    location returned by Insert is found again by its key. *)
Definition one_iter (ord : Z -> list Z) (sorted : bool) (va vb : fsavec) (ids1b b2a : list Z) (state_end : Z)
           (d : dint) (cs : list cand) : option dint :=
  let n := zlen cs in
  keys <- mapM (dest_key va vb (d_states d)) cs;;
  r <- insert_all keys (ord n) (d_hash d) [];;
  let '(h, won) := r in
  arcs_n2o <- new2old (ord (n + 1)) (map c_keep cs);;
  states_n2o <- new2old (ord (n + 1)) (map (fun i => existsb (Z.eqb i) won) (zrange n));;
  new <- mapM (fun i =>
      c <- rd cs i;; k <- rd keys i;;
      match k with
      | None => None
      | Some (a1, b01, key) =>
          check (match hfind h key with Some _ => true | None => false end);;
          st <- (if sorted then
                   s <- rd (d_states d) (c_st c);; a <- rd (v_arcs va) (c_a c);;
                   Some (a1 + (fst s - src a), key mod multiple vb)
                 else
                   f <- rd ids1b b01;; ia <- rd b2a f;; x <- rd (v_rs1 va) ia;;
                   Some (x + a1, b01));;
          Some (key, st)
      end) states_n2o;;
  kept <- mapM (rd cs) arcs_n2o;;
  Some (mkDint (d_states d ++ map snd new)
               (d_iters d ++ [state_end + zlen new])
               (d_arcs d ++ map (fun c => (c_a c, c_b c)) kept)
               (d_rows d ++ map c_st kept)
               (fold_left (fun h x => hset h (fst (snd x)) (fst x)) (imap (fun i x => (state_end + i, x)) 0 new) h)).

(** 407-484 Forward, 786-1091 ForwardSortedA: the loop over iterations *)
Fixpoint forward (fuel : nat) (ord : Z -> list Z) (sorted : bool) (va vb : fsavec) (ids1b b2a : list Z) (t : Z) (d : dint) : option dint :=
  match fuel with
  | O => None
  | S n =>
      check (t + 2 =? zlen (d_iters d));;
      state_begin <- rd (d_iters d) t;; state_end <- rd (d_iters d) (t + 1);;
      if state_end - state_begin =? 0 then
        Some (mkDint (d_states d) (removelast (d_iters d)) (d_arcs d) (d_rows d) (d_hash d))
      else
        cs <- (if sorted then cands_sorted va vb (d_states d) state_begin state_end
               else cands_all va vb (d_states d) state_begin state_end);;
        d' <- one_iter ord sorted va vb ids1b b2a state_end d cs;;
        forward n ord sorted va vb ids1b b2a (t + 1) d'
  end.

(** 199-210 LastIter *)
Definition last_iter (d : dint) (final_states : list (Z * Z)) : option dint :=
  e <- rd (d_iters d) (zlen (d_iters d) - 1);;
  check (zlen (d_states d) =? e);;
  Some (mkDint (d_states d ++ final_states) (d_iters d ++ [zlen (d_states d) + zlen final_states])
               (d_arcs d) (d_rows d) (d_hash d)).

(** ragged_ops.cu RegularRaggedShape *)
Definition regular_layer (n m : Z) : layer :=
  mk_layer (map (fun i => i * m) (zrange (n + 1))) (map (fun i => i / m) (zrange (n * m))).

(** 250-405 FormatOutputTpl *)
Definition format_output (ord : Z -> list Z) (va vb : fsavec) (ids1b : list Z) (d : dint) : option (fsavec * list Z * list Z) :=
  let num_iters := zlen (d_iters d) - 1 in
  let num_fsas := zlen (v_rs1 vb) - 1 in
  num_states <- rd (d_iters d) num_iters;;
  check (num_states =? zlen (d_states d));;
  iters <- row_splits_to_row_ids (d_iters d) num_states;;
  ids2 <- mapM (fun i =>
      it <- rd iters i;; s <- rd (d_states d) i;; f <- rd ids1b (snd s);;
      Some (it * num_fsas + f)) (zrange num_states);;
  rs2 <- row_ids_to_row_splits ids2 (num_iters * num_fsas);;
  let fsaiter := map (fun i => (i mod num_iters) * num_fsas + i / num_iters) (zrange (num_iters * num_fsas)) in
  rs3 <- row_ids_to_row_splits (d_rows d) num_states;;
  l2 <- index_axis0 [mk_layer rs2 ids2] fsaiter;;
  l3 <- index_axis0 [mk_layer rs3 (d_rows d)] (snd l2);;
  sh <- remove_axis ([regular_layer num_fsas num_iters] ++ fst l2 ++ fst l3) 1;;
  match sh with
  | [s1; s2] =>
      let num_arcs := zlen (d_arcs d) in
      check (zlen (l_ids s2) =? num_arcs);;
      o2n <- invert_permutation ord (snd l2);;
      ids2b <- row_splits_to_row_ids (v_rs2 vb) (zlen (v_arcs vb));;
      out <- mapM (fun i =>
          src_st <- rd (l_ids s2) i;;
          old <- rd (snd l3) i;;
          info <- rd (d_arcs d) old;;
          f <- rd (l_ids s1) src_st;;
          a <- rd (v_arcs va) (fst info);; b <- rd (v_arcs vb) (snd info);;
          dest <- (if lab a =? -1 then e <- rd (l_rs s1) (f + 1);; Some (e - 1)
                   else
                     bs <- rd ids2b (snd info);;
                     o <- hfind (d_hash d) (dst a * multiple vb + (bs + dst b - src b));;
                     rd o2n o);;
          base <- rd (l_rs s1) f;;
          check (lab a =? lab b);;
          Some (mkArc (src_st - base) (dest - base) (lab a) (sc a + sc b), info)) (zrange num_arcs);;
      Some (mkVec (l_rs s1) (l_rs s2) (map fst out), map (fun x => fst (snd x)) out, map (fun x => snd (snd x)) out)
  | _ => None
  end.

(** 1345-1378 IntersectDevice; the properties are those of Fsa.properties.
    MaxValue of an empty array is INT_MIN, which the unsigned comparison
    refuses. *)
Definition intersect_device (fuel : nat) (ord : Z -> list Z) (sorted : bool) (va vb : fsavec) (b2a : list Z)
  : option (fsavec * list Z * list Z) :=
  pa <- py_properties (ord (zlen (v_arcs va))) va;;
  pb <- py_properties (ord (zlen (v_arcs vb))) vb;;
  check (negb (sorted && (Z.land pa kArcSorted =? 0)));;
  check (zlen b2a =? zlen (v_rs1 vb) - 1);;
  check (u32 (fold_right Z.max (- 2 ^ 31) b2a) <? zlen (v_rs1 va) - 1);;
  ids1b <- row_splits_to_row_ids (v_rs1 vb) (zlen (v_rs2 vb) - 1);;
  r <- first_iter ord va vb b2a;;
  let '(d, fin) := r in
  d <- forward fuel ord sorted va vb ids1b b2a 0 d;;
  d <- last_iter d fin;;
  format_output ord va vb ids1b d.
