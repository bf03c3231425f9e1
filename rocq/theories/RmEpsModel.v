(** * Model of remove_epsilon on the CPU for top-sorted input

    RemoveEpsilonHost (fsa_algo.cu:246-280), RecursionWrapper (221-244), the forward
    weights of WfsaWithFbWeights (host/weights.cc:142-156) and EpsilonsRemoverPruned for
    MaxTracebackState (host/rmepsilon_pruned.cc).  An FSA is given by its row splits and
    its arcs.  Scores are exact integers; weights may be -infinity, which is [None].
    The beam is infinite (fsa_algo.cu:264), so [best_weight] (205) is -infinity and the
    test in line 236 holds for all weights that are finite or -infinity: neither the test
    nor the backward weights are modelled. *)
From Coq Require Import ZArith List Bool.
From Verif Require Import Base FsaSpec OpsModel.
Import ListNotations.
Open Scope Z_scope.

(** addition and comparison of weights that may be -infinity *)
Definition wadd (x : option Z) (w : Z) : option Z := match x with Some a => Some (a + w) | None => None end.
Definition wlt (x y : option Z) : bool :=
  match x, y with
  | Some a, Some b => a <? b
  | None, Some _ => true
  | _, None => false
  end.

(** ComputeForwardWeights, weights.cc:142-156 *)
Definition forward_weights (n : Z) (arcs : list arc) : option (list (option Z)) :=
  foldM (fun fw a =>
           s <- rd fw (src a);;
           d <- rd fw (dst a);;
           let r := wadd s (sc a) in
           wr fw (dst a) (if wlt d r then r else d))
        arcs (Some 0 :: repeat None (Z.to_nat (n - 1))).

(** MapStates, rmepsilon_pruned.cc:41-70: the kept states and the state map; -1 if a
    state is not kept *)
Definition keep_states (n : Z) (arcs : list arc) : option (list bool) :=
  k0 <- wr (repeat false (Z.to_nat n)) 0 true;;
  k1 <- wr k0 (n - 1) true;;
  foldM (fun k a => if lab a =? 0 then Some k else wr k (dst a) true) arcs k1.
Fixpoint number (k : list bool) (c : Z) : list Z :=
  match k with
  | [] => []
  | true :: k' => c :: number k' (c + 1)
  | false :: k' => -1 :: number k' c
  end.

(** MaxTracebackState, determinize_impl.h:166-224: the state from which epsilons are
    removed with its forward weight, or state, entering arc, previous state and forward
    weight.  [Accept] changes an object in place; a state is changed only before it is
    taken from the queue, and only then do other states point to it, so terms will do
    for the shared pointers. *)
Inductive rtb := R0 (s : Z) (fp : option Z) | RS (s a : Z) (prev : rtb) (fp : option Z).
Definition r_fp (t : rtb) : option Z := match t with R0 _ fp => fp | RS _ _ _ fp => fp end.
(** TraceBackRmEpsilons, 160-177, without the last arc, reversed (259) *)
Fixpoint r_arcs (t : rtb) : list Z := match t with R0 _ _ => [] | RS _ a p _ => r_arcs p ++ [a] end.

(** [traceback_states], 218-219 *)
Fixpoint tfind (m : list (Z * rtb)) (s : Z) : option rtb :=
  match m with [] => None | (s', t) :: m' => if s' =? s then Some t else tfind m' s end.
(** the epsilon branch, 237-247: the map and whether the state is new *)
Fixpoint taccept (m : list (Z * rtb)) (s : Z) (src : rtb) (arc_index w : Z) : list (Z * rtb) * bool :=
  match m with
  | [] => ([(s, RS s arc_index src (wadd (r_fp src) w))], true)
  | (s', t) :: m' =>
      if s' =? s then ((s', if wlt (r_fp t) (wadd (r_fp src) w) then RS s arc_index src (wadd (r_fp src) w) else t) :: m', false)
      else let r := taccept m' s src arc_index w in ((s', t) :: fst r, snd r)
  end.
(** [qstates], 217: a std::set *)
Fixpoint qinsert (q : list Z) (s : Z) : list Z :=
  match q with
  | [] => [s]
  | x :: q' => if s <? x then s :: q else if s =? x then q else x :: qinsert q' s
  end.

(** an arc of the output with its derivatives; the score is [None] if it is NaN *)
Record oarc := mkO { o_src : Z; o_dst : Z; o_lab : Z; o_sc : option Z; o_der : list Z }.
(** the score of line 249: -infinity minus -infinity is NaN *)
Definition wsub (x y : option Z) : option Z := match x, y with Some a, Some b => Some (a - b) | _, _ => None end.

(** the body of the loop over the arcs of a state, 228-263 *)
Definition rm_arc (arcs : list arc) (smap : list Z) (out_state : Z) (start : option Z) (cur : rtb)
    (st : list Z * list (Z * rtb) * list oarc) (j : Z) : option (list Z * list (Z * rtb) * list oarc) :=
  let '(q, m, out) := st in
  a <- rd arcs j;;
  if lab a =? 0 then
    let r := taccept m (dst a) cur j (sc a) in
    Some (if snd r then qinsert q (dst a) else q, fst r, out)
  else
    d <- rd smap (dst a);;
    Some (q, m, out ++ [mkO out_state d (lab a) (wsub (wadd (r_fp cur) (sc a)) start) (r_arcs cur ++ [j])]).
(** the loop over the queue, 220-264; [fuel] is larger than the number of states *)
Fixpoint rm_loop (rs : list Z) (arcs : list arc) (smap : list Z) (out_state : Z) (start : option Z)
    (fuel : nat) (st : list Z * list (Z * rtb) * list oarc) : option (list oarc) :=
  let '(q, m, out) := st in
  match q with
  | [] => Some out
  | s :: q' =>
      match fuel with
      | O => None
      | S fuel' =>
          cur <- tfind m s;;
          b <- rd rs s;;
          e <- rd rs (s + 1);;
          st' <- foldM (rm_arc arcs smap out_state start cur) (map (fun i => b + i) (zrange (e - b))) (q', m, out);;
          rm_loop rs arcs smap out_state start fuel' st'
      end
  end.

(** GetSizes, 183-278, and GetOutput, 280-311: the indexes and the arcs *)
Definition remove_epsilon (rs : list Z) (arcs : list arc) : option (list Z * list oarc) :=
  let n := zlen rs - 1 in
  if n =? 0 then Some ([0], []) else
  fw <- forward_weights n arcs;;
  keep <- keep_states n arcs;;
  let smap := number keep 0 in
  rows <- mapM (fun i =>
            k <- rd keep i;;
            if negb k then Some [] else
            f0 <- rd fw i;;
            c <- rd smap i;;
            r <- rm_loop rs arcs smap c f0 (S (Z.to_nat n)) ([i], [(i, R0 i f0)], []);;
            Some [r]) (zrange n);;
  (* arc_indexes_: the number of arcs before each kept state, and the last entry twice
     (270) *)
  let kept := concat rows in
  let idx := exsum (map zlen kept) in
  last <- rd idx (zlen kept - 1);;
  Some (firstn (length kept) idx ++ [last], concat kept).

(** RecursionWrapper, fsa_algo.cu:221-244: the arc maps are shifted by the number of
    arcs of the FSAs before *)
Fixpoint remove_epsilon_vec (tot_num_arcs : Z) (fsas : list (list Z * list arc)) : option (list (list Z * list oarc)) :=
  match fsas with
  | [] => Some []
  | (rs, arcs) :: fsas' =>
      r <- remove_epsilon rs arcs;;
      r' <- remove_epsilon_vec (tot_num_arcs + zlen arcs) fsas';;
      Some ((fst r, map (fun o => mkO (o_src o) (o_dst o) (o_lab o) (o_sc o) (map (fun j => tot_num_arcs + j) (o_der o))) (snd r)) :: r')
  end.
