(** * Model of determinize

    k2/csrc/host/determinize.cc, determinize_impl.h (the version without pruning, for
    MaxTracebackState), CreateFsa (host/fsa_util.cc:518-576) and Determinize
    (fsa_algo.cu:310-360).  An FSA is given by its row splits and its arcs.  Scores are
    exact integers where the code uses float and double; state ids and labels are
    exact, the 64-bit keys wrap.  Weight pushing in the log semiring is not modelled.

    The iteration order of the unordered maps is a function of the list of insertions
    ([ordE], [ordL]), and [pick] chooses the element the priority queue returns: its
    elements all have the same priority (804). *)
From Coq Require Import ZArith List Bool.
From Verif Require Import Base FsaSpec OpsModel.
Import ListNotations.
Open Scope Z_scope.

(** MaxTracebackState, determinize_impl.h:166-224: state, entering arc, previous
    state, forward_prob; [Tb0] is the start state (187-191).  Two pointers are
    compared only if they lie in the map of one DetState, whose keys are the state ids,
    so pointer equality is equality of these terms. *)
Inductive tb := Tb0 | Tb (s a : Z) (prev : tb) (fp : Z).
Definition t_state (t : tb) : Z := match t with Tb0 => 0 | Tb s _ _ _ => s end.
Definition t_fp (t : tb) : Z := match t with Tb0 => 0 | Tb _ _ _ fp => fp end.
Definition t_prev (t : tb) : option tb := match t with Tb0 => None | Tb _ _ p _ => Some p end.
Lemma tb_dec : forall x y : tb, {x = y} + {x <> y}.
Proof. decide equality; apply Z.eq_dec. Defined.
Fixpoint t_depth (t : tb) : nat := match t with Tb0 => O | Tb _ _ p _ => S (t_depth p) end.

(** [elements] of a DetState, 511 *)
Notation elements := (list (Z * tb)).

(** AcceptIncomingArc, 460-471, with Accept, 214-223 *)
Fixpoint accept (els : elements) (s : Z) (src : tb) (arc_index w : Z) : elements :=
  match els with
  | [] => [(s, Tb s arc_index src (t_fp src + w))]
  | (s', t) :: els' =>
      if s' =? s then (s', if t_fp t <? t_fp src + w then Tb s arc_index src (t_fp src + w) else t) :: els'
      else (s', t) :: accept els' s src arc_index w
  end.
(** label_to_state.insert, 632-640 *)
Fixpoint accept_label (m : list (Z * elements)) (l s : Z) (src : tb) (arc_index w : Z) : list (Z * elements) :=
  match m with
  | [] => [(l, accept [] s src arc_index w)]
  | (l', els) :: m' =>
      if l' =? l then (l', accept els s src arc_index w) :: m' else (l', els) :: accept_label m' l s src arc_index w
  end.
(** GetDetStatesSuccessor, 616-648 *)
Definition successors (rs : list Z) (arcs : list arc) (els : elements) : option (list (Z * elements)) :=
  m <- foldM (fun m (e : Z * tb) =>
         let st := t_state (snd e) in
         b <- rd rs st;;
         e' <- rd rs (st + 1);;
         foldM (fun m i => a <- rd arcs (b + i);; Some (accept_label m (lab a) (dst a) (snd e) (b + i) (sc a))) (zrange (e' - b)) m)
       els [];;
  check (match m, els with
         | [], (_, t) :: _ => t_state t =? zlen rs - 2
         | [], [] => false
         | _, _ => true
         end);;
  Some m.

(** GetMostRecentCommonAncestor, determinize.cc:130-145: the ancestor and the number
    of links.  [fuel] is larger than the number of links of every state. *)
Fixpoint common_ancestor (fuel : nat) (cur : list tb) : option (tb * Z) :=
  match fuel with
  | O => None
  | S fuel' =>
      match nodup tb_dec cur with
      | [] => None
      | [t] => Some (t, 0)
      | cur' => prev <- mapM t_prev cur';; r <- common_ancestor fuel' prev;; Some (fst r, 1 + snd r)
      end
  end.
(** TraceBack for MaxTracebackState, determinize.cc:193-211: the arcs and the state
    reached *)
Fixpoint trace_back (n : nat) (t : tb) (acc : list Z) : option (list Z * tb) :=
  match n with
  | O => Some (acc, t)
  | S n' => match t with Tb0 => None | Tb _ a p _ => trace_back n' p (a :: acc) end
  end.

(** weight_pushing_type *)
Inductive pushing := NoWeight | MaxWeight.
(** SetNormalizer, determinize_impl.h:816-835 *)
Definition normalizer (wp : pushing) (els : elements) : option Z :=
  match wp with
  | NoWeight => Some 0
  | MaxWeight => match els with
                 | [] => None
                 | e :: els' => Some (fold_left (fun m e => Z.max m (t_fp (snd e))) els' (t_fp (snd e)))
                 end
  end.

(** DetState: state_id, seq_len, elements, normalizer *)
Record dstate := mkD { d_id : Z; d_len : Z; d_els : elements; d_nz : Z }.

(** DetStateToCompact, 899-923 *)
Definition u64 (x : Z) : Z := x mod 2 ^ 64.
Fixpoint compact_loop (arcs : list arc) (n : nat) (t : tb) (a b : Z) : option (Z * Z) :=
  match n with
  | O => Some (u64 (t_state t + 14051 * a), b)
  | S n' =>
      match t with
      | Tb0 => None
      | Tb _ i p _ => arc <- rd arcs i;; compact_loop arcs n' p (u64 (lab arc + 102299 * a)) (u64 (lab arc + 102983 * b))
      end
  end.
Definition compact (arcs : list arc) (len : Z) (els : elements) : option (Z * Z) :=
  match els with
  | [] => None
  | e :: _ => compact_loop arcs (Z.to_nat len) (snd e) (u64 (17489 * len)) (u64 len)
  end.

(** the map of DetStateMap, 886-889 *)
Fixpoint find_key (k : Z * Z) (m : list ((Z * Z) * Z)) : option Z :=
  match m with
  | [] => None
  | (k', i) :: m' => if (fst k' =? fst k) && (snd k' =? snd k) then Some i else find_key k m'
  end.

(** the members of Determinizer and the local variables of GetSizes: the map with the
    next state id, the queue, the arcs and their derivatives *)
Record dsts := mkS { s_map : list ((Z * Z) * Z); s_queue : list dstate; s_arcs : list arc; s_derivs : list (list Z) }.

(** the body of the loop of ProcessArcs, 702-723, with Normalize, 786-814, and
    GetOutputState, 861-874; [z] is the size of the FSA's arc array *)
Definition process_label (ordE : elements -> elements) (wp : pushing) (arcs : list arc) (d : dstate) (st : dsts) (e : Z * elements) : option dsts :=
  let els := ordE (snd e) in
  let seq_len := d_len d + 1 in
  r <- common_ancestor (S (S (match els with [] => O | x :: _ => t_depth (snd x) end))) (map snd els);;
  let '(base, new_len) := r in
  check (new_len <=? seq_len);;
  tr <- trace_back (Z.to_nat (seq_len - new_len)) base [];;
  let unpushed := t_fp base - t_fp (snd tr) in
  nz <- normalizer wp els;;
  key <- compact arcs new_len els;;
  let w := match wp with NoWeight => unpushed | MaxWeight => nz - d_nz d end in
  match find_key key (s_map st) with
  | Some id => Some (mkS (s_map st) (s_queue st) (s_arcs st ++ [mkArc (d_id d) id (fst e) w]) (s_derivs st ++ [fst tr]))
  | None =>
      let id := zlen (s_map st) in
      Some (mkS (s_map st ++ [(key, id)]) (s_queue st ++ [mkD id new_len els nz])
                (s_arcs st ++ [mkArc (d_id d) id (fst e) w]) (s_derivs st ++ [fst tr]))
  end.
(** ProcessArcs, 689-725 *)
Definition process (ordE : elements -> elements) (ordL : list (Z * elements) -> list (Z * elements)) (wp : pushing) (rs : list Z) (arcs : list arc) (d : dstate) (st : dsts)
    : option dsts :=
  m <- successors rs arcs (d_els d);;
  foldM (process_label ordE wp arcs d) (ordL m) st.

(** the loop of GetSizes, determinize.cc:50-56; no limit on the number of steps
    (fsa_algo.cu:341); [fuel] bounds the number of states processed *)
Fixpoint run (ordE : elements -> elements) (ordL : list (Z * elements) -> list (Z * elements)) (pick : nat -> list dstate -> nat) (wp : pushing) (rs : list Z) (arcs : list arc)
    (fuel : nat) (st : dsts) : option dsts :=
  match s_queue st with
  | [] => Some st
  | q0 :: _ =>
      match fuel with
      | O => None
      | S fuel' =>
          let i := Nat.modulo (pick fuel' (s_queue st)) (length (s_queue st)) in
          let d := nth i (s_queue st) q0 in
          let rest := firstn i (s_queue st) ++ skipn (S i) (s_queue st) in
          st' <- process ordE ordL wp rs arcs d (mkS (s_map st) rest (s_arcs st) (s_derivs st));;
          run ordE ordL pick wp rs arcs fuel' st'
      end
  end.
(** GetSizes, determinize.cc:40-49: the start state *)
Definition start : dsts := mkS [((0, 0), 0)] [mkD 0 0 [(0, Tb0)] 0] [] [].

(** CreateFsa, fsa_util.cc:518-576: indexes, arcs and arc map *)
Definition create_fsa (arcs : list arc) (size1 : Z) : option (list Z * list arc * list Z) :=
  match arcs with
  | [] => Some ([0], [], [])
  | _ =>
      fin <- foldM (fun f a => if lab a =? -1 then check ((f =? -1) || (dst a =? f));; Some (dst a) else Some f) arcs (-1);;
      let num_states := 1 + fold_left (fun m a => Z.max m (Z.max (src a) (dst a))) arcs (-1) in
      check (size1 =? num_states);;
      let row s := filter (fun x => src (fst x) =? s) (combine arcs (zrange (zlen arcs))) in
      (* state_to_arcs[old_final_state] must exist *)
      check (0 <=? fin);;
      check (zlen (row fin) =? 0);;
      let new_to_old := zrange fin ++ map (fun i => i + 1) (map (fun i => fin + i) (zrange (num_states - 1 - fin))) ++ [fin] in
      old_to_new <- k2_fill num_states (zrange num_states) (fun i => o <- rd new_to_old i;; Some [(o, i)]);;
      rows <- mapM (fun i => o <- rd new_to_old i;;
                mapM (fun x => d <- rd old_to_new (dst (fst x));; Some (mkArc i d (lab (fst x)) (sc (fst x)), snd x)) (row o)) (zrange num_states);;
      Some (exsum (map zlen rows), map fst (concat rows), map snd (concat rows))
  end.

(** Determinize for one FSA, fsa_algo.cu:333-359, with GetSizes (57-71) and GetOutput
    (75-102): indexes, arcs and the derivatives of the arcs *)
Definition determinize (ordE : elements -> elements) (ordL : list (Z * elements) -> list (Z * elements)) (pick : nat -> list dstate -> nat) (wp : pushing)
    (fuel : nat) (rs : list Z) (arcs : list arc) : option (list Z * list arc * list (list Z)) :=
  if zlen rs - 1 =? 0 then Some ([0], [], []) else
  st <- run ordE ordL pick wp rs arcs fuel start;;
  let size1 := 1 + fold_left (fun m a => Z.max m (Z.max (src a) (dst a))) (s_arcs st) (-1) in
  r <- create_fsa (s_arcs st) size1;;
  let '(rs', arcs', arc_map) := r in
  derivs <- mapM (rd (s_derivs st)) arc_map;;
  Some (rs', arcs', derivs).

(** Determinize for an FsaVec, fsa_algo.cu:317-340: the FSAs one by one.  Line 331
    adds the offset to [arc_derivs[i].values], which is not [derivs_vector[i]]: the
    derivatives of FSA [i] are not changed. *)
Definition determinize_vec (ordE : elements -> elements) (ordL : list (Z * elements) -> list (Z * elements)) (pick : nat -> list dstate -> nat) (wp : pushing)
    (fuel : nat) (fsas : list (list Z * list arc)) : option (list (list Z * list arc) * list (list Z)) :=
  r <- mapM (fun x => determinize ordE ordL pick wp fuel (fst x) (snd x)) fsas;;
  Some (map fst r, concat (map snd r)).
