(** * Model of the host intersection (k2/csrc/host/intersect.cc) and its wrapper
      for FsaVecs (k2/csrc/fsa_algo.cu:123-220, k2/csrc/host_shim.cu:38-135,
      k2/python/csrc/torch/fsa_algo.cu:95-165, k2/python/k2/fsa_algo.py:331-413).

    Scores are exact integers.  The two attributes of an output arc are its
    entries in the two arc maps.  unordered_map is an association list. *)
From Coq Require Import ZArith List Lia Bool.
From Verif Require Import Base RaggedModel FsaSpec RaggedOpsModel OpsModel PropsModel.
Import ListNotations.
Open Scope Z_scope.

(** host/fsa.h: k2host::Fsa: indexes (size1 + 1 entries) and the arcs, which are
    those of the whole FsaVec. *)
Record hfsa := mkH { hx : list Z; hd : list arc }.
Definition size1 (h : hfsa) : Z := zlen (hx h) - 1.

(** host_shim.cu:38-60 FsaVecToHostFsa *)
Definition host_fsa (v : fsavec) (i : Z) : option hfsa :=
  check ((0 <=? i) && (i <? zlen (v_rs1 v) - 1));;
  b <- rd (v_rs1 v) i;; e <- rd (v_rs1 v) (i + 1);;
  ix <- slice (v_rs2 v) b (e + 1);;
  Some (mkH ix (v_arcs v)).

(** The arcs leaving a state, with their positions relative to the first arc of
    the FSA: the iterator ranges of intersect.cc:94-99, and the subtraction of
    arc_a_offset (73-74, 112). *)
Definition leaving (h : hfsa) (s : Z) : option (list (Z * arc)) :=
  b <- rd (hx h) s;; e <- rd (hx h) (s + 1);; o <- rd (hx h) 0;;
  check (b <=? e);;
  mapM (fun k => a <- rd (hd h) (b + k);; Some (b + k - o, a)) (zrange (e - b)).

(** A pair of states, and an arc of the output before its states are numbered:
    the pair it enters, label, score, and the two arc map entries. *)
Definition pair := (Z * Z)%type.
Record xarc := mkX { x_dest : pair; x_lab : Z; x_sc : Z; x_a : Z; x_b : Z }.

(** for (; begin != end; ++begin) if (label != kEpsilon) break: the arcs before
    and from the first that is not an epsilon *)
Fixpoint span_eps (l : list (Z * arc)) : list (Z * arc) * list (Z * arc) :=
  match l with
  | [] => ([], [])
  | x :: t => if lab (snd x) =? 0 then let (p, q) := span_eps t in (x :: p, q) else ([], l)
  end.

(** std::equal_range (139-144); it needs a range sorted by unsigned label. *)
Fixpoint sorted_u32 (l : list (Z * arc)) : bool :=
  match l with
  | [] => true
  | x :: t => match t with
              | [] => true
              | y :: _ => (u32 (lab (snd x)) <=? u32 (lab (snd y))) && sorted_u32 t
              end
  end.
Definition equal_range (rng : list (Z * arc)) (x : arc) : option (list (Z * arc)) :=
  check (sorted_u32 rng);;
  Some (filter (fun y => u32 (lab (snd y)) =? u32 (lab x)) rng).

(** 127-163 without the numbering of states: iterate over the state with fewer
    arcs, and for each arc over the matching ones. *)
Definition match_arcs (swapped : bool) (small large : list (Z * arc)) : option (list xarc) :=
  r <- mapM (fun x =>
         ys <- equal_range large (snd x);;
         Some (map (fun y =>
                 let '(u, v) := if swapped then (y, x) else (x, y) in
                 mkX (dst (snd u), dst (snd v)) (lab (snd u)) (sc (snd u) + sc (snd v)) (fst u) (fst v)) ys)) small;;
  Some (concat r).

(** 91-163: the arcs leaving the pair (sa, sb), in order *)
Definition expand (eps : bool) (a b : hfsa) (p : pair) : option (list xarc) :=
  let '(sa, sb) := p in
  la <- leaving a sa;; lb <- leaving b sb;;
  let '(ea, la) := if eps then span_eps la else ([], la) in
  let '(eb, lb) := if eps then span_eps lb else ([], lb) in
  let from_a := map (fun u => mkX (dst (snd u), sb) 0 (sc (snd u)) (fst u) (-1)) ea in
  let from_b := map (fun v => mkX (sa, dst (snd v)) 0 (sc (snd v)) (-1) (fst v)) eb in
  both <- (if zlen lb <? zlen la then match_arcs true lb la else match_arcs false la lb);;
  Some (from_a ++ from_b ++ both).

(** state_pair_map, qstates, state_index_c, arcs_ with the two arc maps, and
    arc_indexes_ *)
Record ist := mkI {
  i_queue : list pair; i_map : list (pair * Z); i_next : Z;
  i_arcs : list (arc * (Z * Z)); i_index : list Z }.

Definition pair_eqb (p q : pair) : bool := (fst p =? fst q) && (snd p =? snd q).
Fixpoint plookup (m : list (pair * Z)) (p : pair) : option Z :=
  match m with
  | [] => None
  | (q, i) :: t => if pair_eqb q p then Some i else plookup t p
  end.

(** 25-36 InsertIntersectionState and the emplace_back of the arc *)
Definition add_arc (cur : Z) (s : ist) (x : xarc) : ist :=
  let mk i := (mkArc cur i (x_lab x) (x_sc x), (x_a x, x_b x)) in
  match plookup (i_map s) (x_dest x) with
  | Some i => mkI (i_queue s) (i_map s) (i_next s) (i_arcs s ++ [mk i]) (i_index s)
  | None =>
      let i := i_next s + 1 in
      mkI (i_queue s ++ [x_dest x]) ((x_dest x, i) :: i_map s) i (i_arcs s ++ [mk i]) (i_index s)
  end.

(** 84-165: the while loop.  The counter only makes the recursion structural;
    running out of it is an error. *)
Fixpoint loop (fuel : nat) (eps : bool) (a b : hfsa) (s : ist) : option ist :=
  match i_queue s with
  | [] => Some s
  | p :: q =>
      match fuel with
      | O => None
      | S fuel' =>
          cur <- plookup (i_map s) p;;
          xs <- expand eps a b p;;
          let s1 := mkI q (i_map s) (i_next s) (i_arcs s) (i_index s ++ [zlen (i_arcs s)]) in
          loop fuel' eps a b (fold_left (add_arc cur) xs s1)
      end
  end.

(** 41-185 Intersection::GetSizes (without check_properties) and GetOutput:
    arc_indexes_ and the arcs with the two arc maps *)
Definition intersection (eps : bool) (a b : hfsa) : option (list Z * list (arc * (Z * Z))) :=
  if (size1 a =? 0) || (size1 b =? 0) then Some ([0], [])
  else
    check ((2 <=? size1 a) && (2 <=? size1 b));;          (* FinalState() *)
    let fin := (size1 a - 1, size1 b - 1) in
    let m0 := [((0, 0), 0)] in
    let m1 := match plookup m0 fin with Some _ => m0 | None => (fin, -1) :: m0 end in
    s <- loop (Z.to_nat (size1 a * size1 b)) eps a b (mkI [(0, 0)] m1 0 [] []);;
    let last := i_next s + 1 in
    let ix := i_index s ++ [zlen (i_arcs s); zlen (i_arcs s)] in
    check (last + 2 =? zlen ix);;
    Some (ix, map (fun x => ((if dst (fst x) =? -1 then mkArc (src (fst x)) last (lab (fst x)) (sc (fst x)) else fst x), snd x)) (i_arcs s)).

(** host_shim.cu:62-135 FsaVecCreator.  Simplification: row_splits2 is given by
    the entries that remain after all FSAs have been written in order (the last
    entry of an FSA is overwritten by the first of the next) and
    FinalizeRowSplits2 has added the arc offsets. *)
Definition create_vec (fs : list (list Z * list arc)) : fsavec :=
  let arcs_begin := exsum (map (fun f => zlen (snd f)) fs) in
  let rs1 := exsum (map (fun f => zlen (fst f) - 1) fs) in
  let rs2 := concat (imap (fun i f =>
                match rd arcs_begin i with
                | Some b => map (Z.add b) (firstn (Z.to_nat (zlen (fst f) - 1)) (fst f))
                | None => []
                end) 0 fs) ++ [zsum (map (fun f => zlen (snd f)) fs)] in
  mkVec rs1 rs2 (concat (map snd fs)).

(** fsa_algo.cu:123-220 Intersect on FsaVecs (an Fsa is an FsaVec with one
    element: FsaToFsaVec).  [scheda], [schedb]: thread orders of the property
    computation. *)
Definition intersect (scheda schedb : list Z) (eps : bool) (va vb : fsavec)
  : option (fsavec * list Z * list Z) :=
  let na := zlen (v_rs1 va) - 1 in
  let nb := zlen (v_rs1 vb) - 1 in
  check ((0 <? na) && (0 <? nb));;
  check ((na =? nb) || (na =? 1) || (nb =? 1));;
  let stride_a := if negb (na =? nb) && (na =? 1) then 0 else 1 in
  let stride_b := if negb (na =? nb) && negb (na =? 1) then 0 else 1 in
  pa <- vec_props scheda va;; pb <- vec_props schedb vb;;
  check (negb (Z.land (snd pa) kArcSorted =? 0) && negb (Z.land (snd pb) kArcSorted =? 0));;
  offs_a <- mapM (rd (v_rs2 va)) (v_rs1 va);;
  offs_b <- mapM (rd (v_rs2 vb)) (v_rs1 vb);;
  rs <- mapM (fun i =>
          ha <- host_fsa va (i * stride_a);; hb <- host_fsa vb (i * stride_b);;
          r <- intersection eps ha hb;;
          oa <- rd offs_a (i * stride_a);; ob <- rd offs_b (i * stride_b);;
          let shift o x := if x =? -1 then x else x + o in
          Some ((fst r, map fst (snd r)), (map (fun x => shift oa (fst (snd x))) (snd r), map (fun x => shift ob (snd (snd x))) (snd r))))
        (zrange (Z.max na nb));;
  Some (create_vec (map fst rs), concat (map (fun x => fst (snd x)) rs), concat (map (fun x => snd (snd x)) rs)).
