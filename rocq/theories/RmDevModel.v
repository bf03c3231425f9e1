(** * Model of remove_epsilon for FSAs that are not top-sorted (and on the GPU)

    RemoveEpsilonDevice and the functions it calls (k2/csrc/rm_epsilon.cu).  Scores are
    exact integers.  A kernel in which index [i] writes only cell [i] of its outputs is
    an [mapM] over the indexes; the kernels that write elsewhere take the order in which
    the indexes run from [ord].  Arc maps of type Ragged<int32_t> are lists of rows: the
    operations used on them (Index on axis 0, Index with a ragged index, Cat on axis 1,
    AddPrefixToRagged, AddSuffixToRagged, Merge) act on rows. *)
From Coq Require Import ZArith List Bool.
From Verif Require Import Base RaggedModel RaggedOpsModel FsaSpec FsaOpsModel OpsModel PropsModel ReverseModel ConnectModel.
Import ListNotations.
Open Scope Z_scope.

(** An FsaVec with the row ids the code uses *)
Record rvec := mkRV { r_rs1 : list Z; r_ids1 : list Z; r_rs2 : list Z; r_ids2 : list Z; r_arcs : list arc }.

(** What most kernels compute first: the arc, the state it leaves (idx01) and the start
    state of its FSA (idx0x), e.g. lines 181-186 *)
Definition arc_pos (v : rvec) (j : Z) : option (arc * Z * Z) :=
  a <- rd (r_arcs v) j;;
  s <- rd (r_ids2 v) j;;
  i <- rd (r_ids1 v) s;;
  b <- rd (r_rs1 v) i;;
  Some (a, s, b).

(** ** ComputeEpsilonSubset, 440-536, and ComputeNonEpsilonSubset, 538-634

    The two functions have the same text but for the test of the label; [eps] chooses. *)
Definition label_keep (eps : bool) (a : arc) : bool := if eps then lab a =? 0 else negb (lab a =? 0).
(** lambda_set_keep, 462-490 (561-589): the states kept *)
Definition mark_states (eps : bool) (v : rvec) (k : list bool) (j : Z) : option (list bool) :=
  a <- rd (r_arcs v) j;;
  s <- rd (r_ids2 v) j;;
  i <- rd (r_ids1 v) s;;
  b <- rd (r_rs1 v) i;;
  e <- rd (r_rs1 v) (i + 1);;
  first <- rd (r_rs2 v) b;;
  k1 <- (if label_keep eps a then k' <- wr k (b + src a) true;; wr k' (b + dst a) true else Some k);;
  if (b <? e) && (j =? first) then k2 <- wr k1 b true;; wr k2 (e - 1) true else Some k1.

Record subset := mkSub { s_vec : rvec; s_keep : list bool; s_n2o : list Z; s_map : list Z }.
(** [state_old_to_new[src.RowSplits(1)]] (500, 599) reads the element after the last one
    of Old2New(); the array has one more element than the view (algorithms.h:159), so
    this is what [old2new] returns. *)
Definition label_subset (ord : Z -> list Z) (eps : bool) (v : rvec) : option subset :=
  let num_states := zlen (r_ids1 v) in
  let num_arcs := zlen (r_arcs v) in
  keep <- foldM (mark_states eps v) (ord num_arcs) (repeat false (Z.to_nat num_states));;
  let akeep := map (label_keep eps) (r_arcs v) in
  n2o <- new2old (ord (num_states + 1)) keep;;
  let o2n := old2new keep in
  an2o <- new2old (ord (num_arcs + 1)) akeep;;
  rs1 <- mapM (rd o2n) (r_rs1 v);;
  ids1 <- mapM (rd (r_ids1 v)) n2o;;
  out <- mapM (fun j =>
           p <- arc_pos v j;;
           let '(a, s, b) := p in
           ds <- rd o2n s;;
           db <- rd o2n b;;
           dd <- rd o2n (dst a + b);;
           Some (mkArc (ds - db) (dd - db) (if eps then 0 else lab a) (sc a), ds)) an2o;;
  rs2 <- row_ids_to_row_splits (map snd out) (zlen n2o);;
  Some (mkSub (mkRV rs1 ids1 rs2 (map snd out) (map fst out)) keep n2o an2o).

(** ** ComputeEpsilonClosureOneIter, 802-1016 *)
(** ArcComparer, 32-41 *)
Definition closure_lt (a b : arc) : bool := if dst a =? dst b then sc b <? sc a else dst a <? dst b.
(** lambda_set_expand_arcs, 889-944: the expanded arc and its row of the arc map *)
Definition expand_arc (v : rvec) (j k : Z) : option (arc * list Z) :=
  if k =? 0 then a <- rd (r_arcs v) j;; Some (a, [j])
  else
    p <- arc_pos v j;;
    let '(a, s, b) := p in
    l0 <- rd (r_rs2 v) (b + dst a);;
    let l := l0 + k - 1 in
    c <- rd (r_arcs v) l;;
    Some (mkArc (src a) (dst c) 0 (sc a + sc c), [j; l]).
(** lambda_set_keep, 959-979 *)
Definition keep_first (rs2 ids2 : list Z) (arcs : list arc) (j : Z) : option bool :=
  s <- rd ids2 j;;
  b <- rd rs2 s;;
  if j =? b then Some true
  else a <- rd arcs j;; p <- rd arcs (j - 1);; Some (negb (dst a =? dst p)).
(** the sorted order of equal arcs does not matter for the properties proved; SortSublists
    is the one of the CPU *)
Definition one_iter (ord : Z -> list Z) (v : rvec) : option (rvec * list (list Z)) :=
  check (forallb (fun a => negb ((src a =? dst a) && (0 <? sc a))) (r_arcs v));;
  n3 <- mapM (fun j =>
          p <- arc_pos v j;;
          let '(a, s, b) := p in
          l0 <- rd (r_rs2 v) (b + dst a);;
          l1 <- rd (r_rs2 v) (b + dst a + 1);;
          Some (1 + (l1 - l0))) (zrange (zlen (r_arcs v)));;
  let rs3 := exsum n3 in
  tot <- rd rs3 (zlen n3);;
  ids3 <- row_splits_to_row_ids rs3 tot;;
  ex <- mapM (fun i => j <- rd ids3 i;; x <- rd rs3 j;; expand_arc v j (i - x)) (zrange tot);;
  ers2 <- mapM (rd rs3) (r_rs2 v);;
  eids2 <- mapM (rd (r_ids2 v)) ids3;;
  so <- sort_sublists closure_lt ers2 (map fst ex);;
  keep <- mapM (keep_first ers2 eids2 (fst so)) (zrange tot);;
  n2o <- new2old (ord (tot + 1)) keep;;
  rs2 <- mapM (rd (old2new keep)) ers2;;
  ids2 <- mapM (rd eids2) n2o;;
  arcs <- mapM (rd (fst so)) n2o;;
  idx <- mapM (rd (snd so)) n2o;;
  am <- mapM (rd (map snd ex)) idx;;
  Some (mkRV (r_rs1 v) (r_ids1 v) rs2 ids2 arcs, am).

(** ** ComputeEpsilonClosure, 761-800 *)
Definition arc_eqb (a b : arc) : bool := (src a =? src b) && (dst a =? dst b) && (lab a =? lab b) && (sc a =? sc b).
(** [Dim() != Dim() || !Equal()]; fsa.h:45-48 compares scores up to 1e-5, scores are
    integers here *)
Fixpoint arcs_eqb (l m : list arc) : bool :=
  match l, m with
  | [], [] => true
  | a :: l', b :: m' => arc_eqb a b && arcs_eqb l' m'
  | _, _ => false
  end.
(** ComposeArcMaps, fsa_utils.cu:2161-2166 *)
Definition compose_maps (m1 m2 : list (list Z)) : option (list (list Z)) :=
  mapM (fun row => r <- mapM (rd m1) row;; Some (concat r)) m2.
(** SubsetRagged with a renumbering of the arcs, ragged_ops.h:958-969, and the arc map by
    Index *)
Definition subset_arcs (ord : Z -> list Z) (v : rvec) (m : list (list Z)) (keep : list bool) : option (rvec * list (list Z)) :=
  n2o <- new2old (ord (zlen keep + 1)) keep;;
  r <- index_last (r_ids2 v) (zlen (r_rs2 v) - 1) n2o;;
  arcs <- mapM (rd (r_arcs v)) n2o;;
  m' <- mapM (rd m) n2o;;
  Some (mkRV (r_rs1 v) (r_ids1 v) (fst r) (snd r) arcs, m').
(** the while loop; [fuel] bounds the number of iterations *)
Fixpoint closure_loop (ord : Z -> list Z) (fuel : nat) (prev : list arc) (v : rvec) (m : list (list Z)) : option (rvec * list (list Z)) :=
  if arcs_eqb prev (r_arcs v) then Some (v, m)
  else match fuel with
       | O => None
       | S fuel' =>
           r <- one_iter ord v;;
           m' <- compose_maps m (snd r);;
           closure_loop ord fuel' (r_arcs v) (fst r) m'
       end.
Definition eps_closure (ord : Z -> list Z) (fuel : nat) (v : rvec) : option (rvec * list (list Z)) :=
  r <- one_iter ord v;;
  c <- closure_loop ord fuel (r_arcs v) (fst r) (snd r);;
  subset_arcs ord (fst c) (snd c) (map (fun a => negb (src a =? dst a)) (r_arcs (fst c))).

(** ** MapFsaVecStates, 636-759 (without the debug checks): the FsaVec and the arc map *)
Definition map_states (ord : Z -> list Z) (v : rvec) (rs1 ids1 smap : list Z) : option (rvec * list Z) :=
  let num_arcs := zlen (r_arcs v) in
  check (zlen (r_ids1 v) =? zlen smap);;
  keep <- mapM (fun j =>
            p <- arc_pos v j;;
            let '(a, s, b) := p in
            x <- rd smap (b + src a);;
            y <- rd smap (b + dst a);;
            Some (negb (x =? -1) && negb (y =? -1))) (zrange num_arcs);;
  an2o <- new2old (ord (num_arcs + 1)) keep;;
  trs2 <- mapM (rd (old2new keep)) (r_rs2 v);;
  tids2 <- mapM (rd (r_ids2 v)) an2o;;
  cnt <- foldM (fun c s =>
            t <- rd smap s;;
            if t =? -1 then Some c
            else x <- rd trs2 s;; y <- rd trs2 (s + 1);; wr c t (y - x))
          (ord (zlen smap)) (repeat 0 (length ids1));;
  let drs2 := exsum cnt in
  let n := zlen an2o in
  out <- k2_fill n (ord n) (fun k =>
            s <- rd tids2 k;;
            x <- rd trs2 s;;
            j <- rd an2o k;;
            a <- rd (r_arcs v) j;;
            i <- rd (r_ids1 v) s;;
            b <- rd (r_rs1 v) i;;
            t <- rd smap s;;
            dx <- rd drs2 t;;
            di <- rd ids1 t;;
            db <- rd rs1 di;;
            e <- rd smap (b + dst a);;
            Some [(dx + (k - x), (mkArc (t - db) (e - db) (lab a) (sc a), j))]);;
  ids2 <- row_splits_to_row_ids drs2 n;;
  Some (mkRV rs1 ids1 drs2 ids2 (map fst out), map snd out).

(** GetEpsilonClosureMapped, 72-112: the state map from the states of the closure to
    those of the non-epsilon FSA *)
Definition closure_mapped (ord : Z -> list Z) (c : rvec) (cmap : list (list Z)) (esub nsub : subset) : option (rvec * list (list Z)) :=
  smap <- mapM (fun s =>
            o <- rd (s_n2o esub) s;;
            k <- rd (s_keep nsub) o;;
            if k : bool then rd (old2new (s_keep nsub)) o else Some (-1)) (zrange (zlen (r_ids1 c)));;
  r <- map_states ord c (r_rs1 (s_vec nsub)) (r_ids1 (s_vec nsub)) smap;;
  m <- mapM (rd cmap) (snd r);;
  Some (fst r, m).

(** ** DecideCombineWithFollowingOrPreceding, 144-210: for each arc of [em] whether it is
    combined with preceding arcs, and the number of arcs that follow it otherwise *)
Definition decide (em ne : rvec) : option (list (bool * Z)) :=
  dests <- dest_states01 (mkVec (r_rs1 ne) (r_rs2 ne) (r_arcs ne)) (r_ids2 ne);;
  inc <- incoming_arcs (zlen (r_ids1 ne)) dests;;
  let '(irs2, _, _) := inc in
  mapM (fun j =>
     p <- arc_pos em j;;
     let '(a, s, b) := p in
     e0 <- rd irs2 s;;
     e1 <- rd irs2 (s + 1);;
     l0 <- rd (r_rs2 ne) (b + dst a);;
     l1 <- rd (r_rs2 ne) (b + dst a + 1);;
     Some (if (s =? b) || (l1 - l0 <? e1 - e0) then (false, l1 - l0) else (true, 0))) (zrange (zlen (r_arcs em))).

(** ** CombineWithFollowingNonEpsilonArcs, 239-306; [cnt] are the sizes of [foll_shape] *)
Definition combine_following (em : rvec) (emap : list (list Z)) (ne : rvec) (nmap : list Z) (cnt : list Z) : option (rvec * list (list Z)) :=
  let frs := exsum cnt in
  n <- rd frs (zlen cnt);;
  fids <- row_splits_to_row_ids frs n;;
  out <- mapM (fun i =>
           i0 <- rd fids i;;
           x <- rd frs i0;;
           p <- arc_pos em i0;;
           let '(a, s, b) := p in
           l0 <- rd (r_rs2 ne) (b + dst a);;
           let l := l0 + (i - x) in
           c <- rd (r_arcs ne) l;;
           m <- rd emap i0;;
           e <- rd nmap l;;
           Some (mkArc (src a) (dst c) (lab c) (sc a + sc c), m ++ [e])) (zrange n);;
  rs2 <- mapM (rd frs) (r_rs2 em);;
  ids2 <- mapM (rd (r_ids2 em)) fids;;
  Some (mkRV (r_rs1 em) (r_ids1 em) rs2 ids2 (map fst out), map snd out).

(** ** CombineWithPrecedingNonEpsilonArcs, 345-438, with the arc map as the caller
    completes it (1091-1096, 1109-1121): the row of the preceding arc, then that of the
    epsilon arc *)
Definition combine_preceding (ep : rvec) (epmap : list (list Z)) (ne : rvec) (nemap : list (list Z)) : option (rvec * list (list Z)) :=
  cnt <- mapM (fun j =>
           p <- arc_pos ne j;;
           let '(a, s, b) := p in
           l0 <- rd (r_rs2 ep) (b + dst a);;
           l1 <- rd (r_rs2 ep) (b + dst a + 1);;
           Some (l1 - l0)) (zrange (zlen (r_arcs ne)));;
  let frs := exsum cnt in
  n <- rd frs (zlen cnt);;
  fids <- row_splits_to_row_ids frs n;;
  out <- mapM (fun i =>
           i0 <- rd fids i;;
           x <- rd frs i0;;
           p <- arc_pos ne i0;;
           let '(a, s, b) := p in
           l0 <- rd (r_rs2 ep) (b + dst a);;
           let l := l0 + (i - x) in
           c <- rd (r_arcs ep) l;;
           m <- rd nemap i0;;
           mp <- rd epmap l;;
           Some (mkArc (src a) (dst c) (lab a) (sc a + sc c), m ++ mp)) (zrange n);;
  rs2 <- mapM (rd frs) (r_rs2 ne);;
  ids2 <- mapM (rd (r_ids2 ne)) fids;;
  Some (mkRV (r_rs1 ne) (r_ids1 ne) rs2 ids2 (map fst out), map snd out).

(** ** RemoveEpsilonDevice, 1018-1167 *)
Definition with_layer {A} (v : rvec) (values : list A) : layer * list A := (mk_layer (r_rs2 v) (r_ids2 v), values).
Definition remove_epsilon_device (ord : Z -> list Z) (fuel : nat) (v : fsavec) : option (fsavec * list (list Z)) :=
  ids1 <- row_splits_to_row_ids (v_rs1 v) (zlen (v_rs2 v) - 1);;
  ids2 <- row_splits_to_row_ids (v_rs2 v) (zlen (v_arcs v));;
  let src_fsa := mkRV (v_rs1 v) ids1 (v_rs2 v) ids2 (v_arcs v) in
  es <- label_subset ord true src_fsa;;
  c <- eps_closure ord fuel (s_vec es);;
  cmap <- mapM (mapM (rd (s_map es))) (snd c);;
  ns <- label_subset ord false src_fsa;;
  let ne := s_vec ns in
  let nmap := map (fun j => [j]) (s_map ns) in
  em <- closure_mapped ord (fst c) cmap es ns;;
  d <- decide (fst em) ne;;
  foll <- combine_following (fst em) (snd em) ne (s_map ns) (map snd d);;
  ep <- subset_arcs ord (fst em) (snd em) (map fst d);;
  prec <- combine_preceding (fst ep) (snd ep) ne nmap;;
  pf <- combine_preceding (fst ep) (snd ep) (fst foll) (snd foll);;
  (* Cat on axis 2 of the FsaVecs, which share axis 1, and Merge of the arc maps with the
     same merge map *)
  arcs <- ragged_cat1 [with_layer (fst foll) (r_arcs (fst foll)); with_layer (fst prec) (r_arcs (fst prec));
                       with_layer (fst pf) (r_arcs (fst pf)); with_layer ne (r_arcs ne)];;
  maps <- ragged_cat1 [with_layer (fst foll) (snd foll); with_layer (fst prec) (snd prec);
                       with_layer (fst pf) (snd pf); with_layer ne nmap];;
  let dest := mkVec (r_rs1 ne) (l_rs (fst arcs)) (snd arcs) in
  props <- vec_props (ord (zlen (snd arcs))) dest;;
  if Z.land (snd props) kArcSorted =? 0 then
    so <- arc_sort dest;;
    m <- mapM (rd (snd maps)) (snd so);;
    Some (fst so, m)
  else Some (dest, snd maps).

(** A single Fsa, 1025-1033 *)
Definition remove_epsilon_device_single (ord : Z -> list Z) (fuel : nat) (f : fsa) : option (fsa * list (list Z)) :=
  r <- remove_epsilon_device ord fuel (fsa_to_vec f);;
  g <- vec_element (fst r) 0;;
  Some (g, snd r).
