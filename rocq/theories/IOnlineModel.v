(** * Model of k2.OnlineDenseIntersecter (k2/csrc/intersect_dense_pruned.cu 234-401,
    1738-1865 and k2/python/k2/online_dense_intersecter.py): decoding chunk by chunk,
    with the streams of a batch joining and leaving at will.  The frames of the
    intersection are those of IPrunedModel.v. *)
From Coq Require Import ZArith List Bool QArith.
From Verif Require Import Base RaggedModel RaggedOpsModel FsaSpec OpsModel ReverseModel IDenseModel IPrunedModel.
Import ListNotations.
Open Scope Z_scope.

(** intersect_dense_pruned.h:80-95 DecodeStateInfo: the ragged arrays [states] (frame,
    state) and [arcs] (frame, state, arc) have the same first two axes and are kept
    together; [beam] *)
Record stream := mkSt { st_cols : list (list (sinfo * list ainfo)); st_beam : Q }.
(** 1781-1794: a stream that is new.  The arc and the backward score are not
    initialized; they are not read. *)
Definition new_stream (c : cfg) : stream := mkSt [[(mkS 0 (Some 0) None, [mkA 0 None 0 None])]] (inject_Z (c_sbeam c)).

(** a frame whose sequences have these states and arcs *)
Definition frame_of (N : list (list (sinfo * list ainfo))) : fr :=
  let arcs := map snd (concat N) in
  mkFr (exsum (map zlen N)) (concat (imap (fun k q => map (fun _ => k) q) 0 N)) (map fst (concat N))
       (exsum (map zlen arcs)) (concat (imap (fun i l => map (fun _ => i) l) 0 arcs)) (concat arcs).
(** 1800-1826: Stack(0, ...), RemoveEmptyLists(..., 1), Unstack(..., 1, pad_right =
    false): the frames without states are dropped and the others are aligned to the
    right *)
Definition nonempty {X} (l : list X) : bool := match l with [] => false | _ => true end.
Definition stack_streams (sts : list stream) : list (list (list (sinfo * list ainfo))) :=
  let hs := map (fun s => filter nonempty (st_cols s)) sts in
  let L := fold_right Z.max 0 (map zlen hs) in
  map (fun i => map (fun h => match rd h (i - (L - zlen h)) with Some q => q | None => [] end) hs) (zrange L).
(** 1836-1855: Stack(0, ...) of the frames and Unstack(..., 1): what frame [f] holds
    for sequence [k] *)
Definition seq_column (f : fr) (k : Z) : option (list (sinfo * list ainfo)) :=
  b <- rd (f_rs1 f) k;; e <- rd (f_rs1 f) (k + 1);;
  mapM (fun j =>
      s <- rd (f_states f) (b + j);;
      x <- rd (f_rs2 f) (b + j);; y <- rd (f_rs2 f) (b + j + 1);;
      l <- mapM (fun i => rd (f_arcs f) (x + i)) (zrange (y - x));;
      Some (s, l)) (zrange (e - b)).

(** 277-294: PropagateForward for the frames 0 .. chunk-1 of the chunk *)
Definition forward_chunk (ord : Z -> list Z) (c : cfg) (chunk : Z) (fs : list fr) (beams : list Q) (h : hmap)
  : option (list fr * list Q * hmap) :=
  foldM (fun s t =>
      let '(fs, beams, h) := s in
      cur <- rd fs (zlen fs - 1);;
      x <- propagate_forward ord c t cur beams h;;
      let '(f, nf, beams', h') := x in
      Some (removelast fs ++ [f; nf], beams', h')) (zrange chunk) (fs, beams, h).
(** 1378-1600 PruneTimeRange(b, e) *)
Definition prune_range (ord : Z -> list Z) (c : cfg) (b e : Z) (fs : list fr) : option (list fr) :=
  last <- rd fs e;;
  fs' <- prune_frames ord c (skipn (Z.to_nat b) (firstn (Z.to_nat e) fs)) last;;
  Some (firstn (Z.to_nat b) fs ++ fs' ++ set_final_probs last :: skipn (S (Z.to_nat e)) fs).

(** 340-403 GetFinalFrame for frame [t] of the chunk: the arcs of the last frame that
    have a finite score, which enter the final state, and a frame with the final
    states.  The renumbering of the arcs is written out row by row. *)
Definition get_final_frame (c : cfg) (t : Z) (f : fr) : option (fr * fr) :=
  g <- get_arcs c t f;;
  arcs <- mapM (fun st =>
      x <- rd (f_rs2 g) st;; y <- rd (f_rs2 g) (st + 1);;
      l <- mapM (fun i => rd (f_arcs g) (x + i)) (zrange (y - x));;
      Some (map (fun a => mkA (i_arc a) (i_ll a) 0 (i_end a)) (filter (fun a => is_finite (i_ll a)) l)))
    (zrange (zlen (f_states g)));;
  let rs2 := exsum (map zlen arcs) in
  nums <- mapM (fun k =>
      b <- rd (f_rs1 g) k;; e <- rd (f_rs1 g) (k + 1);; x <- rd rs2 b;; y <- rd rs2 e;;
      Some (b2z (x <? y))) (zrange (c_n c));;
  Some (mkFr (f_rs1 g) (f_ids1 g) (f_states g) rs2 (concat (imap (fun i l => map (fun _ => i) l) 0 arcs)) (concat arcs),
        mkFr (exsum nums) [] [] (map (fun _ => 0) (zrange (fold_right Z.add 0 nums + 1))) [] []).

Definition set_b (c : cfg) (b : dmat) : cfg :=
  mkCfg (c_v c) (c_ids1 c) b (c_n c) (c_sbeam c) (c_obeam c) (c_min c) (c_max c) (c_partial c) (c_astride c) (c_kstride c) (c_bits c) (c_online c).

(** 1738-1748 the constructor *)
Definition o_construct (v : fsavec) (n sbeam obeam mina maxa : Z) (partial : bool) : option cfg :=
  p_make true v (mkDmat [] [] 0 0) n sbeam obeam mina maxa partial.
(** 1768-1865 Decode, with 258-320 OnlineIntersect and 473-655 FormatOutput; [None] is
    a new stream.  The result: row splits, arcs and arc map of the lattices, the new
    streams and the hash, which is a member. *)
Definition o_decode (ord : Z -> list Z) (c0 : cfg) (b : dmat) (sts : list (option stream)) (h : hmap)
  : option ((list Z * list Z * list (Z * Z * Z * option Z) * list Z) * list stream * hmap) :=
  let n := zlen (b_rs b) - 1 in
  check (n =? zlen sts);;
  let sts := map (fun s => match s with Some s => s | None => new_stream c0 end) sts in
  let fs := map frame_of (stack_streams sts) in
  check (zlen (v_rs1 (c_v c0)) - 1 =? 1);; check (c_n c0 =? n);;
  let c := set_b c0 b in
  let T0 := zlen fs - 1 in
  m <- max_T c;;
  let chunk := m - 1 in
  r <- forward_chunk ord c chunk fs (map st_beam sts) h;;
  let '(fs, beams, h) := r in
  fs <- (if 0 <? chunk then prune_range ord c (Z.max 0 (T0 - 2)) (T0 + chunk) fs else Some fs);;
  cur <- rd fs (zlen fs - 1);;
  x <- get_final_frame c chunk cur;;
  let fs := removelast fs ++ [fst x] in
  out <- p_format_output c T0 (T0 + chunk + 1) (fs ++ [snd x]);;
  let '(rs1, rs2, arcs, mapa, _) := out in
  cols <- mapM (fun k => cs <- mapM (fun f => seq_column f k) fs;; beam <- rd beams k;; Some (mkSt cs beam)) (zrange n);;
  Some ((rs1, rs2, arcs, mapa), cols, h).

(** A program that decodes streams in turns: [tab] are its streams ([None]: not
    started); a call gives the numbers of the streams of the batch and their chunks *)
Definition session := (list (option stream) * hmap)%type.
Definition decode_call (ord : Z -> list Z) (c : cfg) (s : session) (call : list Z * dmat)
  : option ((list Z * list Z * list (Z * Z * Z * option Z) * list Z) * session) :=
  let '(tab, h) := s in
  let '(ids, b) := call in
  sts <- mapM (rd tab) ids;;
  r <- o_decode ord c b sts h;;
  let '(out, sts', h') := r in
  tab' <- foldM (fun tab p => wr tab (fst p) (Some (snd p))) (combine ids sts') tab;;
  Some (out, (tab', h')).
Fixpoint decode_calls (ord : Z -> list Z) (c : cfg) (s : session) (calls : list (list Z * dmat))
  : option (list (list Z * list Z * list (Z * Z * Z * option Z) * list Z)) :=
  match calls with
  | [] => Some []
  | call :: rest => r <- decode_call ord c s call;; outs <- decode_calls ord c (snd r) rest;; Some (fst r :: outs)
  end.
