(** * Model of RNN-T decoding: k2/csrc/rnnt_decode.cu (CreateStream,
      RnntDecodingStreams), the code behind k2.RnntDecodingStream(s).

    Ragged tensors are nested lists here and the operations on them (Stack, Unstack,
    RemoveAxis, SubsetRagged, ComposeRaggedShapes, indexing with a new2old map) are
    written by their meaning on nested lists (C07, C08, C50 are about that code).  A
    kernel that computes cell [i] from the inputs is a map.  Scores are exact
    integers; states are unbounded integers (int64_t in the code).  arc_map_b of
    FormatOutput is not modelled. *)
From Coq Require Import ZArith List Bool.
From Verif Require Import Base RaggedModel RaggedOpsModel FsaSpec OpsModel ReverseModel IDenseModel.
Import ListNotations.
Open Scope Z_scope.

(** rnnt_decode.h:51-93 RnntDecodingConfig *)
Record rcfg := mkR { r_vocab : Z; r_hist : Z; r_beam : Z; r_maxs : Z; r_maxc : Z }.
(** rnnt_decode.h:95-114 ArcInfo *)
Record ainf := mkI { x_arc : Z; x_sc : Z; x_lab : Z; x_dst : Z }.
(** [context][state][arc] *)
Notation frame := (list (list (list ainf))).
(** rnnt_decode.h:116-141 RnntDecodingStream; [s_states] holds the states with their
    scores (two ragged tensors of the same shape), indexed [context][state] *)
Record stream := mkStr { s_graph : fsa; s_states : list (list (Z * Z)); s_frames : list frame }.
Definition ngs (g : fsa) : Z := zlen (row_splits g) - 1.

(** rnnt_decode.cu:33-47 CreateStream *)
Definition create_stream (g : fsa) : stream := mkStr g [[(0, 0)]] [].

(** cuts [fl] into lists as long as those of [ll]: a flat array seen with the shape of [ll] *)
Fixpoint chop {A B} (ll : list (list A)) (fl : list B) : list (list B) :=
  match ll with
  | [] => []
  | l :: r => firstn (length l) fl :: chop r (skipn (length l) fl)
  end.

(** 125-174 GetContexts, for one stream.  The first state of a context gives its
    symbols ([None] for a context without states). *)
Definition get_contexts (c : rcfg) (g : fsa) (sts : list (list (Z * Z))) : option (list (list Z)) :=
  mapM (fun ctx =>
      s <- rd ctx 0;;
      let code := fst s / ngs g in
      Some (map (fun col => code mod r_vocab c ^ (r_hist c - col) / r_vocab c ^ (r_hist c - col - 1)) (zrange (r_hist c)))) sts.

(** 219-262 ExpandArcs: the number of arcs of a state: an implicit epsilon self-loop,
    and the arcs of the graph state; none for the final state *)
Definition num_arcs (g : fsa) (v : Z) : option Z :=
  let gs := v mod ngs g in
  if gs =? ngs g - 1 then Some 0
  else x <- rd (row_splits g) gs;; y <- rd (row_splits g) (gs + 1);; Some (y - x + 1).
(** the arc of the graph at position [i] of state [v] (position 0 is the self-loop) *)
Definition graph_idx (g : fsa) (v i : Z) : option Z := x <- rd (row_splits g) (v mod ngs g);; Some (x + i - 1).

(** 264-354 DoFisrtPassPruning: whether arc [i] of the state with value [v] and score
    [x] is kept; [row] are the log-probs of its context and [mx] the best score of
    the stream.  Reading outside a row is [None]. *)
Definition pass1 (c : rcfg) (g : fsa) (row : list Z) (mx : option Z) (v x i : Z) : option bool :=
  if i =? 0 then Some true
  else
    j <- graph_idx g v i;; a <- rd (arcs g) j;;
    if lab a =? 0 then Some true
    else
      lp <- (if lab a =? -1 then Some 0 else rd row (lab a));;
      Some (match mx with Some m => m - r_beam c <=? x + sc a + lp | None => true end).

(** an arc with its destination state and the score after it *)
Record cand := mkC { c_inf : ainf; c_val : Z; c_scr : Z }.
(** 499-569 lambda_populate_arcs_states_scores *)
Definition populate (c : rcfg) (g : fsa) (row : list Z) (v x i : Z) : option cand :=
  if i =? 0 then
    lp <- rd row 0;; Some (mkC (mkI (-1) lp 0 0) v (x + lp))
  else
    j <- graph_idx g v i;; a <- rd (arcs g) j;;
    let code := v / ngs g in
    let code' := if (lab a =? 0) || (lab a =? -1) then code
                 else code mod r_vocab c ^ (r_hist c - 1) * r_vocab c + lab a in
    lp <- rd row (if lab a =? -1 then 0 else lab a);;
    Some (mkC (mkI j (sc a + lp) (lab a) 0) (code' * ngs g + dst a) (x + sc a + lp)).
(** (1) to (3) of Advance for one stream: [context][state][arc] *)
Definition stream_arcs (c : rcfg) (g : fsa) (rows : list (list Z)) (sts : list (list (Z * Z))) : option (list (list (list cand))) :=
  let mx := kmax (map (fun s => Some (snd s)) (concat sts)) in
  mapM (fun k =>
      ctx <- rd sts k;; row <- rd rows k;;
      mapM (fun s =>
          n <- num_arcs g (fst s);;
          ks <- mapM (fun i => b <- pass1 c g row mx (fst s) (snd s) i;; Some (i, b)) (zrange n);;
          mapM (fun i => populate c g row (fst s) (snd s) i) (map fst (filter snd ks))) ctx) (zrange (zlen sts)).

(** [context][state][arc] to [arc] *)
Definition flat_cands (cs : list (list (list cand))) : list cand := concat (concat cs).
Definition val_of (cl : list cand) (i : Z) : Z := match rd cl i with Some a => c_val a | None => 0 end.
Definition scr_of (cl : list cand) (i : Z) : Z := match rd cl i with Some a => c_scr a | None => 0 end.

(** the maximal runs of consecutive elements that are alike *)
Fixpoint runs {A} (same : A -> A -> bool) (l : list A) : list (list A) :=
  match l with
  | [] => []
  | x :: t => match runs same t with
              | (y :: r) :: rs => if same x y then (x :: y :: r) :: rs else [x] :: (y :: r) :: rs
              | rs => [x] :: rs
              end
  end.
(** 571-577 (SortSublists) and 356-438 GroupStatesByContexts, for one stream: the
    positions of its arcs, as [context][state][arc].  A state ends where the next
    value differs, a context where the next context differs. *)
Definition group (g : fsa) (cl : list cand) : list (list (list Z)) :=
  let order := stable_sort (fun p q => val_of cl p <? val_of cl q) (zrange (zlen cl)) in
  let states := runs (fun p q => val_of cl p =? val_of cl q) order in
  let ctx l := match l with i :: _ => val_of cl i / ngs g | [] => 0 end in
  runs (fun l m => ctx l =? ctx m) states.

(** ragged_ops_inl.h:868-929 PruneRaggedAxis1, for one stream: which of the lists
    [subs] are kept; [total] is their number in all streams *)
Definition in_beam (beam : Z) (best m : option Z) : bool :=
  match best, m with
  | None, _ => true
  | Some _, None => false
  | Some b, Some x => b - beam <=? x
  end.
Definition prune_axis1 (beam max_elems total : Z) (subs : list (list Z)) : option (list bool) :=
  let sm := map (fun l => kmax (map Some l)) subs in
  let best := kmax sm in
  if (0 <? max_elems) && (max_elems <? total) then
    let m i := match rd sm i with Some x => x | None => None end in
    let order := stable_sort (fun p q => ogt (m p) (m q)) (zrange (zlen subs)) in
    k2_fill (zlen subs) (zrange (zlen subs)) (fun idx1 =>
      o <- rd order idx1;; Some [(o, negb ((max_elems <=? idx1) || negb (in_beam beam best (m o))))])
  else Some (map (in_beam beam best) sm).
Definition select {A} (l : list A) (keep : list bool) : list A := map fst (filter snd (combine l keep)).

(** 176-217 PruneTwice for one stream: states, then contexts *)
Definition prune_states (c : rcfg) (cl : list cand) (total : Z) (gr : list (list (list Z))) : option (list (list (list Z))) :=
  keep <- prune_axis1 (r_beam c) (r_maxs c) total (map (map (scr_of cl)) (concat gr));;
  Some (map (fun p => select (fst p) (snd p)) (combine gr (chop gr keep))).
Definition prune_contexts (c : rcfg) (cl : list cand) (total : Z) (gr : list (list (list Z))) : option (list (list (list Z))) :=
  keep <- prune_axis1 (r_beam c) (r_maxc c) total (map (fun x => map (scr_of cl) (concat x)) gr);;
  Some (select gr keep).

(** 594-680 the rest of Advance for one stream: the new states with their scores, and
    the frame: the surviving arcs in their original order, with their destinations *)
Definition new_states (cl : list cand) (fin : list (list (list Z))) : option (list (list (Z * Z))) :=
  mapM (mapM (fun ids => i <- rd ids 0;; m <- kmax (map (fun i => Some (scr_of cl i)) ids);; Some (val_of cl i, m))) fin.
Fixpoint find_idx {A} (f : A -> bool) (k : Z) (l : list A) : option Z :=
  match l with [] => None | x :: t => if f x then Some k else find_idx f (k + 1) t end.
Definition new_frame (cs : list (list (list cand))) (fin : list (list (list Z))) : frame :=
  let cl := flat_cands cs in
  let arc i a := match find_idx (existsb (Z.eqb i)) 0 (concat fin) with
                 | Some d => [mkI (x_arc (c_inf a)) (x_sc (c_inf a)) (x_lab (c_inf a)) d]
                 | None => []
                 end in
  chop cs (map (@concat ainf) (chop (concat cs) (imap arc 0 cl))).

(** 450-680 Advance, for all streams: new states and frames *)
Definition advance (c : rcfg) (graphs : list fsa) (sts : list (list (list (Z * Z)))) (logprobs : list (list Z))
  : option (list (list (list (Z * Z))) * list frame) :=
  check (zlen logprobs =? zsum (map zlen sts));;
  check (forallb (fun r => zlen r =? r_vocab c) logprobs);;
  let rows := chop sts logprobs in
  let ks := zrange (zlen graphs) in
  cs <- mapM (fun k => g <- rd graphs k;; s <- rd sts k;; r <- rd rows k;; stream_arcs c g r s) ks;;
  grs <- mapM (fun k => g <- rd graphs k;; x <- rd cs k;; Some (group g (flat_cands x))) ks;;
  tmp <- mapM (fun k => x <- rd cs k;; gr <- rd grs k;;
                        prune_states c (flat_cands x) (zsum (map (fun gr => zlen (concat gr)) grs)) gr) ks;;
  fin <- mapM (fun k => x <- rd cs k;; gr <- rd tmp k;;
                        prune_contexts c (flat_cands x) (zsum (map zlen tmp)) gr) ks;;
  sts' <- mapM (fun k => x <- rd cs k;; f <- rd fin k;; new_states (flat_cands x) f) ks;;
  frs <- mapM (fun k => x <- rd cs k;; f <- rd fin k;; Some (new_frame x f)) ks;;
  Some (sts', frs).

(** ** The use of the classes
    [net k t ctx] are the log-probs that the user's network gives for stream [k], its
    frame [t] and the context [ctx]: a batch is made of the streams [ids] (49-79, the
    constructor), then for [n] frames the contexts are asked for and the streams
    advanced, then TerminateAndFlushToStreams (81-123) writes states and frames back
    (and does nothing if there are no frames). *)
Definition ask (c : rcfg) (net : Z -> Z -> list Z -> list Z) (k : Z) (s : stream) : option (list (list Z)) :=
  ctxs <- get_contexts c (s_graph s) (s_states s);;
  Some (map (net k (zlen (s_frames s))) ctxs).
Fixpoint run_batch (c : rcfg) (net : Z -> Z -> list Z -> list Z) (ids : list Z) (n : nat) (ss : list stream) : option (list stream) :=
  match n with
  | O => Some ss
  | S n' =>
      lps <- mapM (fun p => ask c net (fst p) (snd p)) (combine ids ss);;
      r <- advance c (map s_graph ss) (map s_states ss) (concat lps);;
      run_batch c net ids n'
        (map (fun p => mkStr (s_graph (fst p)) (fst (snd p)) (s_frames (fst p) ++ [snd (snd p)])) (combine ss (combine (fst r) (snd r))))
  end.
Definition decode (c : rcfg) (net : Z -> Z -> list Z -> list Z) (world : list stream) (batch : list Z * nat) : option (list stream) :=
  check (1 <=? zlen (fst batch));;
  ss <- mapM (rd world) (fst batch);;
  ss' <- run_batch c net (fst batch) (snd batch) ss;;
  foldM (fun w p => wr w (fst p) (snd p)) (combine (fst batch) ss') world.
(** a whole history: streams are created for [graphs] and decoded in batches *)
Definition session (c : rcfg) (net : Z -> Z -> list Z -> list Z) (graphs : list fsa) (batches : list (list Z * nat)) : option (list stream) :=
  foldM (decode c net) batches (map create_stream graphs).

(** 682-724 GatherPrevFrames: the first [nf] frames of every stream, shorter ones
    padded with empty frames on the left (Unstack with pad_right=false) *)
Definition gather (ss : list stream) (num_frames : list Z) : option (list (list frame)) :=
  check (zlen num_frames =? zlen ss);;
  fs <- mapM (fun p => check (snd p <=? zlen (s_frames (fst p)));; Some (firstn (Z.to_nat (snd p)) (s_frames (fst p)))) (combine ss num_frames);;
  let T := fold_right Z.max 0 (map zlen fs) in
  Some (map (fun f => repeat [] (Z.to_nat (T - zlen f)) ++ f) fs).

(** 733-990 FormatOutput for one stream with [T] frames: the arcs of every state, with
    their entries of out_map.  The states are numbered in the order of oshape. *)
Definition final_frame (partial : bool) (f : frame) : frame :=
  let has_final := existsb (fun a => x_lab a =? -1) (concat (concat f)) in
  map (map (filter (fun a => (x_lab a =? -1) || (partial && negb has_final)))) f.
Definition stream_lattice (partial : bool) (g : fsa) (fs : list frame) : option (list (list (arc * Z))) :=
  let T := zlen fs in
  last <- rd fs (T - 1);;
  let all := removelast fs ++ [final_frame partial last] in
  let off := exsum (map (fun f => zlen (concat f)) all) in
  rows <- mapM (fun t =>
      f <- rd all t;; this <- rd off t;; next <- rd off (t + 1);;
      mapM (fun j =>
          l <- rd (concat f) j;;
          mapM (fun a =>
              if t =? T - 1 then Some (mkArc (this + j) next (-1) 0, -1)
              else
                l <- (if (x_arc a =? -1) || (x_lab a =? -1) then Some 0 else b <- rd (arcs g) (x_arc a);; Some (lab b));;
                Some (mkArc (this + j) (next + x_dst a) l (x_sc a), x_arc a)) l) (zrange (zlen (concat f)))) (zrange T);;
  Some (concat rows ++ [[]]).
Definition format_output (partial : bool) (ss : list stream) (num_frames : list Z)
  : option (fsavec * list Z) :=
  fs <- gather ss num_frames;;
  ls <- mapM (fun p => stream_lattice partial (s_graph (fst p)) (snd p)) (combine ss fs);;
  let out := concat (concat ls) in
  Some (mkVec (exsum (map zlen ls)) (exsum (map zlen (concat ls))) (map fst out), map snd out).
