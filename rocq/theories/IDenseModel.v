(** * Model of IntersectDense (k2/csrc/intersect_dense.cu), the function behind
    k2.intersect_dense.

    Scores are exact: [Z] for finite values and [None] for -inf.  The uint16 fields of
    CompressedArc and FsaInfo truncate ([u16]); int32 arithmetic is exact.  Kernels in
    which index [i] writes cell [i] only are [mapM]; the scattering kernels take the
    order of their threads. *)
From Coq Require Import ZArith List Lia Bool.
From Verif Require Import Base RaggedModel RaggedOpsModel FsaSpec OpsModel ReverseModel.
Import ListNotations.
Open Scope Z_scope.

(** float arithmetic with -inf *)
Definition oadd (x y : option Z) : option Z :=
  match x, y with Some a, Some b => Some (a + b) | _, _ => None end.
Definition omax (x y : option Z) : option Z :=
  match x, y with None, _ => y | _, None => x | Some a, Some b => Some (Z.max a b) end.
(** x > y *)
Definition ogt (x y : option Z) : bool :=
  match x, y with None, _ => false | Some _, None => true | Some a, Some b => b <? a end.
(** MaxPerSublist on one sublist, initial value -inf *)
Definition kmax (l : list (option Z)) : option Z := fold_left omax l None.

Definition u16 (x : Z) : Z := x mod 65536.

(** struct CompressedArc, 937-956 *)
Record carc := mkCarc { c_src : Z; c_dst : Z; c_lab1 : Z; c_fsa : Z; c_in : Z; c_sc : Z }.
(** struct FsaInfo, 977-998 *)
Record finfo := mkInfo { i_T : Z; i_ns : Z; i_soff : Z; i_st : Z; i_arc : Z }.

(** the decoding graphs and the DenseFsaVec: row splits of its rows, values in
    memory order, row stride and number of columns *)
Record dmat := mkDmat { b_rs : list Z; b_data : list (option Z); b_stride : Z; b_cols : Z }.

(** array_ops.cu:395-407 InvertPermutation *)
Definition invert_permutation (ord : Z -> list Z) (src : list Z) : option (list Z) :=
  k2_fill (zlen src) (ord (zlen src)) (fun i => v <- rd src i;; Some [(v, i)]).

(** MonotonicDecreasingUpperBound: the running maximum from the end *)
Fixpoint suffix_max (l : list Z) : list Z :=
  match l with
  | [] => []
  | x :: l' => match suffix_max l' with [] => [x] | y :: r => Z.max x y :: y :: r end
  end.
(** array_ops.cu:360-393 InvertMonotonicDecreasing (without the debug checks) *)
Definition invert_monotonic_decreasing (ord : Z -> list Z) (src : list Z) : option (list Z) :=
  if zlen src =? 0 then Some [] else
  d <- rd src 0;;
  m <- k2_eval (ord (zlen src)) (fun i =>
         v <- rd src i;;
         if i + 1 =? zlen src then Some [(v - 1, i + 1)]
         else v' <- rd src (i + 1);; Some (if v' <? v then [(v - 1, i + 1)] else []))
       (repeat (Some 0) (Z.to_nat d));;
  m' <- freeze m;;
  Some (suffix_max m').

Fixpoint nonincreasing (l : list Z) : bool :=
  match l with x :: ((y :: _) as l') => (y <=? x) && nonincreasing l' | _ => true end.
Fixpoint nondecreasing (l : list Z) : bool :=
  match l with x :: ((y :: _) as l') => (x <=? y) && nondecreasing l' | _ => true end.

(** Cat(1, {a_fsas.shape, incoming_arcs.shape}), 144-149: for every FSA its states,
    then the same number of states with their entering arcs.  The result of
    ragged_ops.cu:853-885 is given directly; its merge maps are not modelled. *)
Definition cat_shapes (rs1 rs2 inc_rs2 : list Z) : option (list Z * list Z) :=
  sizes <- mapM (fun k =>
      b <- rd rs1 k;; e <- rd rs1 (k + 1);;
      u <- mapM (fun s => x <- rd rs2 (b + s);; y <- rd rs2 (b + s + 1);; Some (y - x)) (zrange (e - b));;
      v <- mapM (fun s => x <- rd inc_rs2 (b + s);; y <- rd inc_rs2 (b + s + 1);; Some (y - x)) (zrange (e - b));;
      Some (u ++ v)) (zrange (zlen rs1 - 1));;
  Some (exsum (map zlen sizes), exsum (concat sizes)).

(** InitCompressedArcs, 618-655 *)
Definition init_carc (v : fsavec) (ids1 ids2 inc_idx : list Z) (i : Z) : option carc :=
  a <- rd (v_arcs v) i;;
  st <- rd ids2 i;;
  fsa <- rd ids1 st;;
  let fsa := u16 fsa in
  s0 <- rd (v_rs1 v) fsa;;
  s1 <- rd (v_rs1 v) (fsa + 1);;
  this_first <- rd (v_rs2 v) s0;;
  next_first <- rd (v_rs2 v) s1;;
  inc <- rd inc_idx i;;
  Some (mkCarc (u16 (src a)) (u16 (dst a)) (u16 (lab a + 1)) fsa
               (2 * this_first + (next_first - this_first) + (inc - this_first)) (sc a)).

(** InitFsaInfo, 657-682 *)
Definition init_info (v : fsavec) (b : dmat) (a2b : list Z) (i : Z) : option finfo :=
  j <- rd a2b i;;
  r0 <- rd (b_rs b) j;;
  r1 <- rd (b_rs b) (j + 1);;
  s0 <- rd (v_rs1 v) i;;
  s1 <- rd (v_rs1 v) (i + 1);;
  a0 <- rd (v_rs2 v) s0;;
  Some (mkInfo (u16 (r1 - r0)) (u16 (s1 - s0)) (r0 * b_stride b) s0 a0).

(** the object after its constructor (118-204) and InitSteps (688-745) *)
Record mgdi := mkMgdi {
  g_v : fsavec; g_b : dmat; g_ids1 : list Z; g_carcs : list carc; g_info : list finfo;
  g_crs1 : list Z; g_crs2 : list Z; g_T : Z; g_nf : list Z }.

Definition construct (ord : Z -> list Z) (v : fsavec) (b : dmat) (a2b : list Z) (beam : Z) : option mgdi :=
  let num_fsas := zlen (v_rs1 v) - 1 in
  let num_states := zlen (v_rs2 v) - 1 in
  check (num_fsas =? zlen a2b);;
  check (0 <? num_fsas);;
  check (0 <? beam);;
  ids1 <- row_splits_to_row_ids (v_rs1 v) num_states;;
  ids2 <- row_splits_to_row_ids (v_rs2 v) (zlen (v_arcs v));;
  dests <- dest_states01 v ids2;;
  inc <- incoming_arcs num_states dests;;
  let '(inc_rs2, _, inc_vals) := inc in
  inc_idx <- invert_permutation ord inc_vals;;
  carcs <- mapM (init_carc v ids1 ids2 inc_idx) (zrange (zlen (v_arcs v)));;
  c <- cat_shapes (v_rs1 v) (v_rs2 v) inc_rs2;;
  info <- mapM (init_info v b a2b) (zrange num_fsas);;
  seq_len <- mapM (fun j => x <- rd (b_rs b) j;; y <- rd (b_rs b) (j + 1);; Some (y - x)) (zrange (zlen (b_rs b) - 1));;
  check (nonincreasing seq_len);;
  j0 <- rd a2b 0;;
  T <- rd seq_len j0;;
  copies <- mapM (fun i => j <- rd a2b i;; x <- rd (b_rs b) j;; y <- rd (b_rs b) (j + 1);; Some (1 + y - x)) (zrange num_fsas);;
  nf <- invert_monotonic_decreasing ord copies;;
  check (zlen nf =? T + 1);;
  Some (mkMgdi v b ids1 carcs info (fst c) (snd c) T nf).

(** DoStep0, 747-775 *)
Definition do_step0 (ord : Z -> list Z) (g : mgdi) : option (list (option Z)) :=
  let tot := zlen (v_rs2 (g_v g)) - 1 in
  k2_fill (2 * tot) (ord tot) (fun st01 =>
    k <- rd (g_ids1 g) st01;;
    info <- rd (g_info g) k;;
    let bw := i_st info + st01 in
    let fw := bw + i_ns info in
    let st1 := st01 - i_st info in
    Some [(fw, if st1 =? 0 then Some 0 else None);
          (bw, if st1 + 1 =? i_ns info then Some 0 else None)]).

(** lambda_set_arc_scores, 799-841 *)
Definition set_arc_scores (g : mgdi) (prev : list (option Z)) (t i : Z) : option (list (Z * option Z)) :=
  c <- rd (g_carcs g) i;;
  info <- rd (g_info g) (c_fsa c);;
  fw <- rd prev (2 * i_st info + i_ns info + c_src c);;
  bw <- rd prev (2 * i_st info + c_dst c);;
  r <- (if c_lab1 c <=? b_cols (g_b g) then
          x <- rd (b_data (g_b g)) (i_soff info + b_stride (g_b g) * (t - 1) + c_lab1 c);;
          y <- rd (b_data (g_b g)) (i_soff info + b_stride (g_b g) * (i_T info - t) + c_lab1 c);;
          Some (x, y)
        else Some (None, None));;
  Some [(c_in c, oadd (oadd fw (Some (c_sc c))) (fst r));
        (i + i_arc info, oadd (oadd bw (Some (c_sc c))) (snd r))].

(** DoStep, 777-845: the scores of the states of the first [num_fsas] FSAs *)
Definition do_step (ord : Z -> list Z) (g : mgdi) (prev : list (option Z)) (t : Z) : option (list (option Z)) :=
  nf <- rd (g_nf g) t;;
  n2 <- rd (g_crs1 g) nf;;
  m <- rd (g_crs2 g) n2;;
  arc_scores <- k2_fill m (ord (m / 2)) (set_arc_scores g prev t);;
  mapM (fun j => b <- rd (g_crs2 g) j;; e <- rd (g_crs2 g) (j + 1);;
                 l <- mapM (fun i => rd arc_scores (b + i)) (zrange (e - b));;
                 Some (kmax l)) (zrange n2).

(** Intersect, 207-210 *)
Definition do_steps (ord : Z -> list Z) (g : mgdi) : option (list (list (option Z))) :=
  s0 <- do_step0 ord g;;
  foldM (fun steps t => prev <- rd steps (t - 1);; s <- do_step ord g prev t;; Some (steps ++ [s]))
        (map (fun t => t + 1) (zrange (g_T g))) [s0].

(** GetScoreCutoffs, 865-925, [beam] = output_beam_ *)
Definition score_cutoff (g : mgdi) (steps : list (list (option Z))) (beam k : Z) : option (option Z) :=
  info <- rd (g_info g) k;;
  this <- rd steps (i_T info);;
  p <- (if i_ns info =? 0 then Some (None, None)
        else s <- rd this (2 * i_st info);; e <- rd this (2 * i_st info + 2 * i_ns info - 1);; Some (s, e));;
  let m := if ogt (snd p) (fst p) then fst p else snd p in
  Some (oadd m (Some (- beam))).

(** lambda_set_keep, 264-300: whether state [i] is kept, and its number of arcs *)
Definition keep_state (g : mgdi) (steps : list (list (option Z))) (cut : list (option Z)) (i : Z) : option (bool * Z) :=
  k <- rd (g_ids1 g) (i / (g_T g + 1));;
  info <- rd (g_info g) k;;
  cutoff <- rd cut k;;
  let w := i - (g_T g + 1) * i_st info in
  let t := w / i_ns info in
  let st1 := w mod i_ns info in
  x <- rd (v_rs2 (g_v g)) (i_st info + st1);;
  y <- rd (v_rs2 (g_v g)) (i_st info + st1 + 1);;
  keep <- (if t <=? i_T info then
             st <- rd steps t;; fw <- rd st (2 * i_st info + st1 + i_ns info);;
             sb <- rd steps (i_T info - t);; bw <- rd sb (2 * i_st info + st1);;
             Some (ogt (oadd fw bw) cutoff)
           else Some false);;
  Some (keep, b2z keep * (y - x)).

(** the loop of FormatOutput, 240-318.  [dec] stands for DecreaseBeam (852-860), whose
    float arithmetic is not modelled; [fuel] bounds the number of tries. *)
Fixpoint prune_states (fuel : nat) (dec : Z -> Z -> Z -> Z) (g : mgdi) (steps : list (list (option Z))) (max_states max_arcs beam : Z)
    : option (Z * list (option Z) * list bool) :=
  match fuel with
  | O => None
  | S fuel' =>
      cut <- mapM (score_cutoff g steps beam) (zrange (zlen (g_info g)));;
      let product := (g_T g + 1) * (zlen (v_rs2 (g_v g)) - 1) in
      ks <- mapM (keep_state g steps cut) (zrange product);;
      let tot_states := zsum (map b2z (map fst ks)) in
      if max_states <? tot_states then prune_states fuel' dec g steps max_states max_arcs (dec beam max_states tot_states)
      else
        let tot_arcs := zsum (map snd ks) in
        if max_arcs <? tot_arcs then prune_states fuel' dec g steps max_states max_arcs (dec beam max_arcs tot_arcs)
        else Some (beam, cut, map fst ks)
  end.

(** lambda_set_row_ids2, 355-390: row id, state of the graph and number of arcs *)
Definition out_state (g : mgdi) (ans_rs1 : list Z) (old_i : Z) : option (Z * Z * Z) :=
  k <- rd (g_ids1 g) (old_i / (g_T g + 1));;
  info <- rd (g_info g) k;;
  let w := old_i - (g_T g + 1) * i_st info in
  let t := w / i_ns info in
  let st01 := i_st info + w mod i_ns info in
  idx0x <- rd ans_rs1 k;;
  x <- rd (v_rs2 (g_v g)) st01;;
  y <- rd (v_rs2 (g_v g)) (st01 + 1);;
  Some (idx0x + t, st01, if t =? i_T info then 0 else y - x).

(** the common part of lambda_set_keep (408-470) and lambda_set_arcs_and_maps
    (497-590): graph arc, index of the frame score, source and destination states
    in the output, whether the destination is kept, and the score of the best path
    through the arc *)
Definition out_arc (g : mgdi) (steps : list (list (option Z))) (o2n : list Z) (ans_rs1 ans_ids1 ans_ids2 ans_st01 ans_rs3 : list Z) (i st012 : Z)
    : option (Z * Z * carc * option Z * Z * bool * option Z * Z) :=
  idx012x <- rd ans_rs3 st012;;
  idx01 <- rd ans_ids2 st012;;
  k <- rd ans_ids1 idx01;;
  idx0x <- rd ans_rs1 k;;
  let t := idx01 - idx0x in
  let idx3 := i - idx012x in
  st01 <- rd ans_st01 st012;;
  info <- rd (g_info g) k;;
  let st1 := st01 - i_st info in
  a01x <- rd (v_rs2 (g_v g)) st01;;
  let a := a01x + idx3 in
  c <- rd (g_carcs g) a;;
  check (st1 =? c_src c);;
  let si := i_soff info + b_stride (g_b g) * t + c_lab1 c in
  x <- rd (b_data (g_b g)) si;;
  let arc_score := oadd (Some (c_sc c)) x in
  let us := i_st info * (g_T g + 1) + t * i_ns info + st1 in
  let ud := i_st info * (g_T g + 1) + (t + 1) * i_ns info + c_dst c in
  n <- rd o2n us;;
  check (n =? st012);;
  check (t <? i_T info);;
  d <- rd o2n ud;;
  d' <- rd o2n (ud + 1);;
  r <- (if d <? d' then
          sf <- rd steps t;; fw <- rd sf (2 * i_st info + i_ns info + st1);;
          sb <- rd steps (i_T info - (t + 1));; bw <- rd sb (2 * i_st info + c_dst c);;
          Some (oadd (oadd fw arc_score) bw)
        else Some None);;
  Some (a, si, c, arc_score, d, d <? d', r, k).

(** FormatOutput, 236-610: row splits, arcs (scores may be -inf), arc maps, and
    the beam finally used *)
Definition format_output (ord : Z -> list Z) (fuel : nat) (dec : Z -> Z -> Z -> Z) (g : mgdi) (steps : list (list (option Z))) (max_states max_arcs beam : Z)
    : option (list Z * list Z * list (Z * Z * Z * option Z) * list Z * list Z * Z) :=
  p <- prune_states fuel dec g steps max_states max_arcs beam;;
  let '(beam', cut, keep) := p in
  n2o <- new2old (ord (zlen keep + 1)) keep;;
  let o2n := old2new keep in
  let ans_rs1 := exsum (map (fun info => i_T info + 1) (g_info g)) in
  tot_t <- rd ans_rs1 (zlen (g_info g));;
  ans_ids1 <- row_splits_to_row_ids ans_rs1 tot_t;;
  os <- mapM (out_state g ans_rs1) n2o;;
  let ans_ids2 := map (fun x => fst (fst x)) os in
  let ans_st01 := map (fun x => snd (fst x)) os in
  ans_rs2 <- row_ids_to_row_splits ans_ids2 (zlen ans_ids1);;
  let ans_rs3 := exsum (map snd os) in
  tot_arcs <- rd ans_rs3 (zlen os);;
  ans_ids3 <- row_splits_to_row_ids ans_rs3 tot_arcs;;
  let oa i := st <- rd ans_ids3 i;; out_arc g steps o2n ans_rs1 ans_ids1 ans_ids2 ans_st01 ans_rs3 i st in
  (* GetNew2OldAndRowIds, algorithms.h:266-380, without its chunks *)
  ka <- mapM (fun i => r <- oa i;; let '(_, _, _, _, _, kept, s, k) := r in
                       cutoff <- rd cut k;; Some (kept && ogt s cutoff)) (zrange tot_arcs);;
  an2o <- new2old (ord (zlen ka + 1)) ka;;
  sub_ids3 <- mapM (rd ans_ids3) an2o;;
  out <- mapM (fun i =>
           r <- oa i;; let '(a, si, c, score, d, kept, s, k) := r in
           check kept;;
           cutoff <- rd cut k;; check (negb (ogt cutoff s));;
           st <- rd ans_ids3 i;;
           idx0x <- rd ans_rs1 k;; idx0xx <- rd ans_rs2 idx0x;;
           Some ((st - idx0xx, d - idx0xx, c_lab1 c - 1, score), (a, si))) an2o;;
  sub_rs3 <- row_ids_to_row_splits sub_ids3 (zlen os);;
  (* RemoveAxis(ans_shape, 1) *)
  rs1 <- mapM (rd ans_rs2) ans_rs1;;
  Some (rs1, sub_rs3, map fst out, map (fun x => fst (snd x)) out, map (fun x => snd (snd x)) out, beam').

(** IntersectDense, 1038-1073 *)
Definition intersect_dense (ord : Z -> list Z) (fuel : nat) (dec : Z -> Z -> Z -> Z) (v : fsavec) (b : dmat) (a2b : option (list Z)) (beam max_states max_arcs : Z)
    : option (list Z * list Z * list (Z * Z * Z * option Z) * list Z * list Z * Z) :=
  m <- (match a2b with
        | None => check (zlen (v_rs1 v) =? zlen (b_rs b));; Some (zrange (zlen (v_rs1 v) - 1))
        | Some m => check (nondecreasing m);; Some m
        end);;
  g <- construct ord v b m beam;;
  steps <- do_steps ord g;;
  format_output ord fuel dec g steps max_states max_arcs beam.
