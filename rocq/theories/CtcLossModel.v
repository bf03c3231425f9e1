(** * Model of k2.ctc_loss: k2/python/k2/ctc_loss.py, on top of the models of
    ctc_graph (GraphModel), intersect_dense (IDenseModel) and get_tot_scores
    (ScoreModel).

    The scores of the graphs and of the frames, and the beam, are integers, in a unit
    [u] (all floats are multiples of one); the losses and the penalty are exact
    reals.  Rounding is not modelled.  [use_double_scores] only chooses the
    precision.  The branch for graphs with the attribute _is_repeat_token_ is not
    modelled. *)
From Coq Require Import ZArith List Bool Reals.
From Verif Require Import Base RaggedModel RaggedOpsModel OpsModel FsaSpec GraphModel LogReal BatchModel ScoreModel IDenseModel.
Import ListNotations.
Open Scope Z_scope.

(** k2/python/k2/dense_fsa_vec.py:147-156 (and 141) DenseFsaVec.duration: the number
    of frames of every sequence, without the added last row *)
Definition dense_durations (rs : list Z) : option (list Z) :=
  mapM (fun k => b <- rd rs k;; e <- rd rs (k + 1);; Some (e - b - 1)) (zrange (zlen rs - 1)).

(** k2/python/k2/autograd.py:600-614 _IntersectDenseFunction.forward: the attribute
    frame_idx.  RaggedShape::RowIds(1) is computed from the row splits. *)
Definition frame_idxs (rs : list Z) (num_cols : Z) (arc_map_b : list Z) : option (list Z) :=
  let seqframe_idx := map (fun b => b / num_cols) arc_map_b in
  rows <- rd rs (zlen rs - 1);;
  ids <- row_splits_to_row_ids rs rows;;
  fsa_idx0 <- index_select1 ids seqframe_idx 0;;
  first <- index_select1 rs fsa_idx0 0;;
  mapM (fun j => s <- rd seqframe_idx j;; o <- rd first j;; Some (s - o)) (zrange (zlen seqframe_idx)).

(** k2/csrc/ragged_ops_inl.h:93-117 AddPerSublist, on two axes with row ids [ids];
    [n] rows *)
Definition add_per_sublist (n : Z) (ids src value : list Z) (alpha : Z) : option (list Z) :=
  check (n =? zlen value);;
  mapM (fun i => row <- rd ids i;; v <- rd value row;; x <- rd src i;; Some (x + v * alpha)) (zrange (zlen src)).

(** ctc_loss.py:87-124: the penalties of the arcs.  The shape of frame_idx is that of
    the arcs without axis 1 (RemoveAxis, ragged_ops.cu:887-913: the row ids are
    composed). *)
Definition delay_penalties (delay_penalty : R) (rs1 rs2 : list Z) (b_rs : list Z) (num_cols : Z)
    (aux_labels arc_map_a arc_map_b : list Z) : option (list R) :=
  frame_idx <- frame_idxs b_rs num_cols arc_map_b;;
  states <- rd rs1 (zlen rs1 - 1);;
  arcs <- rd rs2 (zlen rs2 - 1);;
  ids1 <- row_splits_to_row_ids rs1 states;;
  ids2 <- row_splits_to_row_ids rs2 arcs;;
  ids <- mapM (rd ids1) ids2;;
  duration <- dense_durations b_rs;;
  offset <- add_per_sublist (zlen rs1 - 1) ids frame_idx (map (fun d => Z.shiftr d 1) duration) (-1);;
  (* autograd.py:578-580: the attribute of the lattice *)
  aux <- index_select1 aux_labels arc_map_a 0;;
  mapM (fun j => o <- rd offset j;; a <- rd aux j;;
                 Some (if (a =? 0) || (a =? -1) then 0%R else (- delay_penalty * IZR o)%R)) (zrange (zlen offset)).

Inductive reduction := red_none | red_sum | red_mean.

(** ctc_loss.py:129-140.  A loss is a real or +inf ([None]); a scalar is a list of
    one element.  The quotient by a length 0 is not modelled. *)
Definition losses_sum (losses : list (option R)) : option R := fold_right ladd lzero losses.
Definition reduce_losses (red : reduction) (losses : list (option R)) (target_lengths : list Z) : option (list (option R)) :=
  match red with
  | red_none => Some losses
  | red_sum => Some [losses_sum losses]
  | red_mean =>
      check (zlen losses =? zlen target_lengths);;
      ls <- mapM (fun i => x <- rd losses i;; n <- rd target_lengths i;; Some (option_map (fun r => (r / IZR n)%R) x)) (zrange (zlen losses));;
      Some [option_map (fun r => (r / IZR (zlen ls))%R) (losses_sum ls)]
  end.

(** ctc_loss.py:53-140 CtcLoss.forward (and 143-190 ctc_loss).  [graphs] and
    [aux_labels]: the decoding graphs; [dense]: the frames; the limits are the
    defaults of intersect_dense (autograd.py:754-755).  [ord], [fuel] and [dec] are
    the parameters of intersect_dense, [lp], [sched] and [ord'] those of
    get_tot_scores. *)
Definition ctc_loss (ord : Z -> list Z) (fuel : nat) (dec : Z -> Z -> Z -> Z) (lp : nat) (sched : list Z) (ord' : Z -> list Z)
    (u : R) (graphs : fsavec) (aux_labels : list Z) (dense : dmat) (output_beam : Z) (delay_penalty : R)
    (red : reduction) (target_lengths : list Z) : option (list (option R)) :=
  lattice <- intersect_dense ord fuel dec graphs dense None output_beam 15000000 1073741824;;
  let '(rs1, rs2, arcs, arc_map_a, arc_map_b, _) := lattice in
  (* the scores of the lattice, as reals *)
  let scores := map (fun a => option_map (fun z => (u * IZR z)%R) (snd a)) arcs in
  scores <- (if Rlt_dec 0 delay_penalty then
               penalty <- delay_penalties delay_penalty rs1 rs2 (b_rs dense) (b_cols dense) aux_labels arc_map_a arc_map_b;;
               mapM (fun j => s <- rd scores j;; p <- rd penalty j;; Some (ladd s (Some p))) (zrange (zlen scores))
             else Some scores);;
  (* get_tot_scores takes the scores separately *)
  let fsas := mkVec rs1 rs2 (map (fun a => let '(s, d, l, x) := a in mkArc s d l (match x with Some z => z | None => 0 end)) arcs) in
  tot <- get_tot_scores true lp sched ord' fsas scores;;
  reduce_losses red (map lneg tot) target_lengths.
