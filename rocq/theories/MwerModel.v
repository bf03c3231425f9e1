(** * Model of k2.mwer_loss: k2/python/k2/mwer_loss.py, on top of the models of
    Nbest.from_lattice (NbestModel), levenshtein_graph and levenshtein_alignment
    (LevAlignModel) and get_tot_scores (ScoreModel).

    The scores of the lattice are integers in a unit [w]; those of the Levenshtein
    graphs are integers in a unit [u].  Losses are exact reals: rounding is not
    modelled, nor is autograd.  [use_double_scores] only chooses the precision. *)
From Coq Require Import ZArith List Bool Reals.
From Verif Require Import Base RaggedModel FsaSpec RaggedOpsModel OpsModel FsaOpsModel GraphModel LogReal ScoreModel LinearModel UniqueModel NbestModel IDevModel LevAlignModel CtcLossModel.
Import ListNotations.
Open Scope Z_scope.

(** nbest.py:19-62 _get_texts with return_ragged=True, for aux_labels that are a
    tensor (lines 51-56): arcs.shape().remove_axis(1), RaggedTensor(shape, values)
    (which checks the number of values), remove_values_leq(0).  The row ids of the
    arcs' shape are those of its row splits. *)
Definition get_texts (sched : Z -> list Z) (v : fsavec) (aux : list Z) : option (layer * list Z) :=
  ids1 <- row_splits_to_row_ids (v_rs1 v) (zlen (v_rs2 v) - 1);;
  ids2 <- row_splits_to_row_ids (v_rs2 v) (zlen (v_arcs v));;
  s <- remove_axis [mk_layer (v_rs1 v) ids1; mk_layer (v_rs2 v) ids2] 1;;
  match s with
  | [l] => check (zlen (l_ids l) =? zlen aux);; remove_values sched (fun x => 0 <? x) l aux
  | _ => None
  end.

(** nbest.py:294-297 build_levenshtein_graphs; [half], [ins_del]: as in
    levenshtein_graph *)
Definition build_levenshtein_graphs (sched : Z -> list Z) (half ins_del : Z) (nb : nbest) : option graph :=
  t <- get_texts sched (nb_fsa nb) (nb_aux nb);;
  levenshtein_graph half ins_del (l_rs (fst t)) (snd t).

(** ragged_ops_inl.h:120-164 NormalizePerSublist with use_log, on two axes.  The sum
    of an empty sublist is -inf ([None]); no element reads it. *)
Definition normalize_log (l : layer) (values : list R) : option (list R) :=
  rows <- to_vec_vec (l_rs l) values;;
  let sums := map (fun r => fold_left (logadd None) (map Some r) None) rows in
  mapM (fun i => row <- rd (l_ids l) i;; n <- rd sums row;; x <- rd values i;; n' <- n;; Some (x - n')%R) (zrange (zlen values)).

(** mwer_loss.py:118-124: what forward returns *)
Inductive mwer := scalar (r : R) | ragged (shape : layer) (values : list R).

(** torch.sum, torch.mean of a 1-D tensor (the mean of no elements, nan, is not
    modelled) *)
Definition tsum (xs : list R) : R := fold_right Rplus 0%R xs.

(** mwer_loss.py:83-124 MWERLoss.forward (and 127-179 mwer_loss).  Returns the
    lattice's scores after the call and the loss.  [scale] multiplies a score by
    nbest_scale; [refs]: row splits and values of ref_texts; [sched], [random_paths]:
    as in from_lattice; [fuel], [ord], [lp], [lp'], [lp'']: as in
    levenshtein_alignment and get_tot_scores.  An infinite total score, which
    would make the loss infinite, is [None] here. *)
Definition mwer_loss (sched : Z -> list Z) (scale : Z -> Z) (random_paths : list Z -> option (layer * layer * list Z))
    (half ins_del : Z) (u w : R) (fuel : nat) (ord : Z -> list Z) (lp lp' lp'' : nat)
    (temperature : R) (red : reduction) (lat : lattice) (refs : list Z * list Z) : list Z * option mwer :=
  let r := from_lattice sched scale random_paths lat in                    (* 83-88 *)
  (fst r,
   nb <- snd r;;
   let path_arc_shape := fst (nb_path nb) in                               (* 90 *)
   let stream_path_shape := nb_shape nb in                                 (* 91 *)
   hyps <- build_levenshtein_graphs sched half ins_del nb;;                (* 93 *)
   rg <- levenshtein_graph half ins_del (fst refs) (snd refs);;            (* 94 *)
   let n := zlen (v_rs1 (g_vec hyps)) - 1 in
   al <- levenshtein_alignment u fuel ord lp (sched (n * 2 ^ Z.of_nat lp)) lp' (sched (n * 2 ^ Z.of_nat lp'))
           rg hyps (l_ids (nb_shape nb)) true;;                            (* 95-100 *)
   let av := al_vec (fst al) in
   tot_scores <- get_tot_scores false lp'' (sched (n * 2 ^ Z.of_nat lp'')) ord av
                   (map (fun a => Some (u * IZR (sc a))%R) (v_arcs av));;  (* 102-104 *)
   wers <- mapM (option_map Ropp) tot_scores;;                             (* 106 *)
   let scores := map sc (v_arcs (nb_fsa nb)) in
   check (zlen (l_ids path_arc_shape) =? zlen scores);;                    (* 109 *)
   sums <- sum_per_sublist (l_rs path_arc_shape) scores;;
   let path_logp := map (fun z => (w * IZR z / temperature)%R) sums in     (* 112 *)
   check (zlen (l_ids stream_path_shape) =? zlen path_logp);;              (* 114 *)
   norm <- normalize_log stream_path_shape path_logp;;                     (* 115 *)
   check (zlen norm =? zlen wers);;
   let values := map (fun x => (exp (fst x) * snd x)%R) (combine norm wers) in   (* 115, 117 *)
   match red with                                                          (* 118-123 *)
   | red_sum => Some (scalar (tsum values))
   | red_mean => Some (scalar (tsum values / IZR (zlen values))%R)
   | red_none => check (zlen (l_ids stream_path_shape) =? zlen values);; Some (ragged stream_path_shape values)
   end).
