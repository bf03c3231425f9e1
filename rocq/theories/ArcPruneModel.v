(** * Model of k2.prune_on_arc_post: k2/python/k2/fsa_algo.py:976-1006 and
      PruneOnArcPost, k2/csrc/fsa_utils.cu:2688-2721.

    Scores are exact reals or -inf ([None]).  NaN is not modelled: it occurs in FSAs
    without a successful path, see get_arc_post in ScoreModel. *)
From Coq Require Import ZArith List Bool Reals.
From Verif Require Import Base RaggedModel FsaSpec RaggedOpsModel OpsModel FsaOpsModel LogReal ScoreModel.
Import ListNotations.
Open Scope Z_scope.

(** fsa_utils.cu:2706-2717 lambda_set_keep, for one arc *)
Definition keep_arc (threshold_log_prob : R) (arc_post : option R) : bool :=
  match arc_post with
  | Some x => if Rlt_dec x threshold_log_prob then false else true
  | None => false
  end.

(** fsa_utils.cu:2688-2721 and, for Index on axis 2 (ragged_ops.cu, all states are
    kept), the same steps as in [remove_eps_loops].  [sched]: the order of the
    threads of the Renumbering. *)
Definition prune_arcs (sched : list Z) (v : fsavec) (arc_post : list (option R)) (threshold_prob : R) : option vec_out :=
  check (if Rlt_dec 0 threshold_prob then true else false);;
  check (if Rlt_dec threshold_prob 1 then true else false);;
  check (zlen (v_arcs v) =? zlen arc_post);;
  n2o <- new2old sched (map (keep_arc (ln threshold_prob)) arc_post);;
  rids2 <- row_splits_to_row_ids (v_rs2 v) (zlen (v_arcs v));;
  r <- index_last rids2 (zlen (v_rs2 v) - 1) n2o;;
  vals <- mapM (rd (v_arcs v)) n2o;;
  Some (mkVOut (mkVec (v_rs1 v) (fst r) vals) (snd r) n2o).

(** fsa_algo.py:993-1002: the posteriors are those of the log semiring.  [lp],
    [sched'], [ord]: as in get_arc_post. *)
Definition prune_on_arc_post (sched : Z -> list Z) (lp : nat) (sched' : list Z) (ord : Z -> list Z)
    (v : fsavec) (scores : list (option R)) (threshold_prob : R) : option vec_out :=
  post <- get_arc_post true lp sched' ord v scores;;
  prune_arcs (sched (zlen (v_arcs v) + 1)) v post threshold_prob.
