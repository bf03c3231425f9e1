(** * Model of Nbest, k2/python/k2/nbest.py.

    Scores are integers (C30 relates a path's total score to its arcs).  The
    lattice's aux_labels are a tensor; the branches for a ragged attribute
    (lines 145-147, 179-186) are not modelled. *)
From Coq Require Import ZArith List Lia Bool.
From Verif Require Import Base RaggedModel FsaSpec RaggedOpsModel OpsModel FsaOpsModel GraphModel LinearModel UniqueModel.
Import ListNotations.
Open Scope Z_scope.

(** RemoveValuesLeq / RemoveValuesEq (ragged_ops_inl.h:308-332) on the last
    axis: Renumbering and SubsetRagged (Index on the last axis). *)
Definition remove_values (sched : Z -> list Z) (keep : Z -> bool) (l : layer) (values : list Z) : option (layer * list Z) :=
  n2o <- new2old (sched (zlen values + 1)) (map keep values);;
  r <- index_last (l_ids l) (zlen (l_rs l) - 1) n2o;;
  vs <- mapM (rd values) n2o;;
  Some (mk_layer (fst r) (snd r), vs).

(** the arcs' attributes of an FsaVec (from_lattice reads only these) *)
Record lattice := mkLat { la_labels : list Z; la_aux : list Z; la_scores : list Z }.

(** nbest.py:80-92 Nbest.__init__: fields fsa (with aux_labels), shape,
    kept_path; the assertion compares the number of FSAs with the number of
    paths of the shape. *)
Record nbest := mkNbest { nb_fsa : fsavec; nb_aux : list Z; nb_shape : layer; nb_path : layer * list Z }.
Definition make_nbest (v : fsavec) (aux : list Z) (shape : layer) (path : layer * list Z) : option nbest :=
  check (zlen (v_rs1 v) - 1 =? zlen (l_ids shape));;
  Some (mkNbest v aux shape path).

(** nbest.py:139-198, from the sampled paths (layers [utt][path], [path][arc])
    on.  The setters of aux_labels and scores check the length (fsa.py:395). *)
Definition nbest_of_paths (sched : Z -> list Z) (lat : lattice) (p1 p2 : layer) (pv : list Z) : option nbest :=
  ws <- index1 0 (la_aux lat) pv;;                                     (* 143-144 *)
  ws' <- remove_values sched (fun v => 0 <? v) p2 ws;;                 (* 148 *)
  u <- unique_sequences sched p1 (fst ws') (snd ws');;                 (* 157-159 *)
  kept <- index_axis1 p1 p2 pv (snd u);;                               (* 163 *)
  match kept with (k1, k2, kv) =>                                      (* 166, 170 *)
    labs <- index1 0 (la_labels lat) kv;;                              (* 174 *)
    labs' <- remove_values sched (fun v => negb (v =? -1)) k2 labs;;   (* 177 *)
    aux <- index_select1 (la_aux lat) kv 0;;                           (* 188 *)
    o <- linear_fsas (sched (zlen (snd labs') + 2 * (zlen (l_rs (fst labs')) - 1))) (l_rs (fst labs')) (snd labs');;  (* 191 *)
    check (zlen aux =? zlen (v_arcs (vo_vec o)));;                     (* 192 *)
    s <- index_select1 (la_scores lat) kv 0;;
    v <- set_scores (vo_vec o) s;;                                     (* 196 *)
    make_nbest v aux k1 (k2, kv)
  end.

(** nbest.py:100-198 from_lattice.  Returns the lattice's scores after the call
    and the result (None: an exception).  [scale] multiplies a score by
    nbest_scale; [random_paths] is k2.random_paths on the lattice with the given
    scores, None if it raises. *)
Definition from_lattice (sched : Z -> list Z) (scale : Z -> Z)
           (random_paths : list Z -> option (layer * layer * list Z)) (lat : lattice)
  : list Z * option nbest :=
  let saved := la_scores lat in                                        (* 130 *)
  let scaled := map scale (la_scores lat) in                           (* 131 *)
  match random_paths scaled with
  | None => (scaled, None)                                             (* 134: raises *)
  | Some (p1, p2, pv) =>
      (saved, nbest_of_paths sched (mkLat (la_labels lat) (la_aux lat) saved) p1 p2 pv)   (* 137 *)
  end.

(** nbest.py:254-292 top_k, k >= 0.  [rs] are the row splits of self.shape,
    [tot] the total scores (total_scores, 240-252); [l1], [l2], [arcs] the FsaVec
    self.fsa.  sort_ (descending) with the new2old map; pad with
    mode='replicate' on the right; [:, :k].flatten(); index_fsa (ops.py:159-195);
    regular_ragged_shape(dim0, k) has dim0 * k elements, which Nbest.__init__
    compares with the number of FSAs.  Returns the FsaVec, the arc map that
    index_fsa applies to the attributes, and the number of paths per utterance. *)
Definition top_k (rs : list Z) (tot : list Z) (l1 l2 : layer) (arcs : list arc) (k : nat)
  : option (list layer * list arc * list Z) :=
  so <- sort_sublists (fun a b => b <? a) rs tot;;
  padded <- pad_ragged rs (snd so) false false (-1);;
  check (forallb (forallb (fun i => 0 <=? i)) padded);;
  let idx := concat (map (firstn k) padded) in
  r <- ragged_index [l1; l2] arcs idx;;
  check (zlen idx =? (zlen rs - 1) * Z.of_nat k);;
  Some r.

(** nbest.py:364-419 generate_nbest_list, from the sampled paths on: [tokens] is
    the attribute lats.tokens. *)
Definition nbest_list_of_paths (sched : Z -> list Z) (tokens : list Z) (p1 p2 : layer) (pv : list Z) : option (fsavec * layer) :=
  ts <- index1 0 tokens pv;;                                           (* 400 *)
  ts' <- remove_values sched (fun v => 0 <? v) p2 ts;;                 (* 403 *)
  u <- unique_sequences sched p1 (fst ts') (snd ts');;                 (* 408 *)
  match u with (((u1, u2), uv), _, _) =>                               (* 411, 415 *)
    o <- linear_fsas (sched (zlen uv + 2 * (zlen (l_rs u2) - 1))) (l_rs u2) uv;;
    check (zlen (v_rs1 (vo_vec o)) - 1 =? zlen (l_ids u1));;           (* 419 *)
    Some (vo_vec o, u1)
  end.
