(** * Model of k2.levenshtein_graph and k2.levenshtein_alignment
      (k2/python/k2/fsa_algo.py:1333-1453)

    Scores are exact: arcs carry integers and [u] is the unit, as in ShortestModel.
    Attributes of an Fsa object are the fields of a record; [None] is an attribute
    that is not there.  Not modelled: autograd, the same object passed as refs and
    hyps, and other attributes a user may have added. *)
From Coq Require Import ZArith List Bool Reals.
From Verif Require Import Base RaggedModel FsaSpec RaggedOpsModel OpsModel FsaOpsModel GraphModel ScoreModel ShortestModel IDevModel.
Import ListNotations.
Open Scope Z_scope.

(** An FsaVec with its attributes aux_labels, hyp_labels and
    __ins_del_score_offset_internal_attr_ *)
Record graph := mkGraph { g_vec : fsavec; g_aux : option (list Z); g_hyp : option (list Z); g_off : list Z }.

(** fsa_algo.py:1366-1375.  [half]: the 0.5 of fsa_utils.cu in the unit of scores *)
Definition levenshtein_graph (half ins_del : Z) (rs syms : list Z) : option graph :=
  r <- levenshtein_graphs half ins_del rs syms;;
  Some (mkGraph (fst r) (Some (map fst (snd r))) None (map snd (snd r))).

(** utils.py:423-463 and 552-640: index_select of an attribute by an arc map.  The
    arc maps have no -1 here, for which the filler would be taken. *)
Definition gather (attr : list Z) (arc_map : list Z) : option (list Z) := mapM (rd attr) arc_map.

(** fsa_utils.cu:2733-2763 FixFinalLabels, three axes: thread i reads and writes
    labels[i] only.  [None] is K2_CHECK_EQ failing. *)
Definition fix_final_vec (v : fsavec) (labels : list Z) : option (list Z) :=
  let num_arcs := zlen (v_arcs v) in
  ids2 <- row_splits_to_row_ids (v_rs2 v) num_arcs;;
  ids1 <- row_splits_to_row_ids (v_rs1 v) (zlen (v_rs2 v) - 1);;
  mapM (fun i => a <- rd (v_arcs v) i;; s <- rd ids2 i;; k <- rd ids1 s;; b <- rd (v_rs1 v) k;; e <- rd (v_rs1 v) (k + 1);; l <- rd labels i;;
          if dst a + b + 1 =? e then if l =? -1 then Some (-1) else (check (l =? 0);; Some (-1))
          else if l =? -1 then Some 0 else Some l) (zrange num_arcs).

(** The result: arcs (labels and scores included), ref_labels and hyp_labels *)
Record alignment := mkAl { al_vec : fsavec; al_ref : list Z; al_hyp : list Z }.

(** fsa_algo.py:1435-1453.  The result, and hyps, whose aux_labels have been renamed.
    [fuel], [ord], [lp], [sched]: as in the models of the functions called. *)
Definition levenshtein_alignment (u : R) (fuel : nat) (ord : Z -> list Z) (lp : nat) (sched : list Z) (lp' : nat) (sched' : list Z)
    (refs hyps : graph) (hyp_to_ref_map : list Z) (sorted_match_ref : bool) : option (alignment * graph) :=
  (* 1435-1438 *)
  raux <- g_aux refs;; haux <- g_aux hyps;;
  let hyps' := mkGraph (g_vec hyps) None (Some haux) (g_off hyps) in
  (* 1440-1443; utils.py:590-598: an int attribute of both is an error *)
  r <- intersect_device fuel ord sorted_match_ref (g_vec refs) (g_vec hyps') hyp_to_ref_map;;
  check (match g_hyp refs with None => true | _ => false end);;
  let '(lat, ma, mb) := r in
  aux1 <- gather raux ma;; hyp1 <- gather haux mb;;
  offa <- gather (g_off refs) ma;; offb <- gather (g_off hyps) mb;;
  let off1 := map (fun x => fst x + snd x) (combine offa offb) in
  (* 1444 *)
  o <- remove_eps_loops (ord (zlen (v_arcs lat) + 1)) lat;;
  let n2o := vo_map o in
  aux2 <- gather aux1 n2o;; hyp2 <- gather hyp1 n2o;; off2 <- gather off1 n2o;;
  (* 1446 *)
  p <- shortest_path lp sched ord (vo_vec o) (map (fun a => Some (u * IZR (sc a))%R) (v_arcs (vo_vec o))) lp' sched';;
  aux3 <- gather aux2 (snd p);; hyp3 <- gather hyp2 (snd p);; off3 <- gather off2 (snd p);;
  (* invert_ (fsa.py:924-956) and 1446-1448: the labels become aux_labels, then
     labels again; the aux labels become labels, are fixed, and are ref_labels *)
  ref <- fix_final_vec (fst p) aux3;;
  (* 1450-1451 *)
  let arcs := map (fun x => mkArc (src (fst x)) (dst (fst x)) (lab (fst x)) (sc (fst x) - snd x)) (combine (v_arcs (fst p)) off3) in
  Some (mkAl (mkVec (v_rs1 (fst p)) (v_rs2 (fst p)) arcs) ref hyp3, hyps').
