(** * Model of attribute propagation (k2/python/k2/utils.py:423-641).

    A python Fsa is reduced to its arcs, its tensor attributes other than
    labels and scores, and its non-tensor attributes.  [hasattr] looks only at
    these (a user attribute named like a method of the class Fsa is not
    considered). *)
From Coq Require Import ZArith List Lia Bool String.
From Verif Require Import Base PyBase RaggedModel FsaSpec RaggedOpsModel OpsModel FsaObjModel.
Import ListNotations.
Open Scope Z_scope.

Record pyfsa := mkPy { p_arcs : fsa; p_tens : dict str attr; p_non : dict str pv }.

(** fsa.py:318-340 get_filler *)
Definition get_filler (o : pyfsa) (name : str) : option Z :=
  let n := name ++ s2z "_filler" in
  check (negb (dmem (p_tens o) n));;           (* float(tensor) *)
  z <- match dget (p_non o) n with None => Some 0 | Some (PNum z) => Some z | Some (PObj _) => None end;;
  check ((if eqd name (s2z "aux_labels") then false else true) || (z =? 0));;
  Some z.

(** fsa.py:395, 418: setattr of a tensor *)
Definition set_tens (o : pyfsa) (name : str) (v : attr) : option pyfsa :=
  check (attr_len (p_arcs o) v =? zlen (arcs (p_arcs o)));;
  Some (mkPy (p_arcs o) (dset (p_tens o) name v) (p_non o)).
Definition set_non (o : pyfsa) (name : str) (v : pv) : pyfsa :=
  mkPy (p_arcs o) (p_tens o) (dset (p_non o) name v).

(** utils.py:447-457, 591-600, 603-615: one attribute through a tensor arc map. *)
Definition carry (src : pyfsa) (name : str) (v : attr) (arc_map : list Z) : option attr :=
  match v with
  | AI x => filler <- get_filler src name;; r <- index_select1 x arc_map filler;; Some (AI r)
  | AF x => filler <- get_filler src name;; r <- index_select1 x arc_map filler;; Some (AF r)
  | AR ls x => r <- ragged_index ls x arc_map;; Some (AR (fst (fst r)) (snd (fst r)))
  | _ => None
  end.

(** utils.py:423-463 fsa_from_unary_function_tensor (the last line only
    connects autograd) *)
Definition unary_tensor (src : pyfsa) (dest_arcs : fsa) (arc_map : list Z) : option pyfsa :=
  d <- foldM (fun d kv => v <- carry src (fst kv) (snd kv) arc_map;; set_tens d (fst kv) v)
             (p_tens src) (mkPy dest_arcs [] []);;
  Some (fold_left (fun d kv => set_non d (fst kv) (snd kv)) (p_non src) d).

(** ragged_ops_inl.h:321-332 RemoveValuesEq, two axes *)
Definition remove_values_eq (sched : Z -> list Z) (l : layer) (values : list Z) (target : Z) : option (layer * list Z) :=
  n2o <- new2old (sched (zlen values + 1)) (map (fun x => negb (x =? target)) values);;
  r <- index_last (l_ids l) (zlen (l_rs l) - 1) n2o;;
  vs <- mapM (rd values) n2o;;
  Some (mk_layer (fst r) (snd r), vs).

(** utils.py:505-522: -1 on final arcs is turned into the filler. *)
Definition hide_final (labels : list Z) (x : list Z) (filler : Z) : list Z :=
  if filler =? -1 then x
  else map (fun p => if (fst p =? -1) && (snd p =? -1) then filler else snd p) (combine labels x).

(** utils.py:499-545: one attribute through a ragged arc map [(al, av)]. *)
Definition carry_ragged (sched : Z -> list Z) (src : pyfsa) (name : str) (v : attr) (al : layer) (av : list Z)
           (remove_filler : bool) : option attr :=
  match v with
  | AI x =>
      check remove_filler;;                                        (* dtype assertion, line 537 *)
      filler <- get_filler src name;;
      vs <- index1 filler (hide_final (map lab (arcs (p_arcs src))) x filler) av;;
      r <- remove_values_eq sched al vs filler;;
      Some (AR [fst r] (snd r))
  | AF x => r <- index_and_sum x (l_rs al) av;; Some (AF r)
  | AR ls x => r <- ragged_index_ragged ls x [al] av true;; Some (AR (fst r) (snd r))
  | _ => None
  end.
(** utils.py:466-554 fsa_from_unary_function_ragged *)
Definition unary_ragged (sched : Z -> list Z) (src : pyfsa) (dest_arcs : fsa) (al : layer) (av : list Z) (remove_filler : bool)
  : option pyfsa :=
  d <- foldM (fun d kv => v <- carry_ragged sched src (fst kv) (snd kv) al av remove_filler;; set_tens d (fst kv) v)
             (p_tens src) (mkPy dest_arcs [] []);;
  Some (fold_left (fun d kv => set_non d (fst kv) (snd kv)) (p_non src) d).

Definition has_name (o : pyfsa) (name : str) : bool := dmem (p_tens o) name || dmem (p_non o) name.

(** elementwise sum of two tensors of the same length *)
Definition tadd (x y : list Z) : option (list Z) :=
  check (zlen x =? zlen y);; Some (map (fun p => fst p + snd p) (combine x y)).

(** utils.py:586-615, a tensor attribute of the first operand *)
Definition carry_a (a b : pyfsa) (name : str) (v : attr) (a_map b_map : list Z) : option attr :=
  _ <- get_filler a name;;
  if has_name b name then
    match v, dget (p_tens b) name with
    | AF x, Some (AF y) =>
        filler <- get_filler a name;;
        xa <- index_select1 x a_map filler;;
        yb <- index_select1 y b_map filler;;
        r <- tadd xa yb;; Some (AF r)
    | _, _ => None
    end
  else carry a name v a_map.
(** utils.py:586-606 for the name scores: the sum is written to the arcs. *)
Definition add_scores (a b : pyfsa) (a_map b_map : list Z) (dest : fsa) : option fsa :=
  filler <- get_filler a (s2z "scores");;
  xa <- index_select1 (map sc (arcs (p_arcs a))) a_map filler;;
  yb <- index_select1 (map sc (arcs (p_arcs b))) b_map filler;;
  r <- tadd xa yb;;
  check (zlen r =? zlen (arcs dest));;
  Some (with_scores dest r).

(** utils.py:557-641 fsa_from_binary_function_tensor *)
Definition binary_tensor (a b : pyfsa) (dest_arcs : fsa) (a_map b_map : list Z) : option pyfsa :=
  dest <- add_scores a b a_map b_map dest_arcs;;
  d <- foldM (fun d kv => v <- carry_a a b (fst kv) (snd kv) a_map b_map;; set_tens d (fst kv) v)
             (p_tens a) (mkPy dest [] []);;
  d <- foldM (fun d kv => if has_name d (fst kv) then Some d
                          else v <- carry b (fst kv) (snd kv) b_map;; set_tens d (fst kv) v)
             (p_tens b) d;;
  let d := fold_left (fun d kv => set_non d (fst kv) (snd kv)) (p_non a) d in
  Some (fold_left (fun d kv => if has_name d (fst kv) then d else set_non d (fst kv) (snd kv)) (p_non b) d).
