(** * Model of the attribute propagation of RnntDecodingStreams.format_output
      (k2/python/k2/rnnt_decode.py:201-275).

    [graphs] are the decoding graphs of the streams, [dest] the arcs of the
    lattice, [nums] the number of lattice arcs of each stream and [out_map] the
    graph arc (or -1) of every lattice arc.  A tensor is [AI] (int32) or [AF]
    (float32); torch.cat promotes to [AF]. *)
From Coq Require Import String.
From Coq Require Import ZArith List Lia Bool.
From Verif Require Import Base PyBase RaggedModel FsaSpec RaggedOpsModel OpsModel FsaObjModel AttrModel.
Import ListNotations.
Open Scope Z_scope.

(** tensor_attr_info[name] without the filler, which is never read again *)
Record info := mkInfo { i_ragged : bool; i_float : bool }.

(** rnnt_decode.py:207-224, one attribute: the state is tensor_attr_info and
    the variable [filler] *)
Definition gather_attr (src : pyfsa) (st : dict str info * Z) (kv : str * attr) : option (dict str info * Z) :=
  let '(d, _) := st in
  let '(name, value) := kv in
  if dmem d name then Some st
  else
    match value with
    | AI _ => f <- get_filler src name;; Some (dset d name (mkInfo false false), f)
    | AF _ => f <- get_filler src name;; Some (dset d name (mkInfo false true), f)
    | AR ls _ => check (zlen ls =? 1);; Some (dset d name (mkInfo true false), 0)
    | _ => None
    end.
(** 203-224 *)
Definition gather (graphs : list pyfsa) : option (dict str info * Z) :=
  foldM (fun st src => foldM (gather_attr src) (p_tens src) st) graphs ([], 0).

(** 235-268: the values of one attribute for one stream; [filler] is whatever the
    first loop left in the variable. *)
Definition stream_value (filler : Z) (name : str) (i : info) (src : pyfsa) (arc_map : list Z) : option attr :=
  if has_name src name then
    match dget (p_tens src) name with
    | Some (AI x) => check (negb (i_ragged i));; r <- index_select1 x arc_map filler;; Some (AI r)
    | Some (AF x) => check (negb (i_ragged i));; r <- index_select1 x arc_map filler;; Some (AF r)
    | Some (AR ls x) =>
        check (i_ragged i);; check (zlen ls =? 1);;
        r <- ragged_index ls x arc_map;; Some (AR (fst (fst r)) (snd (fst r)))
    | _ => None
    end
  else if i_ragged i then
    Some (AR [mk_layer (repeat 0 (S (List.length arc_map))) []] [])     (* RegularRaggedShape(n, 0) *)
  else
    let e := repeat filler (List.length arc_map) in
    Some (if i_float i then AF e else AI e).

(** 228-268: the loop over the streams, cutting [out_map] into pieces *)
Fixpoint stream_values (filler : Z) (name : str) (i : info) (graphs : list pyfsa) (nums : list Z) (out_map : list Z) (start : Z)
  : option (list attr) :=
  match graphs, nums with
  | [], _ => Some []
  | src :: gs, n :: ns =>
      let arc_map := firstn (Z.to_nat n) (skipn (Z.to_nat start) out_map) in
      check (zlen arc_map =? n);;
      v <- stream_value filler name i src arc_map;;
      rest <- stream_values filler name i gs ns out_map (start + n);;
      Some (v :: rest)
  | _, [] => None
  end.

(** torch.cat and k2.ragged.cat (269-272) *)
Definition tens_vals (a : attr) : option (list Z) := match a with AI v | AF v => Some v | _ => None end.
Definition cat_tensors (vs : list attr) : option attr :=
  check (0 <? zlen vs);;
  xs <- mapM tens_vals vs;;
  Some (if existsb (fun a => match a with AF _ => true | _ => false end) vs then AF (concat xs) else AI (concat xs)).
Definition cat_ragged (vs : list attr) : option attr :=
  xs <- mapM (fun a => match a with AR ls x => Some (ls, x) | _ => None end) vs;;
  r <- ragged_cat0 xs;;
  Some (AR (fst r) (snd r)).

(** 226-279 *)
Definition format_attrs (graphs : list pyfsa) (dest : fsa) (nums : list Z) (out_map : list Z) : option pyfsa :=
  g <- gather graphs;;
  let '(infos, filler) := g in
  d <- foldM (fun d ni =>
         vs <- stream_values filler (fst ni) (snd ni) graphs nums out_map 0;;
         v <- (if i_ragged (snd ni) then cat_ragged vs else cat_tensors vs);;
         set_tens d (fst ni) v) infos (mkPy dest [] []);;
  Some (fold_left (fun d src => fold_left (fun d kv => set_non d (fst kv) (snd kv)) (p_non src) d) graphs d).
