(** * Model of the python object k2.Fsa (k2/python/k2/fsa.py): arcs storage,
    attribute dictionaries, properties and the cache.

    Single FSAs (arcs.num_axes() == 2).  Tensors are lists of exact integers;
    autograd, devices and the torch version counter of [labels] (which detects
    in-place writes behind the interface) are not modelled.  The C++ kernels
    are parameters: their types record which columns of the arcs they read
    (state batches etc. read only source and destination, score kernels read
    no labels, the property kernel reads no scores). *)
From Coq Require Import ZArith List Lia Bool String Ascii.
From Verif Require Import Base PyBase RaggedModel FsaSpec RaggedOpsModel OpsModel.
Import ListNotations.
Open Scope Z_scope.

(** python string literals *)
Fixpoint s2z (s : string) : str :=
  match s with
  | EmptyString => []
  | String c t => Z.of_N (N_of_ascii c) :: s2z t
  end.

Fixpoint prefix_of (p s : str) : bool :=
  match p, s with
  | [], _ => true
  | a :: p', b :: s' => (a =? b) && prefix_of p' s'
  | _, [] => false
  end.
(** re.search of a literal *)
Fixpoint contains (p s : str) : bool :=
  prefix_of p s || match s with [] => false | _ :: t => contains p t end.

(** A value stored in [_tensor_attr]: int32 tensor, float32 tensor, int32
    ragged tensor; or a view of column 2 / column 3 of the arcs
    (fsa.py:226-227). *)
Inductive attr :=
  | AI (v : list Z) | AF (v : list Z) | AR (ls : list layer) (v : list Z)
  | ViewLabels | ViewScores.
(** A value stored in [_non_tensor_attr]: a number (fillers) or some object
    identity. *)
Inductive pv := PNum (z : Z) | PObj (id : Z).

(** The columns the kernels read. *)
Definition topo (f : fsa) : list Z * list (Z * Z) :=
  (row_splits f, map (fun a => (src a, dst a)) (arcs f)).
Definition wtopo (f : fsa) : (list Z * list (Z * Z)) * list Z := (topo f, map sc (arcs f)).
Definition ltopo (f : fsa) : (list Z * list (Z * Z)) * list Z := (topo f, map lab (arcs f)).

(** arcs.values()[:, 2] = value and arcs.values()[:, -1] = value *)
Definition with_labels (f : fsa) (v : list Z) : fsa :=
  mkFsa (row_splits f) (map (fun p => mkArc (src (fst p)) (dst (fst p)) (snd p) (sc (fst p))) (combine (arcs f) v)).
Definition with_scores (f : fsa) (v : list Z) : fsa :=
  mkFsa (row_splits f) (map (fun p => mkArc (src (fst p)) (dst (fst p)) (lab (fst p)) (snd p)) (combine (arcs f) v)).

(** k2/csrc/fsa_utils.cu:2760-2781 FixFinalLabels on the labels, two axes:
    [None] is K2_CHECK_EQ failing. *)
Definition fix_final_label (nst : Z) (a : arc) : option arc :=
  if dst a + 1 =? nst then
    if lab a =? -1 then Some a
    else check (lab a =? 0);; Some (mkArc (src a) (dst a) (-1) (sc a))
  else if lab a =? -1 then Some (mkArc (src a) (dst a) 0 (sc a))
  else Some a.
Definition fix_final_labels (f : fsa) : option fsa :=
  l <- mapM (fix_final_label (zlen (row_splits f) - 1)) (arcs f);; Some (mkFsa (row_splits f) l).

Section Obj.
  Variable V : Type.
  (** The kernels.  _k2.get_state_batches, get_dest_states, get_incoming_arcs,
      get_entering_arc_index_batches, get_leaving_arc_index_batches. *)
  Notation Topo := (list Z * list (Z * Z))%type.
  Notation WTopo := ((list Z * list (Z * Z)) * list Z)%type.
  Variable k_state_batches : Topo -> V.
  Variable k_dest_states : Topo -> V.
  Variable k_incoming_arcs : Topo -> V -> V.
  Variable k_entering_batches : Topo -> V -> V -> V.
  Variable k_leaving_batches : Topo -> V -> V.
  (** get_forward_scores_{double,float}: (forward scores, entering arcs);
      first flag: double, second: log_semiring. *)
  Variable k_forward : bool -> bool -> WTopo -> V -> V -> V * V.
  Variable k_tot : bool -> WTopo -> V -> V.
  Variable k_backward : bool -> bool -> WTopo -> V -> V -> V.
  Variable k_arc_post : bool -> WTopo -> V -> V -> V.
  Variable k_arc_cdf : bool -> WTopo -> V -> V.
  (** get_fsa_basic_properties *)
  Variable k_props : WTopo -> Z.

  Notation cache := (dict str V).

  (** fsa.py: cached getters; [f] is the content of self.arcs. *)
  Definition memo (name : str) (compute : cache -> V * cache) (c : cache) : V * cache :=
    match dget c name with
    | Some v => (v, c)
    | None => let r := compute c in (fst r, dset (snd r) name (fst r))
    end.
  (** 519-527 *)
  Definition get_state_batches (f : fsa) : cache -> V * cache :=
    memo (s2z "state_batches") (fun c => (k_state_batches (topo f), c)).
  (** 529-537 *)
  Definition get_dest_states (f : fsa) : cache -> V * cache :=
    memo (s2z "dest_states") (fun c => (k_dest_states (topo f), c)).
  (** 539-548 *)
  Definition get_incoming_arcs (f : fsa) : cache -> V * cache :=
    memo (s2z "incoming_arcs") (fun c => let (d, c) := get_dest_states f c in (k_incoming_arcs (topo f) d, c)).
  (** 550-562 *)
  Definition get_entering_arc_batches (f : fsa) : cache -> V * cache :=
    memo (s2z "entering_arc_batches") (fun c =>
      let (i, c) := get_incoming_arcs f c in
      let (s, c) := get_state_batches f c in (k_entering_batches (topo f) i s, c)).
  (** 564-574 *)
  Definition get_leaving_arc_batches (f : fsa) : cache -> V * cache :=
    memo (s2z "leaving_arc_batches") (fun c =>
      let (s, c) := get_state_batches f c in (k_leaving_batches (topo f) s, c)).

  Definition suffix (d l : bool) : str :=
    (if d then (s2z "double_") else (s2z "float_")) ++ (if l then (s2z "log") else (s2z "tropical")).
  (** 591-627 _get_forward_scores: sets cache['entering_arcs'] too unless
      log_semiring. *)
  Definition get_forward_scores (d l : bool) (f : fsa) (c : cache) : V * cache :=
    let name := (s2z "forward_scores_") ++ suffix d l in
    match dget c name with
    | Some v => (v, c)
    | None =>
        let (s, c) := get_state_batches f c in
        let (e, c) := get_entering_arc_batches f c in
        let r := k_forward d l (wtopo f) s e in
        let c := dset c name (fst r) in
        (fst r, if l then c else dset c (s2z "entering_arcs") (snd r))
    end.
  (** 648-677 _get_tot_scores *)
  Definition get_tot_scores (d l : bool) (f : fsa) : cache -> V * cache :=
    memo ((s2z "tot_scores_") ++ suffix d l) (fun c =>
      let (w, c) := get_forward_scores d l f c in (k_tot d (wtopo f) w, c)).
  (** 697-735 _get_backward_scores *)
  Definition get_backward_scores (d l : bool) (f : fsa) : cache -> V * cache :=
    memo ((s2z "backward_scores_") ++ suffix d l) (fun c =>
      let (s, c) := get_state_batches f c in
      let (e, c) := get_leaving_arc_batches f c in (k_backward d l (wtopo f) s e, c)).
  (** 756-790 _get_arc_post *)
  Definition get_arc_post (d l : bool) (f : fsa) : cache -> V * cache :=
    memo ((s2z "arc_post_") ++ suffix d l) (fun c =>
      let (w, c) := get_forward_scores d l f c in
      let (b, c) := get_backward_scores d l f c in (k_arc_post d (wtopo f) w b, c)).
  (** 576-589 _get_arc_cdf *)
  Definition get_arc_cdf (d l : bool) (f : fsa) : cache -> V * cache :=
    memo ((s2z "arc_cdf_") ++ suffix d l) (fun c =>
      let (p, c) := get_arc_post d l f c in (k_arc_cdf d (wtopo f) p, c)).
  (** 827-842 _get_entering_arcs; [None] is the KeyError of the last line. *)
  Definition get_entering_arcs (d : bool) (f : fsa) (c : cache) : option V * cache :=
    match dget c (s2z "entering_arcs") with
    | Some v => (Some v, c)
    | None => let c := snd (get_forward_scores d false f c) in (dget c (s2z "entering_arcs"), c)
    end.

  Inductive getter :=
    | GBatches | GDest | GIncoming | GEntBatches | GLeavBatches
    | GForward (d l : bool) | GTot (d l : bool) | GBackward (d l : bool)
    | GPost (d l : bool) | GCdf (d l : bool) | GEntering (d : bool).

  Definition run_getter (g : getter) (f : fsa) (c : cache) : option V * cache :=
    let some (r : V * cache) := (Some (fst r), snd r) in
    match g with
    | GBatches => some (get_state_batches f c)
    | GDest => some (get_dest_states f c)
    | GIncoming => some (get_incoming_arcs f c)
    | GEntBatches => some (get_entering_arc_batches f c)
    | GLeavBatches => some (get_leaving_arc_batches f c)
    | GForward d l => some (get_forward_scores d l f c)
    | GTot d l => some (get_tot_scores d l f c)
    | GBackward d l => some (get_backward_scores d l f c)
    | GPost d l => some (get_arc_post d l f c)
    | GCdf d l => some (get_arc_cdf d l f c)
    | GEntering d => get_entering_arcs d f c
    end.

  (** fsa.py:244-276 _invalidate_cache_(scores_only=True): keys matching
      score|arc_cdf|arc_post, and entering_arcs. *)
  Definition score_key (k : str) : bool :=
    contains (s2z "score") k || contains (s2z "arc_cdf") k || contains (s2z "arc_post") k.
  Definition invalidate (c : cache) : cache :=
    filter (fun kv => negb (score_key (fst kv) || (if eqd (fst kv) (s2z "entering_arcs") then true else false))) c.

  (** A python Fsa object: where its arcs live, _properties, _tensor_attr,
      _non_tensor_attr (without the internal labels_version), _cache. *)
  Record obj := mkObj {
    o_loc : Z; o_props : option Z;
    o_tens : dict str attr; o_non : dict str pv; o_cache : cache }.
  (** All arc storages and all objects. *)
  Record world := mkWorld { w_heap : list fsa; w_objs : list obj }.

  (** The content of an attribute. *)
  Definition resolve (f : fsa) (a : attr) : attr :=
    match a with
    | ViewLabels => AI (map lab (arcs f))
    | ViewScores => AF (map sc (arcs f))
    | _ => a
    end.
  (** value.shape[0] / value.dim0 *)
  Definition attr_len (f : fsa) (a : attr) : Z :=
    match a with
    | AI v => zlen v | AF v => zlen v
    | AR ls v => tot_size ls v
    | ViewLabels | ViewScores => zlen (arcs f)
    end.
  Definition is_ragged (a : attr) : bool := match a with AR _ _ => true | _ => false end.
  Definition is_i32 (a : attr) : bool := match a with AI _ | ViewLabels => true | _ => false end.
  Definition is_f32 (a : attr) : bool := match a with AF _ | ViewScores => true | _ => false end.
  Definition data_of (f : fsa) (a : attr) : list Z :=
    match resolve f a with AI v | AF v | AR _ v => v | _ => [] end.

  (** State of one object together with the content of its arcs; the flag is
      false when an exception was raised (the effects so far stay). *)
  Notation res := (fsa * obj * bool)%type.

  (** 437-466 properties: the bits are cached before the VALID check. *)
  Definition has_attr (o : obj) (name : str) : bool :=
    dmem (o_tens o) name || dmem (o_non o) name || dmem (o_cache o) name.
  Definition set_props (o : obj) p := mkObj (o_loc o) p (o_tens o) (o_non o) (o_cache o).
  Definition read_properties (f : fsa) (o : obj) : option Z * obj :=
    if negb (has_attr o (s2z "labels")) then (None, o)            (* AttributeError: self.labels *)
    else match o_props o with
    | Some p => (Some p, o)
    | None =>
        let p := k_props (ltopo f) in
        (if Z.land p 1 =? 1 then Some p else None, set_props o (Some p))
    end.

  (** 378-425 __setattr__ for tensors and ragged tensors. *)
  Definition setattr (name : str) (value : attr) (f : fsa) (o : obj) : res :=
    if negb (attr_len f value =? zlen (arcs f)) then (f, o, false)        (* 395, 418 *)
    else if is_ragged value then
      (f, mkObj (o_loc o) (o_props o) (dset (o_tens o) name value) (o_non o) (o_cache o), true)
    else if eqd name (s2z "labels") then
      if negb (is_i32 value) then (f, o, false)
      else
        let f1 := with_labels f (data_of f value) in                      (* 400 *)
        match fix_final_labels f1 with
        | None => (f1, o, false)                                          (* 405 raises *)
        | Some f2 =>
            let r := read_properties f2 (set_props o None) in             (* 406-409 *)
            (f2, snd r, match fst r with Some _ => true | None => false end)
        end
    else
      let o1 := mkObj (o_loc o) (o_props o) (dset (o_tens o) name value) (o_non o) (o_cache o) in
      if eqd name (s2z "scores") then
        if negb (is_f32 value) then (f, o1, false)                        (* 415 *)
        else (with_scores f (data_of f value),                            (* 418-419 *)
              mkObj (o_loc o) (o_props o) (dset (o_tens o) name value) (o_non o) (invalidate (o_cache o)), true)
      else (f, o1, true).
  (** 424-425: any other value *)
  Definition setattr_non (name : str) (value : pv) (o : obj) : obj :=
    mkObj (o_loc o) (o_props o) (o_tens o) (dset (o_non o) name value) (o_cache o).

  (** 482-501 __getattr__ for tensors and non-tensors *)
  Definition getattr (f : fsa) (o : obj) (name : str) : option (attr + pv) :=
    match dget (o_tens o) name with
    | Some a => Some (inl (resolve f a))
    | None => option_map inr (dget (o_non o) name)
    end.

  (** 503-517 __delattr__ ([name] not a class attribute) *)
  Definition delattr (name : str) (o : obj) : obj * bool :=
    if eqd name (s2z "scores") then (o, false)
    else if dmem (o_tens o) name then
      (mkObj (o_loc o) (o_props o) (ddel (o_tens o) name) (o_non o) (o_cache o), true)
    else if dmem (o_non o) name then
      (mkObj (o_loc o) (o_props o) (o_tens o) (ddel (o_non o) name) (o_cache o), true)
    else if dmem (o_cache o) name then
      (mkObj (o_loc o) (o_props o) (o_tens o) (o_non o) (ddel (o_cache o) name), true)
    else (o, false).

  (** 901-918: moving the non-tensor attributes with prefix [src]. *)
  Definition rename_non (src dest : str) (d : dict str pv) : dict str pv :=
    let kept := filter (fun kv => prefix_of src (fst kv) || negb (prefix_of dest (fst kv))) d in
    let to_move := filter (fun kv => prefix_of src (fst kv)) d in
    fold_left (fun acc kv => ddel (dset acc (dest ++ skipn (List.length src) (fst kv)) (snd kv)) (fst kv)) to_move kept.
  (** 869-922 rename_tensor_attribute_ *)
  Definition rename (src dest : str) (f : fsa) (o : obj) : res :=
    if eqd src dest then (f, o, false)
    else match dget (o_tens o) src with
    | None => (f, o, false)
    | Some a =>
        let value := if eqd src (s2z "labels") then resolve f a else a in
        let '(f1, o1, ok) := setattr dest value f o in
        if negb ok then (f1, o1, false)
        else
          let tens := if (if eqd src (s2z "scores") then true else false) || (if eqd src (s2z "labels") then true else false)
                      then o_tens o1 else ddel (o_tens o1) src in
          (f1, mkObj (o_loc o1) (o_props o1) tens (rename_non src dest (o_non o1)) (o_cache o1), true)
    end.

  Definition seq (r : res) (k : fsa -> obj -> res) : res :=
    let '(f, o, ok) := r in if ok then k f o else r.

  (** 924-955 invert_ *)
  Definition invert_ (f : fsa) (o : obj) : res :=
    match dget (o_tens o) (s2z "aux_labels") with
    | None => (f, o, false)                                 (* not a tensor, or missing *)
    | Some a =>
        if is_ragged a then (f, o, false)
        else
          seq (rename (s2z "labels") (s2z "__temp") f o) (fun f o =>
          seq (rename (s2z "aux_labels") (s2z "labels") f o) (fun f o =>
          seq (rename (s2z "__temp") (s2z "aux_labels") f o) (fun f o =>
          match fix_final_labels f with
          | None => (f, o, false)
          | Some f =>
              let r := read_properties f (set_props o None) in
              (f, snd r, match fst r with Some _ => true | None => false end)
          end)))
    end.

  (** 118-242 __init__ *)
  Definition new_obj (loc : Z) (props : option Z) : obj :=
    mkObj loc props [(s2z "scores", ViewScores); (s2z "labels", ViewLabels)] [] [].

  (** 1128-1156 clone: new storage for the arcs, attributes other than scores
      and labels cloned, cache entries copied. *)
  Definition user_attrs (o : obj) : dict str attr :=
    filter (fun kv => negb ((if eqd (fst kv) (s2z "scores") then true else false) ||
                            (if eqd (fst kv) (s2z "labels") then true else false))) (o_tens o).
  Fixpoint setattrs (l : list (str * attr)) (f : fsa) (o : obj) : res :=
    match l with
    | [] => (f, o, true)
    | (n, a) :: t => seq (setattr n a f o) (fun f o => setattrs t f o)
    end.
  Definition copy_to (loc : Z) (copy : attr -> attr) (f : fsa) (o : obj) : option obj :=
    p <- fst (read_properties f o);;
    let '(_, o', ok) := setattrs (map (fun kv => (fst kv, copy (snd kv))) (user_attrs o)) f (new_obj loc (Some p)) in
    check ok;;
    let o' := fold_left (fun o kv => setattr_non (fst kv) (snd kv) o) (o_non o) o' in
    Some (mkObj loc (o_props o') (o_tens o') (o_non o') (fold_left (fun c kv => dset c (fst kv) (snd kv)) (o_cache o) (o_cache o'))).
  Definition clone (loc : Z) (f : fsa) (o : obj) : option obj := copy_to loc (resolve f) f o.
  (** 1158-1189 detach: the same arcs, tensors shared. *)
  Definition detach (f : fsa) (o : obj) : option obj := copy_to (o_loc o) (fun a => a) f o.

  (** Operations on object number [i]. *)
  Inductive op :=
    | ORead (i : Z) (g : getter)
    | OProps (i : Z)
    | OSetAttr (i : Z) (name : str) (v : attr)
    | OSetNon (i : Z) (name : str) (v : pv)
    | ODel (i : Z) (name : str)
    | ORename (i : Z) (src dest : str)
    | OInvert (i : Z)
    | OClone (i : Z)
    | ODetach (i : Z).
  Definition target (x : op) : Z :=
    match x with
    | ORead i _ | OProps i | OSetAttr i _ _ | OSetNon i _ _ | ODel i _ | ORename i _ _ | OInvert i | OClone i | ODetach i => i
    end.

  Definition set_cache (o : obj) c := mkObj (o_loc o) (o_props o) (o_tens o) (o_non o) c.

  Definition step_obj (x : op) (f : fsa) (o : obj) : res :=
    match x with
    | ORead _ g => let r := run_getter g f (o_cache o) in
                   (f, set_cache o (snd r), match fst r with Some _ => true | None => false end)
    | OProps _ => let r := read_properties f o in (f, snd r, match fst r with Some _ => true | None => false end)
    | OSetAttr _ n v => setattr n v f o
    | OSetNon _ n v => (f, setattr_non n v o, true)
    | ODel _ n => let r := delattr n o in (f, fst r, snd r)
    | ORename _ s d => rename s d f o
    | OInvert _ => invert_ f o
    | OClone _ | ODetach _ => (f, snd (read_properties f o), true)
    end.

  (** One operation on the world; the flag tells whether it returned normally. *)
  Definition step (x : op) (w : world) : option (world * bool) :=
    o <- rd (w_objs w) (target x);;
    f <- rd (w_heap w) (o_loc o);;
    let '(f', o', ok) := step_obj x f o in
    heap <- wr (w_heap w) (o_loc o) f';;
    objs <- wr (w_objs w) (target x) o';;
    match x with
    | OClone _ =>
        match clone (zlen heap) f o with
        | Some n => Some (mkWorld (heap ++ [f]) (objs ++ [n]), true)
        | None => Some (mkWorld heap objs, false)
        end
    | ODetach _ =>
        match detach f o with
        | Some n => Some (mkWorld heap (objs ++ [n]), true)
        | None => Some (mkWorld heap objs, false)
        end
    | _ => Some (mkWorld heap objs, ok)
    end.

  (** Operations that may write labels. *)
  Definition writes_labels (x : op) : bool :=
    match x with
    | OSetAttr _ n _ => if eqd n (s2z "labels") then true else false
    | ORename _ _ d => if eqd d (s2z "labels") then true else false
    | OInvert _ => true
    | _ => false
    end.

  (** Freshly built Fsa objects over the given arcs (118-242: the properties
      are read in the constructor, which raises if the arcs are not valid). *)
  Definition init (fs : list fsa) : world :=
    mkWorld fs (imap (fun i f => new_obj i (Some (k_props (ltopo f)))) 0 fs).
  (** A history; operations may raise. *)
  Fixpoint run_any (h : list op) (w : world) : option world :=
    match h with
    | [] => Some w
    | x :: t => r <- step x w;; run_any t (fst r)
    end.
  (** A history in which the operations that write labels return normally. *)
  Fixpoint run_lab (h : list op) (w : world) : option world :=
    match h with
    | [] => Some w
    | x :: t => r <- step x w;; check (snd r || negb (writes_labels x));; run_lab t (fst r)
    end.
End Obj.
