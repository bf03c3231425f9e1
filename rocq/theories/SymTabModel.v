(** * Model of k2/python/k2/symbol_table.py, for tables whose symbols are str. *)
From Coq Require Import ZArith List Lia Bool.
From Verif Require Import Base PyBase.
Import ListNotations.
Open Scope Z_scope.

(** symbol_table.py:40-55: the fields *)
Record symtab := mkTab {
  id2sym : dict Z str;
  sym2id : dict str Z;
  next_id : Z;
  eps : str }.

Definition opt_is {A} {D : Eqd A} (o : option A) (x : A) : bool :=
  match o with Some y => if eqd y x then true else false | None => false end.

(** '<eps>' *)
Definition eps_default : str := [60; 101; 112; 115; 62].

(** max(dict): the largest key *)
Definition max_key {V} (d : dict Z V) : option Z :=
  match d with
  | [] => None
  | (k, _) :: t => Some (fold_left (fun m kv => Z.max m (fst kv)) t k)
  end.

(** symbol_table.py:57-73 __post_init__ : [None] is an AssertionError or
    KeyError. *)
Definition post_init (i2s : dict Z str) (s2i : dict str Z) (e : str) : option symtab :=
  check (forallb (fun kv => opt_is (dget s2i (snd kv)) (fst kv) && (0 <=? fst kv)) i2s);;
  check (forallb (fun kv => (0 <=? snd kv) && opt_is (dget i2s (snd kv)) (fst kv)) s2i);;
  r <- (if negb (dmem i2s 0) then Some (dset i2s 0 e, dset s2i e 0)
        else check (opt_is (dget i2s 0) e);; check (opt_is (dget s2i e) 0);; Some (i2s, s2i));;
  m <- max_key (fst r);;
  Some (mkTab (fst r) (snd r) (m + 1) e).

(** symbol_table.py:91-104: the loop over lines *)
Fixpoint from_lines (lines : list str) (i2s : dict Z str) (s2i : dict str Z)
  : option (dict Z str * dict str Z) :=
  match lines with
  | [] => Some (i2s, s2i)
  | l :: t =>
      match words l with
      | [] => from_lines t i2s s2i
      | [sym; num] =>
          idx <- parse_int num;;
          check (negb (dmem s2i sym));;
          check (negb (dmem i2s idx));;
          from_lines t (dset i2s idx sym) (dset s2i sym idx)
      | _ => None
      end
  end.

(** symbol_table.py:76-106 from_str *)
Definition from_str (s : str) : option symtab :=
  r <- from_lines (split_on 10 s) [] [];;
  let e := match dget (fst r) 0 with Some x => x | None => eps_default end in
  post_init (fst r) (snd r) e.

(** symbol_table.py:128-130 from_file on a file with contents [s]. *)
Definition from_file (s : str) : option symtab := from_str (strip_ws s).

(** sorted(d.items()) for int keys *)
Fixpoint insert_kv {V} (x : Z * V) (l : list (Z * V)) : list (Z * V) :=
  match l with
  | [] => [x]
  | y :: t => if fst x <=? fst y then x :: l else y :: insert_kv x t
  end.
Fixpoint sorted_items {V} (l : list (Z * V)) : list (Z * V) :=
  match l with [] => [] | x :: t => insert_kv x (sorted_items t) end.

(** symbol_table.py:133-142 to_str; to_file (144-163) writes the same text. *)
Definition to_str (t : symtab) : str :=
  concat (map (fun kv => snd kv ++ [32] ++ print_int (fst kv) ++ [10]) (sorted_items (id2sym t))).

(** symbol_table.py:165-195 add: returns the id and the changed table; [None]
    is ValueError, raised before any change. *)
Definition add (t : symtab) (sym : str) (index : option Z) : option (Z * symtab) :=
  match dget (sym2id t) sym with
  | Some i => Some (i, t)
  | None =>
      let i := match index with Some i => i | None => next_id t end in
      check (negb (dmem (id2sym t) i));;
      Some (i, mkTab (dset (id2sym t) i sym) (dset (sym2id t) sym i)
                     (if next_id t <=? i then i + 1 else next_id t) (eps t))
  end.

(** symbol_table.py:234-248 _check_compatible *)
Definition compatible (a b : symtab) : bool :=
  (if eqd (eps a) (eps b) then true else false) &&
  forallb (fun kv => match dget (id2sym b) (fst kv) with
                     | Some s => opt_is (dget (id2sym a) (fst kv)) s | None => true end) (id2sym a) &&
  forallb (fun kv => match dget (sym2id b) (fst kv) with
                     | Some i => opt_is (dget (sym2id a) (fst kv)) i | None => true end) (sym2id a).

(** symbol_table.py:214-232 merge *)
Definition merge (a b : symtab) : option symtab :=
  check (compatible a b);;
  post_init (dmerge (id2sym a) (id2sym b)) (dmerge (sym2id a) (sym2id b)) (eps a).

(** symbol_table.py:262-270 __eq__: [None] is KeyError.  The order in which the
    symbols are visited (sorted) only matters for which of "return False" and
    KeyError happens first, so the list of symbols to visit is a parameter. *)
Fixpoint eq_loop (syms : list str) (a b : symtab) : option bool :=
  match syms with
  | [] => Some true
  | s :: t =>
      x <- dget (sym2id a) s;;
      y <- dget (sym2id b) s;;
      if x =? y then eq_loop t a b else Some false
  end.
Definition py_eq (order : list str) (a b : symtab) : option bool :=
  if zlen (id2sym a) =? zlen (id2sym b) then eq_loop order a b else Some false.
