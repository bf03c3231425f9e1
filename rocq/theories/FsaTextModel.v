(** * Model: the text formats of FSAs (k2/csrc/fsa_utils.cu).

    Texts are lists of character codes.  The C++ input stream over a line is
    modelled with its two flags; reading floating point numbers is a parameter
    (see [read_float]). *)
From Coq Require Import ZArith List Lia Bool.
From Verif Require Import Base RaggedModel RaggedSpec FsaSpec PyBase.
Import ListNotations.
Open Scope Z_scope.

(** std::isspace in the "C" locale: \t \n \v \f \r and the space. *)
Definition cws (c : Z) : bool := ((9 <=? c) && (c <=? 13)) || (c =? 32).

Fixpoint skip_ws (s : str) : str :=
  match s with
  | c :: t => if cws c then skip_ws t else s
  | [] => []
  end.

Definition digit (c : Z) : bool := (48 <=? c) && (c <=? 57).

Fixpoint span_digits (s : str) : str * str :=
  match s with
  | c :: t => if digit c then let '(a, b) := span_digits t in (c :: a, b) else ([], s)
  | [] => ([], [])
  end.

(** The characters std::num_get collects for a decimal integer: an optional
    sign and digits. *)
Definition int_prefix (s : str) : str * str :=
  match s with
  | c :: t =>
      if (c =? 45) || (c =? 43) then let '(a, b) := span_digits t in (c :: a, b)
      else span_digits s
  | [] => ([], [])
  end.

Definition is_nil {A} (l : list A) : bool := match l with [] => true | _ => false end.

Definition int32_max : Z := 2147483647.
Definition int32_min : Z := -2147483648.
Definition in32 (v : Z) : bool := (int32_min <=? v) && (v <=? int32_max).

(** std::istringstream: what is left, eofbit, failbit. *)
Record stream := mkS { s_rest : str; s_eof : bool; s_fail : bool }.
Definition open (s : str) : stream := mkS s false false.
Definition good (s : stream) : bool := negb (s_eof s) && negb (s_fail s).

(** is >> int32_t: the sentry skips white space and fails at the end or on a
    stream that is not good; num_get sets eofbit when it ran into the end,
    failbit (and the value 0 or the nearest bound) when there is no number or
    it does not fit.  (When the sentry fails the variable keeps its old,
    possibly uninitialised, value; the result is 0 here.  failbit is set then,
    and the callers raise on it before using the value, except that they may
    raise earlier because of the value.) *)
Definition read_int (s : stream) : Z * stream :=
  if good s then
    match skip_ws (s_rest s) with
    | [] => (0, mkS [] true true)
    | r =>
        let '(t, r2) := int_prefix r in
        match parse_int t with
        | Some v =>
            if in32 v then (v, mkS r2 (is_nil r2) false)
            else (if v <? 0 then int32_min else int32_max, mkS r2 (is_nil r2) true)
        | None => (0, mkS r2 (is_nil r2) true)
        end
    end
  else (0, mkS (s_rest s) (s_eof s) true).

(** is >> char *)
Definition read_char (s : stream) : option Z * stream :=
  if good s then
    match skip_ws (s_rest s) with
    | [] => (None, mkS [] true true)
    | c :: r => (Some c, mkS r false false)
    end
  else (None, mkS (s_rest s) (s_eof s) true).

(** is.peek(): None is eof() *)
Definition peek (s : stream) : option Z * stream :=
  if good s then
    match s_rest s with
    | [] => (None, mkS [] true false)
    | c :: r => (Some c, s)
    end
  else (None, mkS (s_rest s) (s_eof s) true).

(** is >> std::string: the next run of non-space characters *)
Fixpoint span_word (s : str) : str * str :=
  match s with
  | c :: t => if cws c then ([], s) else let '(a, b) := span_word t in (c :: a, b)
  | [] => ([], [])
  end.
Definition read_word (s : stream) : str * stream :=
  if good s then
    match skip_ws (s_rest s) with
    | [] => ([], mkS [] true true)
    | r => let '(t, r2) := span_word r in (t, mkS r2 (is_nil r2) false)
    end
  else ([], mkS (s_rest s) (s_eof s) true).

Section Lib.
  (** [wsf] tells the two behaviours of std::ws on a stream that has already
      reached the end: since C++11 the standard makes it construct a sentry,
      which sets failbit (libstdc++ from GCC 11); before that it did not. *)
  Variable wsf : bool.
  (** What is >> float does on the characters that follow the white space: the
      value (None if it fails) and the characters left.  Floats are named by
      integers. *)
  Variable fl : str -> option Z * str.
  (** is >> double; Some (Some z) when the number is the int32 z, Some None when
      it is another number *)
  Variable dbl : str -> option (option Z) * str.

  (** is >> std::ws *)
  Definition ws (s : stream) : stream :=
    if good s then let r := skip_ws (s_rest s) in mkS r (is_nil r) false
    else if wsf then mkS (s_rest s) (s_eof s) true
    else let r := skip_ws (s_rest s) in mkS r (s_eof s || is_nil r) (s_fail s).

  Definition ws_unless_eof (s : stream) : stream := if s_eof s then s else ws s.

  Definition read_float (s : stream) : Z * stream :=
    if good s then
      match skip_ws (s_rest s) with
      | [] => (0, mkS [] true true)
      | r => match fl r with
             | (Some v, r2) => (v, mkS r2 (is_nil r2) false)
             | (None, r2) => (0, mkS r2 (is_nil r2) true)
             end
      end
    else (0, mkS (s_rest s) (s_eof s) true).

  (** the value is None when it is no integer; 0 when reading fails *)
  Definition read_double (s : stream) : option Z * stream :=
    if good s then
      match skip_ws (s_rest s) with
      | [] => (Some 0, mkS [] true true)
      | r => match dbl r with
             | (Some v, r2) => (v, mkS r2 (is_nil r2) false)
             | (None, r2) => (Some 0, mkS r2 (is_nil r2) true)
             end
      end
    else (Some 0, mkS (s_rest s) (s_eof s) true).

  (** fsa_utils.cu:112-120, the loop over aux labels *)
  Fixpoint read_auxs (n : nat) (s : stream) : option (list Z * stream) :=
    match n with
    | O => Some ([], s)
    | S n' =>
        let '(v, s1) := read_double s in
        a <- v;;
        r <- read_auxs n' s1;;
        Some (a :: fst r, snd r)
    end.

  (** fsa_utils.cu:129-133, the loop over the labels of one list; the fuel is
      the number of characters left, each successful turn consumes one *)
  Fixpoint read_list (fuel : nat) (s : stream) (acc : list Z) : list Z * stream :=
    match fuel with
    | O => (acc, s)
    | S fuel' =>
        let '(p, s1) := peek s in
        if match p with Some 93 => true | _ => false end then (acc, s1)
        else if good s1 then
          let '(v, s2) := read_int s1 in read_list fuel' s2 (acc ++ [v])
        else (acc, s1)
    end.

  (** fsa_utils.cu:121-136, the loop over ragged labels *)
  Fixpoint read_rags (n : nat) (s : stream) : option (list (list Z) * stream) :=
    match n with
    | O => Some ([], s)
    | S n' =>
        let s1 := ws s in
        let '(p, s2) := peek s1 in
        check (match p with Some 91 => true | _ => false end);;
        let '(_, s3) := read_char s2 in
        let s4 := ws s3 in
        let '(l, s5) := read_list (S (length (s_rest s4))) s4 [] in
        let '(_, s6) := read_char s5 in
        r <- read_rags n' s6;;
        Some (l :: fst r, snd r)
    end.

  (** The vectors K2FsaFromStream builds (fsa_utils.cu:77-87).  [k_rag] holds
      ragged_row_splits[i] and ragged_labels[i]. *)
  Record k2st := mkK {
    k_rs : list Z; k_arcs : list arc; k_aux : list Z;
    k_rag : list (list Z * list Z); k_max : Z; k_final : Z }.

  Definition add_rags (rag : list (list Z * list Z)) (ls : list (list Z)) : list (list Z * list Z) :=
    map (fun x => let '((rs, vs), l) := x in (rs ++ [zlen (vs ++ l)], vs ++ l)) (combine rag ls).

  (** fsa_utils.cu:88-157, one turn of the loop over the lines *)
  Definition k2_line (na nr : nat) (line : str) (k : k2st) : option k2st :=
    let s1 := ws_unless_eof (open line) in
    if s_eof s1 then Some k else
    check (k_final k =? -1);;
    let '(src_state, s2) := read_int s1 in
    let s3 := ws_unless_eof s2 in
    if s_eof s3 then
      check (negb (s_fail s3) && (0 <=? src_state));;
      Some (mkK (k_rs k) (k_arcs k) (k_aux k) (k_rag k) (Z.max (k_max k) src_state) src_state)
    else
      let '(dest_state, s4) := read_int s3 in
      let '(label, s5) := read_int s4 in
      check (0 <=? src_state) && (0 <=? dest_state);;
      ra <- read_auxs na s5;;
      rr <- read_rags nr (snd ra);;
      let s8 := ws (snd rr) in
      let '(score, s9) :=
        if s_eof s8 then (0, s8)
        else let '(v, s) := read_float s8 in (v, ws_unless_eof s) in
      check (s_eof s9 && negb (s_fail s9));;
      check (is_nil (k_arcs k) || (zlen (k_rs k) - 1 <=? src_state));;
      let rs' := k_rs k ++ repeat (zlen (k_arcs k)) (Z.to_nat (src_state + 1 - zlen (k_rs k))) in
      Some (mkK rs' (k_arcs k ++ [mkArc src_state dest_state label score]) (k_aux k ++ fst ra)
                (add_rags (k_rag k) (fst rr))
                (Z.max (k_max k) (Z.max src_state dest_state)) (k_final k)).

  Fixpoint k2_lines (na nr : nat) (ls : list str) (k : k2st) : option k2st :=
    match ls with
    | [] => Some k
    | l :: t => k' <- k2_line na nr l k;; k2_lines na nr t k'
    end.

  (** fsa_utils.cu:70-204 K2FsaFromStream.  The result: row splits, arcs, the
      aux labels row by row (Array2), the ragged labels (row splits, values).
      (std::getline does not return an empty piece after the last newline; an
      empty line is skipped anyway.) *)
  Definition k2_from_str (na nr : nat) (text : str)
    : option (list Z * list arc * list (list Z) * list (list Z * list Z)) :=
    k <- k2_lines na nr (split_on 10 text) (mkK [] [] [] (repeat ([0], []) nr) (-1) (-1));;
    check (negb (k_final k =? -1) || is_nil (k_arcs k));;
    check (k_max k =? k_final k);;
    let num_states := k_max k + 1 in
    let rs := k_rs k ++ repeat (zlen (k_arcs k)) (Z.to_nat (num_states + 1 - zlen (k_rs k))) in
    let n := zlen (k_arcs k) in
    check (Nat.eqb na 0 || (zlen (k_aux k) =? n * Z.of_nat na));;
    aux <- mapM (fun j => mapM (fun i => rd (k_aux k) (i * Z.of_nat na + j)) (zrange n)) (zrange (Z.of_nat na));;
    Some (rs, k_arcs k, aux, k_rag k).

  (** ** OpenFst format.  The ragged labels of that reader are left out
      (num_ragged_labels_ = 0). *)

  Fixpoint read_ints (n : nat) (s : stream) : list Z * stream :=
    match n with
    | O => ([], s)
    | S n' => let '(v, s1) := read_int s in let '(l, s2) := read_ints n' s1 in (v :: l, s2)
    end.

  (** the members of OpenFstStreamReader (fsa_utils.cu:480-503).  state_to_arcs_
      and state_to_aux_labels_, which are always changed together, are one list
      of arcs with their aux labels. *)
  Record reader := mkR {
    r_start : Z; r_max : Z; r_arcs : list (list (arc * list Z)); r_finals : list (Z * Z) }.
  Definition reader0 : reader := mkR (-1) (-1) [] [].

  (** fsa_utils.cu:347-361 SeenState; called with states that are >= 0 *)
  Definition seen_state (s : Z) (r : reader) : reader :=
    mkR (if r_start r =? -1 then s else r_start r)
        (if r_max r <? s then s else r_max r)
        (if r_max r <? s then r_arcs r ++ repeat [] (Z.to_nat (s + 1 - zlen (r_arcs r))) else r_arcs r)
        (r_finals r).

  (** fsa_utils.cu:244-263 AddArc *)
  Definition add_arc (x : arc * list Z) (r : reader) : option reader :=
    let r1 := seen_state (dst (fst x)) (seen_state (src (fst x)) r) in
    row <- rd (r_arcs r1) (src (fst x));;
    arcs <- wr (r_arcs r1) (src (fst x)) (row ++ [x]);;
    Some (mkR (r_start r1) (r_max r1) arcs (r_finals r1)).

  (** fsa_utils.cu:311-346 ProcessFinalProbOrEmpty; None is false.  The
      infinite cost is None. *)
  Definition process_final (line : str) (r : reader) : option reader :=
    let s1 := ws (open line) in
    if s_eof s1 then Some r else
    let '(st, s2) := read_int s1 in
    let s3 := ws s2 in
    cost <-
      (if s_eof s3 then Some (Some 0) else
       let '(p, s4) := peek s3 in
       if match p with Some 73 => true | _ => false end then
         let '(w, s5) := read_word s4 in
         check (if list_eq_dec Z.eq_dec w [73; 110; 102] then true
                else if list_eq_dec Z.eq_dec w [105; 110; 102] then true else false);;
         Some None
       else
         let '(v, s5) := read_float s4 in
         let s6 := ws_unless_eof s5 in
         check (s_eof s6 && negb (s_fail s6));;
         Some (Some v));;
    check (0 <=? st);;
    let r1 := seen_state st r in
    Some (match cost with
          | Some c => mkR (r_start r1) (r_max r1) (r_arcs r1) (r_finals r1 ++ [(st, - c)])
          | None => r1
          end).

  (** fsa_utils.cu:265-307 ProcessLine *)
  Definition process_line (na : nat) (line : str) (r : reader) : option reader :=
    let '(src_state, s1) := read_int (open line) in
    let '(dest_state, s2) := read_int s1 in
    let '(label, s3) := read_int s2 in
    if negb (good s3) then process_final line r
    else
      let '(auxs, s4) := read_ints na s3 in
      let s5 := ws_unless_eof s4 in
      let '(cost, s6) :=
        if s_eof s5 then (0, s5)
        else let '(v, s) := read_float s5 in (v, ws_unless_eof s) in
      check (s_eof s6 && negb (s_fail s6) && (0 <=? src_state) && (0 <=? dest_state));;
      add_arc (mkArc src_state dest_state label (- cost), auxs) r.

  Fixpoint process_lines (na : nat) (ls : list str) (r : reader) : option reader :=
    match ls with
    | [] => Some r
    | l :: t => r' <- process_line na l r;; process_lines na t r'
    end.

  (** fsa_utils.cu:449-459 ProcessFinalStates; super_final_state is computed
      once, from the states seen so far *)
  Fixpoint add_finals (na : nat) (sf : Z) (fs : list (Z * Z)) (r : reader) : option reader :=
    match fs with
    | [] => Some r
    | (q, w) :: t => r' <- add_arc (mkArc q sf (-1) w, repeat (-1) na) r;; add_finals na sf t r'
    end.
  Definition process_final_states (na : nat) (r : reader) : option reader :=
    add_finals na (Z.max (r_max r + 1) 1) (r_finals r) r.

  (** fsa_utils.cu:460-487 FixStartState *)
  Definition set_src (s : Z) (x : arc * list Z) : arc * list Z :=
    (mkArc s (dst (fst x)) (lab (fst x)) (sc (fst x)), snd x).
  Definition fix_dst (s : Z) (x : arc * list Z) : arc * list Z :=
    let d := dst (fst x) in
    (mkArc (src (fst x)) (if d =? 0 then s else if d =? s then 0 else d) (lab (fst x)) (sc (fst x)), snd x).
  Definition fix_start_state (r : reader) : option reader :=
    let s := r_start r in
    if s <=? 0 then Some r else
    row0 <- rd (r_arcs r) 0;;
    rows <- rd (r_arcs r) s;;
    a1 <- wr (r_arcs r) 0 (map (set_src 0) rows);;
    a2 <- wr a1 s (map (set_src s) row0);;
    Some (mkR s (r_max r) (map (map (fix_dst s)) a2) (r_finals r)).

  (** fsa_utils.cu:232-243 Read and 362-447 Finalize: row splits, arcs and aux
      labels (one list per arc). *)
  Definition openfst_from_str (na : nat) (text : str) : option (list Z * list arc * list (list Z)) :=
    r <- process_lines na (split_on 10 text) reader0;;
    if r_start r =? -1 then Some ([0], [], []) else
    r1 <- process_final_states na r;;
    r2 <- fix_start_state r1;;
    let rows := r_arcs r2 in
    Some (exsum (map zlen rows), map fst (concat rows), map snd (concat rows)).
End Lib.

(** ** Printing *)
Section Print.
  (** os << float *)
  Variable pr : Z -> str.
  (** [scale * score] for the scale -1 *)
  Variable neg : Z -> Z.

  (** fsa_utils.cu:569-648 FsaToString: [aux] are the arrays of aux labels,
      [rags] the ragged labels (row splits, values); [n0] = fsa.shape.Dim0(). *)
  Definition arc_line (openfst : bool) (aux : list (list Z)) (rags : list (list Z * list Z))
      (i : Z) (a : arc) : option str :=
    let score := pr (if openfst then neg (sc a) else sc a) ++ [10] in
    if openfst && (lab a =? -1) then Some (print_int (src a) ++ [32] ++ score)
    else
      auxs <- mapM (fun col => v <- rd col i;; Some (print_int v ++ [32])) aux;;
      rs <- mapM (fun x : list Z * list Z =>
                    b <- rd (fst x) i;;
                    e <- rd (fst x) (i + 1);;
                    vs <- mapM (fun j => v <- rd (snd x) j;; Some (print_int v ++ [32]))
                               (map (fun j => b + j) (zrange (e - b)));;
                    Some ([91; 32] ++ concat vs ++ [93; 32])) rags;;
      Some (print_int (src a) ++ [32] ++ print_int (dst a) ++ [32] ++ print_int (lab a) ++ [32] ++
            concat auxs ++ concat rs ++ score).

  Definition fsa_to_str (openfst : bool) (n0 : Z) (arcs : list arc)
      (aux : list (list Z)) (rags : list (list Z * list Z)) : option str :=
    check (zlen aux <=? 10);;
    check (forallb (fun col => zlen col =? zlen arcs) aux);;
    check (zlen rags <=? 10);;
    check (forallb (fun x : list Z * list Z => zlen (fst x) =? zlen arcs + 1) rags);;
    ls <- mapM (fun i => a <- rd arcs i;; arc_line openfst aux rags i a) (zrange (zlen arcs));;
    Some (concat ls ++ if (0 <? zlen arcs) && negb openfst then print_int (n0 - 1) ++ [10] else []).
End Print.

(** ** A concrete float format, for integer values.  os << float uses six
    significant digits. *)
Definition num_digits (z : Z) : Z := zlen (print_int z).
(** round to nearest, ties to even, of z / d *)
Definition round_div (z d : Z) : Z :=
  let q := z / d in
  let r := z mod d in
  if 2 * r <? d then q else if d <? 2 * r then q + 1 else if Z.even q then q else q + 1.
Fixpoint strip0 (s : str) : str :=   (* of the reversed digits *)
  match s with
  | 48 :: t => strip0 t
  | _ => s
  end.
Definition print_g6 (z : Z) : str :=
  if Z.abs z <? 1000000 then print_int z else
  let n := num_digits (Z.abs z) in
  let m0 := round_div (Z.abs z) (10 ^ (n - 6)) in
  let '(m, e) := if m0 =? 1000000 then (100000, n) else (m0, n - 1) in
  (if z <? 0 then [45] else []) ++
  match print_int m with
  | [] => []
  | d :: ds =>
      d :: (match rev (strip0 (rev ds)) with [] => [] | fr => 46 :: fr end)
        ++ [101; 43] ++ (if e <? 10 then [48] else []) ++ print_int e
  end.
(** Reading: sign digits [. digits] [e sign digits]; only for values that are
    integers. *)
Definition read_g (s : str) : option Z * str :=
  let '(sg, s0) := match s with c :: t => if (c =? 45) || (c =? 43) then ([c], t) else ([], s) | [] => ([], []) end in
  let '(ds, s1) := span_digits s0 in
  let '(fr, s2) := match s1 with 46 :: t => span_digits t | _ => ([], s1) end in
  let '(ex, s3) := match s2 with
                   | 101 :: t => let '(x, t') := int_prefix t in (parse_int x, t')
                   | _ => (Some 0, s2)
                   end in
  match parse_int (ds ++ fr), ex with
  | Some m, Some e =>
      let k := e - zlen fr in
      let sgn := match sg with 45 :: _ => -1 | _ => 1 end in
      (if 0 <=? k then Some (sgn * (m * 10 ^ k))
       else if m mod 10 ^ (- k) =? 0 then Some (sgn * (m / 10 ^ (- k))) else None, s3)
  | _, _ => (None, s3)
  end.
(** is >> double, for integers *)
Definition dbl_int (s : str) : option (option Z) * str :=
  let '(t, r) := int_prefix s in
  match parse_int t with
  | Some v => (Some (if in32 v then Some v else None), r)
  | None => (None, r)
  end.
