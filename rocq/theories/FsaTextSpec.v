(** * Specification of the text formats of FSAs. *)
From Coq Require Import ZArith List Lia Bool.
From Verif Require Import Base RaggedSpec FsaSpec FstSpec PyBase FsaTextModel.
Import ListNotations.
Open Scope Z_scope.

(** what may follow a field: the end of the line or a space *)
Definition sep_end (r : str) : Prop := match r with [] => True | c :: _ => cws c = true end.

(** [t] denotes the int32 [v]: an optional sign and decimal digits *)
Definition int_tok (t : str) (v : Z) : Prop :=
  int_prefix t = (t, []) /\ parse_int t = Some v /\ in32 v = true.

(** the reader of floats takes exactly the field [t] and gives [v] *)
Definition fl_tok (fl : str -> option Z * str) (t : str) (v : Z) : Prop :=
  (exists c u, t = c :: u /\ cws c = false) /\ forall r, sep_end r -> fl (t ++ r) = (Some v, r).
(** the reader of doubles takes exactly the field [t] and gives the integer [v] *)
Definition dbl_tok (dbl : str -> option (option Z) * str) (t : str) (v : Z) : Prop :=
  forall r, sep_end r -> dbl (t ++ r) = (Some (Some v), r).

(** ** k2 format *)

(** the arc with the score that is read back *)
Definition rescore (reread : Z -> Z) (a : arc) : arc := mkArc (src a) (dst a) (lab a) (reread (sc a)).

(** the ragged labels (one list per arc) as the code stores them *)
Definition rag_of (L : list (list Z)) : list Z * list Z := (splits_of L, concat L).

(** ** OpenFst format *)

(** The fields of a line: its maximal runs of characters that are no space. *)
Fixpoint fields_at (cur : str) (s : str) : list str :=
  match s with
  | [] => match cur with [] => [] | _ => [rev cur] end
  | c :: t => if cws c then match cur with [] => fields_at [] t | _ => rev cur :: fields_at [] t end
              else fields_at (c :: cur) t
  end.
Definition fields (s : str) : list str := fields_at [] s.

(** A line of an OpenFst text: an arc with its aux labels and its cost, a final
    state with its cost (None: infinite, i.e. not final), or nothing. *)
Inductive oline :=
| OArc (a : arc) (auxs : list Z)     (* the cost is in the place of the score *)
| OFinal (q : Z) (cost : option Z)
| OBlank.

(** a sign appears only in front of the number or not right after its digits
    (1e-5 but not 1-5) *)
Definition plain_float (t : str) : Prop :=
  match snd (int_prefix t) with c :: _ => c <> 45 /\ c <> 43 | [] => True end /\ Forall (fun c => cws c = false) t /\
  match t with c :: _ => c <> 73 | [] => True end.

Definition ends_in_space (line : str) : Prop := exists l c, line = l ++ [c] /\ cws c = true.

(** The line [s] says [o].  Fields are separated by any number of spaces. *)
Definition says (fl : str -> option Z * str) (s : str) (o : oline) : Prop :=
  match o with
  | OBlank => fields s = []
  | OArc a auxs =>
      0 <= src a /\ 0 <= dst a /\
      exists ts td tl tas tc,
        fields s = ts :: td :: tl :: tas ++ tc /\
        int_tok ts (src a) /\ int_tok td (dst a) /\ int_tok tl (lab a) /\ Forall2 int_tok tas auxs /\
        ((exists t, tc = [t] /\ fl_tok fl t (sc a)) \/
         (tc = [] /\ sc a = 0 /\ (tas <> [] \/ ends_in_space s)))
  | OFinal q c =>
      0 <= q /\
      exists tq, int_tok tq q /\
        ((fields s = [tq] /\ c = Some 0) \/
         (exists tc v, fields s = [tq; tc] /\ plain_float tc /\ fl_tok fl tc v /\ c = Some v) \/
         (fields s = [tq; [73; 110; 102]] /\ c = None))
  end.

(** Its arcs, final states with finite cost, and states *)
Definition o_arcs (D : list oline) : list (arc * list Z) :=
  flat_map (fun o => match o with OArc a auxs => [(a, auxs)] | _ => [] end) D.
Definition o_finals (D : list oline) : list (Z * Z) :=
  flat_map (fun o => match o with OFinal q (Some c) => [(q, c)] | _ => [] end) D.
Definition o_states (D : list oline) : list Z :=
  flat_map (fun o => match o with OArc a _ => [src a; dst a] | OFinal q _ => [q] | OBlank => [] end) D.

(** OpenFst: the start state is the first state mentioned; a string is accepted
    with the sum of the costs of a path's arcs and the cost of the final state it
    ends in. *)
Definition o_accepts (D : list oline) (w : list Z) (auxs : list (list Z)) (cost : Z) : Prop :=
  exists start rest p q c,
    o_states D = start :: rest /\
    tpath (o_arcs D) start p q /\ In (q, c) (o_finals D) /\
    ilabels p = w /\ map snd p = auxs /\ tscore p + c = cost.

(** k2: label and aux labels -1 on the last arc; scores are minus the costs *)
Definition k2_accepts (na : nat) (T : list (list (arc * list Z))) (w : list Z) (auxs : list (list Z)) (cost : Z) : Prop :=
  exists p, tpath (concat T) 0 p (zlen T - 1) /\
    ilabels p = w ++ [-1] /\ map snd p = auxs ++ [repeat (-1) na] /\ tscore p = - cost.
