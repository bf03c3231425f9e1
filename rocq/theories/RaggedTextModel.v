(** * Model of the text form of ragged tensors (int32)

    RaggedTensor(str), the C++ operator<<, and what str() and to_str_simple() print.
    Texts are lists of character codes; [read_int] is the model of is >> int32_t. *)
From Coq Require Import ZArith List Lia Bool.
From Verif Require Import Base PyBase FsaTextModel FromListModel.
Import ListNotations.
Open Scope Z_scope.

(** k2/csrc/ragged_ops_inl.h:472-511, the loop of operator>>; the white space before
    [s] has been skipped.  Every round takes at least one character: [fuel] is the
    length of the text.  Returns row_splits, elems and what is left of the text;
    None: failbit. *)
Fixpoint rag_loop (fuel : nat) (s : str) (cur : Z) (rss : list (list Z)) (elems : list Z)
  : option (list (list Z) * list Z * str) :=
  match fuel with
  | O => None
  | Datatypes.S fuel' =>
      match s with
      | [] => None
      | c :: t =>
          if c =? 91 then                                                     (* '[', 475-484 *)
            check (negb ((zlen rss <? cur + 1) && negb (is_nil elems)));;
            rag_loop fuel' (skip_ws t) (cur + 1) (rss ++ repeat [0] (Z.to_nat (cur + 1 - zlen rss))) elems
          else if c =? 93 then                                                (* ']', 485-496 *)
            check (negb (cur - 1 <? 0));;
            n <- (if cur - 1 + 1 >=? zlen rss then Some (zlen elems)
                  else r <- rd rss (cur - 1 + 1);; Some (zlen r - 1));;
            rss' <- push_at rss (cur - 1) n;;
            if cur - 1 =? 0 then Some (rss', elems, t)
            else rag_loop fuel' (skip_ws t) (cur - 1) rss' elems
          else if c =? 44 then                                                (* ',', 497-498 *)
            rag_loop fuel' (skip_ws t) cur rss elems
          else                                                                (* 499-508 *)
            let '(v, st) := read_int (open s) in
            if negb (good st) || negb (cur =? zlen rss) || (cur <? 2) then None
            else rag_loop fuel' (skip_ws (s_rest st)) cur rss (elems ++ [v])
      end
  end.

(** operator>> (464-531) and the constructor Ragged<T>(const std::string &)
    (ragged.h:346-358): only white space may follow. *)
Definition ragged_of_text (s : str) : option (list (list Z) * list Z) :=
  match rag_loop (Datatypes.S (length s)) (skip_ws s) 0 [] [] with
  | None => None
  | Some (rss, elems, rest) =>
      top <- hd_error rss;;
      check (zlen top =? 2);;
      let rss := match tl rss with [] => [[0]] | r => r end in
      check (zlen elems =? last (last rss [0]) 0);;
      check (is_nil (skip_ws rest));;
      Some (rss, elems)
  end.

(** ragged_ops_inl.h:337-355 PrintRaggedPart; [rss]: the row splits of the axes below
    the current one *)
Fixpoint print_part (rss : list (list Z)) (values : list Z) (b e : Z) : option str :=
  parts <- match rss with
           | [] => mapM (fun d => v <- rd values d;; Some (print_int v ++ [32])) (map (fun i => b + i) (zrange (e - b)))
           | rs :: rss' =>
               mapM (fun d => lo <- rd rs d;; hi <- rd rs (d + 1);; p <- print_part rss' values lo hi;;
                              Some ([91; 32] ++ p ++ [93; 32])) (map (fun i => b + i) (zrange (e - b)))
           end;;
  Some (concat parts).
(** 358-372 operator<< *)
Definition print_ragged (rss : list (list Z)) (values : list Z) : option str :=
  rs <- hd_error rss;; p <- print_part rss values 0 (zlen rs - 1);; Some ([91; 32] ++ p ++ [93]).

(** ragged_any.cu:44-80 RaggedAnyToStringIter: the loop over d, with what is printed
    before an element that is not the first and after one that is not the last *)
Fixpoint py_loop (item : Z -> option str) (before after : str) (ds : list Z) (first : bool) : option str :=
  match ds with
  | [] => Some []
  | d :: ds' =>
      x <- item d;;
      rest <- py_loop item before after ds' false;;
      Some ((if first then [] else before) ++ x ++ (match ds' with [] => [] | _ => after end) ++ rest)
  end.
Fixpoint py_part (compact : bool) (indent : nat) (rss : list (list Z)) (values : list Z) (b e : Z) : option str :=
  match rss with
  | [] => py_loop (fun d => v <- rd values d;; Some (print_int v)) [44; 32] [] (map (fun i => b + i) (zrange (e - b))) true
  | rs :: rss' =>
      py_loop (fun d => lo <- rd rs d;; hi <- rd rs (d + 1);; p <- py_part compact (Datatypes.S indent) rss' values lo hi;;
                        Some ([91] ++ p ++ [93]))
              (if compact then [] else repeat 32 (Datatypes.S indent)) (if compact then [44; 32] else [44; 10])
              (map (fun i => b + i) (zrange (e - b))) true
  end.
(** ragged_any.cu:352-364 RaggedAny::ToString on the CPU: the list between
    RaggedTensor( and , dtype=torch.int32) ; str(x) and repr(x) have compact = false,
    x.to_str_simple() true. *)
Definition py_text (compact : bool) (rss : list (list Z)) (values : list Z) : option str :=
  rs <- hd_error rss;; p <- py_part compact 13 rss values 0 (zlen rs - 1);; Some ([91] ++ p ++ [93]).
