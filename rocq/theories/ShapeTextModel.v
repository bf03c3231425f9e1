(** * Model of the text form of RaggedShape *)
From Coq Require Import ZArith List Lia Bool.
From Verif Require Import Base PyBase FsaTextModel FromListModel RaggedTextModel.
Import ListNotations.
Open Scope Z_scope.

(** k2/csrc/ragged.cu:563-616, the loop of operator>>; the white space before [s] has
    been skipped.  Every round takes one character: [fuel] is the length of the text.
    Returns row_splits at the last bracket and what is left of the text; None: failbit. *)
Fixpoint shape_loop (fuel : nat) (s : str) (cur : Z) (rss : list (list Z)) (num_elems : Z)
  : option (list (list Z) * str) :=
  match fuel with
  | O => None
  | Datatypes.S fuel' =>
      match s with
      | [] => None
      | c :: t =>
          if c =? 91 then                                                     (* '[', 570-578 *)
            check (negb ((zlen rss <? cur + 1) && negb (num_elems =? 0)));;
            shape_loop fuel' (skip_ws t) (cur + 1) (rss ++ repeat [0] (Z.to_nat (cur + 1 - zlen rss))) num_elems
          else if c =? 93 then                                                (* ']', 579-603 *)
            if cur - 1 <=? 0 then
              check (negb (cur - 1 <? 0));;
              Some (match tl rss with [] => [[0]] | q => q end, t)
            else
              n <- (if cur - 1 + 1 >=? zlen rss then Some num_elems
                    else r <- rd rss (cur - 1 + 1);; Some (zlen r - 1));;
              rss' <- push_at rss (cur - 1) n;;
              shape_loop fuel' (skip_ws t) (cur - 1) rss' num_elems
          else if c =? 120 then                                               (* 'x', 604-610 *)
            if negb (cur =? zlen rss) || (cur <? 2) then None
            else shape_loop fuel' (skip_ws t) cur rss (num_elems + 1)
          else None                                                           (* 611-614 *)
      end
  end.
(** RaggedShape(const std::string &), ragged.h: only white space may follow *)
Definition shape_of_text (s : str) : option (list (list Z)) :=
  match shape_loop (Datatypes.S (length s)) (skip_ws s) 0 [] 0 with
  | None => None
  | Some (rss, rest) => check (is_nil (skip_ws rest));; Some rss
  end.
(** ragged.cu:61-78 PrintRaggedShapePart; [rss]: the row splits of the axes below *)
Fixpoint print_shape_part (rss : list (list Z)) (b e : Z) : option str :=
  parts <- match rss with
           | [] => mapM (fun _ => Some [120; 32]) (map (fun i => b + i) (zrange (e - b)))
           | rs :: rss' =>
               mapM (fun d => lo <- rd rs d;; hi <- rd rs (d + 1);; p <- print_shape_part rss' lo hi;;
                              Some ([91; 32] ++ p ++ [93; 32])) (map (fun i => b + i) (zrange (e - b)))
           end;;
  Some (concat parts).
(** ragged.cu:97-113 operator<< *)
Definition print_shape (rss : list (list Z)) : option str :=
  rs <- hd_error rss;; p <- print_shape_part rss 0 (zlen rs - 1);; Some ([91; 32] ++ p ++ [93]).
