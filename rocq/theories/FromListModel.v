(** * Model of RaggedTensor(list) and RaggedTensor.tolist() for any nesting
    (k2/python/csrc/torch/v2/ragged_any.cu). *)
From Coq Require Import ZArith List Lia Bool.
From Verif Require Import Base.
Import ListNotations.
Open Scope Z_scope.

(** A Python value: a number or a list. *)
Inductive pyval (A : Type) := PElem (a : A) | PList (l : list (pyval A)).
Arguments PElem {A}. Arguments PList {A}.

(** State of the builder: [deepest_level], [row_splits], [elems]. *)
Record fl_state (A : Type) := mk_fl { fl_deepest : Z; fl_rss : list (list Z); fl_elems : list A }.
Arguments mk_fl {A}. Arguments fl_deepest {A}. Arguments fl_rss {A}. Arguments fl_elems {A}.

(** pybind11's cast of a list to std::vector<T>: fails on a non-number. *)
Definition cast_elems {A} (l : list (pyval A)) : option (list A) :=
  mapM (fun v => match v with PElem a => Some a | PList _ => None end) l.

(** row_splits[k].push_back(v) *)
Definition push_at (rss : list (list Z)) (k v : Z) : option (list (list Z)) :=
  r <- rd rss k;; wr rss k (r ++ [v]).

(** ragged_any.cu:92-145 RaggedAnyFromListIter; [lvl] = *cur_level on entry. *)
Fixpoint from_list_iter {A} (v : pyval A) (lvl : Z) (st : fl_state A) {struct v} : option (fl_state A) :=
  match v with
  | PElem _ => None                                    (* lines 107-110, 160-162 *)
  | PList data =>
      let cur := lvl + 1 in
      let rss := fl_rss st ++ repeat [0] (Z.to_nat (cur - zlen (fl_rss st))) in  (* 99-103 *)
      let st := mk_fl (fl_deepest st) rss (fl_elems st) in
      st <- match data with
            | PList _ :: _ =>                                              (* 105-113 *)
                (fix go (l : list (pyval A)) (st : fl_state A) : option (fl_state A) :=
                   match l with
                   | [] => Some st
                   | d :: t => st' <- from_list_iter d cur st;; go t st'
                   end) data st
            | _ =>                                                         (* 114-136 *)
                let sz := zlen data in
                check (negb (negb (fl_deepest st =? -1) && (0 <? sz) && negb (fl_deepest st =? cur)));;
                let deepest := if fl_deepest st =? -1 then cur else fl_deepest st in
                check (negb ((0 <? sz) && negb (cur =? zlen (fl_rss st))));;
                tmp <- cast_elems data;;
                Some (mk_fl deepest (fl_rss st) (fl_elems st ++ tmp))
            end;;
      n <- (if lvl + 1 >=? zlen (fl_rss st) then Some (zlen (fl_elems st))
            else r <- rd (fl_rss st) (lvl + 1);; Some (zlen r - 1));;        (* 140-144 *)
      rss' <- push_at (fl_rss st) lvl n;;
      Some (mk_fl (fl_deepest st) rss' (fl_elems st))
  end.

Fixpoint from_list_loop {A} (l : list (pyval A)) (lvl : Z) (st : fl_state A) : option (fl_state A) :=
  match l with
  | [] => Some st
  | d :: t => st' <- from_list_iter d lvl st;; from_list_loop t lvl st'
  end.

(** ragged_any.cu:153-188 RaggedAnyFromList: the row splits of each layer and
    the values. *)
Definition from_list {A} (data : list (pyval A)) : option (list (list Z) * list A) :=
  st <- from_list_loop data 0 (mk_fl (-1) [] []);;
  let rss := match fl_rss st with [] => [[0]] | r => r end in
  check (zlen (fl_elems st) =? last (last rss [0]) 0);;                    (* 184-186 *)
  Some (rss, fl_elems st).

(** ragged_any.cu:643-668 ToList: recursion over the axes; [rss] are the row
    splits of the axes below the current one. *)
Fixpoint to_list {A} (rss : list (list Z)) (values : list A) (b e : Z) : option (list (pyval A)) :=
  match rss with
  | [] => mapM (fun i => v <- rd values i;; Some (PElem v)) (map (fun i => b + i) (zrange (e - b)))
  | rs :: t =>
      mapM (fun i => lo <- rd rs i;; hi <- rd rs (i + 1);; l <- to_list t values lo hi;; Some (PList l))
           (map (fun i => b + i) (zrange (e - b)))
  end.
(** ragged_any.cu:670-681 RaggedAny::ToList. *)
Definition tolist {A} (rss : list (list Z)) (values : list A) : option (list (pyval A)) :=
  rs <- hd_error rss;; to_list rss values 0 (zlen rs - 1).
