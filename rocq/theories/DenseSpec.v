(** * Specification of DenseFsaVec. *)
From Coq Require Import ZArith List.
From Verif Require Import Base FsaSpec.
Import ListNotations.
Open Scope Z_scope.

(** A tensor of shape (N, T, C) *)
Definition shaped3 {A} (N T C : Z) (x : list (list (list A))) : Prop :=
  zlen x = N /\ forall m, In m x -> zlen m = T /\ forall row, In row m -> zlen row = C.
Definition at2 {A} (x : list (list (list A))) (q t : Z) : list A :=
  match rd x q with Some m => match rd m t with Some row => row | None => [] end | None => [] end.

(** The segments a caller may pass: [sequence; start; duration] *)
Definition segment_ok (N T trunc : Z) (seg : list Z) : Prop :=
  exists q s d, seg = [q; s; d] /\ 0 <= q < N /\ 0 <= s < T /\ 0 <= d /\ s + d <= T + trunc.

(** Frames kept of a segment, and its rows in the result *)
Definition kept (T s d : Z) : Z := Z.min d (T - s).
Definition segment_rows (ninf T C : Z) (x : list (list (list Z))) (seg : list Z) : list (list Z) :=
  match seg with
  | [q; s; d] => map (fun t => ninf :: at2 x q (s + t)) (zrange (kept T s d)) ++ [0 :: repeat ninf (Z.to_nat C)]
  | _ => []
  end.
Definition segment_frames (T : Z) (seg : list Z) : Z := match seg with [q; s; d] => kept T s d | _ => 0 end.

(** The FSA of the rows of a segment: one state per row, with an arc to the
    next state for every symbol; the last row gives the final arc. *)
Definition cell (row : list Z) (j : Z) : Z := match rd row j with Some x => x | None => 0 end.
Definition frame_arcs (ns t : Z) (row : list Z) : list arc := tab ns (fun s => mkArc t (t + 1) s (cell row (s + 1))).
Definition rows_fsa (ns : Z) (rows : list (list Z)) : nfsa :=
  imap (fun t row => if t + 1 =? zlen rows then [mkArc t (t + 1) (-1) (cell row 0)] else frame_arcs ns t row) 0 rows ++ [[]].
