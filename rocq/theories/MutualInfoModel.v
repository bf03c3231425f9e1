(** * Model: the mutual-information recursion
    (k2/python/csrc/torch/mutual_information_cpu.cu and
    k2/python/k2/mutual_information.py).

    A tensor that the code allocates with torch.empty is a memory whose cells
    may be uninitialised: reading such a cell is an error ([None]), and so is
    any access out of the tensor's bounds. *)
From Coq Require Import ZArith List Lia Bool Reals.
From Verif Require Import Base OpsModel RnntModel LogReal.
Import ListNotations.
Open Scope Z_scope.

Notation mem A := (Z -> Z -> option A) (only parsing).
Definition inb (n m i j : Z) : bool := (0 <=? i) && (i <? n) && (0 <=? j) && (j <? m).
Definition mget {A} (n m : Z) (p : mem A) (i j : Z) : option A := check (inb n m i j);; p i j.
Definition mset {A} (n m : Z) (p : mem A) (i j : Z) (v : A) : option (mem A) :=
  check (inb n m i j);;
  Some (fun i' j' => if (i' =? i) && (j' =? j) then Some v else p i' j').

(** for (int i = lo + 1; i <= hi; ++i) and for (int i = hi; i > lo; --i) *)
Definition up (lo hi : Z) : list Z := map (fun k => lo + 1 + k) (zrange (hi - lo)).
Definition down (lo hi : Z) : list Z := map (fun k => hi - k) (zrange (hi - lo)).

Section Forward.
Context {V : Type} (zero ninf : V) (vadd logadd : V -> V -> V).

(** mutual_information_cpu.cu:91-121 MutualInformationCpu, one utterance.
    px: (S, T1), py: (S + 1, T), p: (S + 1, T + 1). *)
Definition mi_forward (modified : bool) (S T : Z) (px py : list (list V)) (boundary : Z * Z * Z * Z)
    : option (V * mem V) :=
  let '(s_begin, t_begin, s_end, t_end) := boundary in
  let get := mget (S + 1) (T + 1) in
  let set := mset (S + 1) (T + 1) in
  let t_offset := if modified then -1 else 0 in
  p <- set (fun _ _ => None) s_begin t_begin zero;;
  p <- (if modified then
          foldM (fun p s => set p s t_begin ninf) (up s_begin s_end) p
        else
          foldM (fun p s => a <- get p (s - 1) t_begin;; x <- rd2 px (s - 1) t_begin;;
                            set p s t_begin (vadd a x)) (up s_begin s_end) p);;
  p <- foldM (fun p t => a <- get p s_begin (t - 1);; y <- rd2 py s_begin (t - 1);;
                         set p s_begin t (vadd a y)) (up t_begin t_end) p;;
  p <- foldM (fun p s =>
         p_s_t1 <- get p s t_begin;;
         r <- foldM (fun st t =>
                let '(p, p_s_t1) := st in
                a <- get p (s - 1) (t + t_offset);; x <- rd2 px (s - 1) (t + t_offset);;
                y <- rd2 py s (t - 1);;
                let v := logadd (vadd a x) (vadd p_s_t1 y) in
                p <- set p s t v;;
                Some (p, v)) (up t_begin t_end) (p, p_s_t1);;
         Some (fst r)) (up s_begin s_end) p;;
  ans <- get p s_end t_end;;
  Some (ans, p).

(** mutual_information_cpu.cu:183-244 MutualInformationBackwardCpu, one
    utterance.  [deriv term1 total] is exp(term1 - total) with an infinite
    total replaced by 0 (lines 207-208).  With exact reals term1_deriv is
    always finite, so the branch of lines 213-220 that zeroes the gradients of
    a NaN derivative is not modelled. *)
Context (deriv : V -> V -> R).
Record grads := mkG { g_p : mem R; g_px : mem R; g_py : mem R }.
Definition mi_backward (modified has_boundary : bool) (S T : Z) (px : list (list V)) (boundary : Z * Z * Z * Z)
    (p : mem V) (ans_grad : R) : option grads :=
  let '(s_begin, t_begin, s_end, t_end) := boundary in
  let T1 := if modified then T else T + 1 in
  let get := mget (S + 1) (T + 1) in
  let t_offset := if modified then -1 else 0 in
  let init : mem R := fun _ _ => if has_boundary then Some 0%R else None in
  pg <- mset (S + 1) (T + 1) (fun _ _ => Some 0%R) s_end t_end ans_grad;;
  st <- foldM (fun st s =>
          foldM (fun st t =>
            a <- get p (s - 1) (t + t_offset);; x <- rd2 px (s - 1) (t + t_offset);;
            total <- get p s t;;
            let d1 := deriv (vadd a x) total in
            grad <- mget (S + 1) (T + 1) (g_p st) s t;;
            let term1_grad := (d1 * grad)%R in
            let term2_grad := ((1 - d1) * grad)%R in
            pxg <- mset S T1 (g_px st) (s - 1) (t + t_offset) term1_grad;;
            pg <- mset (S + 1) (T + 1) (g_p st) (s - 1) (t + t_offset) term1_grad;;
            pyg <- mset (S + 1) T (g_py st) s (t - 1) term2_grad;;
            old <- mget (S + 1) (T + 1) pg s (t - 1);;
            pg <- mset (S + 1) (T + 1) pg s (t - 1) (old + term2_grad)%R;;
            Some (mkG pg pxg pyg)) (down t_begin t_end) st) (down s_begin s_end) (mkG pg init init);;
  st <- foldM (fun st t =>
          this <- mget (S + 1) (T + 1) (g_p st) s_begin t;;
          old <- mget (S + 1) (T + 1) (g_p st) s_begin (t - 1);;
          pg <- mset (S + 1) (T + 1) (g_p st) s_begin (t - 1) (old + this)%R;;
          pyg <- mset (S + 1) T (g_py st) s_begin (t - 1) this;;
          Some (mkG pg (g_px st) pyg)) (down t_begin t_end) st;;
  if modified then Some st else
  foldM (fun st s =>
          this <- mget (S + 1) (T + 1) (g_p st) s t_begin;;
          old <- mget (S + 1) (T + 1) (g_p st) (s - 1) t_begin;;
          pg <- mset (S + 1) (T + 1) (g_p st) (s - 1) t_begin (old + this)%R;;
          pxg <- mset S T1 (g_px st) (s - 1) t_begin this;;
          Some (mkG pg pxg (g_py st))) (down s_begin s_end) st.

(** mutual_information.py:284-304 and mutual_information_cpu.cu:50-81, 131-170:
    the checks, the default boundary and the loop over the batch.  The second
    and third components of an utterance's result are px_grad and py_grad. *)
Definition boundary_ok (S T : Z) (bd : Z * Z * Z * Z) : bool :=
  let '(sb, tb, se, te) := bd in
  (0 <=? sb) && (sb <=? se) && (se <=? S) && (0 <=? tb) && (tb <=? te) && (te <=? T).

Definition mutual_information_recursion (B S T1 T : Z) (px py : list (list (list V)))
    (boundary : option (list (Z * Z * Z * Z))) : option (list (V * mem V)) :=
  check ((T1 =? T) || (T1 =? T + 1));;
  check (shape3 B S T1 px && shape3 B (S + 1) T py);;
  check (match boundary with None => true | Some bs => (zlen bs =? B) && forallb (boundary_ok S T) bs end);;
  tabM B (fun b => x <- rd px b;; y <- rd py b;;
    bd <- match boundary with None => Some (0, 0, S, T) | Some bs => rd bs b end;;
    mi_forward (T1 =? T) S T x y bd).
(** lines 152-166 and 289-304 with return_grad=True: ans_grad is all ones *)
Definition mutual_information_grads (B S T1 T : Z) (px py : list (list (list V)))
    (boundary : option (list (Z * Z * Z * Z))) : option (list (V * grads)) :=
  fw <- mutual_information_recursion B S T1 T px py boundary;;
  tabM B (fun b => x <- rd px b;; f <- rd fw b;;
    bd <- match boundary with None => Some (0, 0, S, T) | Some bs => rd bs b end;;
    g <- mi_backward (T1 =? T) (match boundary with None => false | _ => true end) S T x bd (snd f) 1%R;;
    Some (fst f, g)).
End Forward.

(** exp(term1 - total), total replaced by 0 when infinite *)
Definition lderiv (term1 total : option R) : R :=
  let total := match total with Some r => r | None => 0%R end in
  match term1 with Some r => exp (r - total) | None => 0%R end.
