(** * Model: the RNN-T pruning code of k2/python/k2/rnnt_loss.py.

    Tensors are nested lists; the dimensions are arguments of the functions
    (torch tensors carry them even when one of them is 0).  An exception
    (failed assert, index out of range, division by zero) is [None]. *)
From Coq Require Import ZArith List Lia Bool.
From Verif Require Import Base OpsModel.
Import ListNotations.
Open Scope Z_scope.

(** Indexing and building tensors. *)
Definition rd2 {A} (x : list (list A)) (i j : Z) : option A := r <- rd x i;; rd r j.
Definition rd3 {A} (x : list (list (list A))) (i j k : Z) : option A := r <- rd x i;; rd2 r j k.
Definition tabM {A} (n : Z) (f : Z -> option A) : option (list A) := mapM f (zrange n).
Definition tabM2 {A} (n m : Z) (f : Z -> Z -> option A) : option (list (list A)) :=
  tabM n (fun i => tabM m (f i)).
Definition shape1 {A} (n : Z) (x : list A) : bool := zlen x =? n.
Definition shape2 {A} (n m : Z) (x : list (list A)) : bool := (zlen x =? n) && forallb (shape1 m) x.
Definition shape3 {A} (n m k : Z) (x : list (list (list A))) : bool := (zlen x =? n) && forallb (shape2 m k) x.
Definition shape4 {A} (n m k l : Z) (x : list (list (list (list A)))) : bool :=
  (zlen x =? n) && forallb (shape3 m k l) x.

(** torch.cummin along a row *)
Fixpoint cummin_from (m : Z) (l : list Z) : list Z :=
  match l with [] => [] | x :: l' => let m' := Z.min m x in m' :: cummin_from m' l' end.
Definition cummin (l : list Z) : list Z :=
  match l with [] => [] | x :: l' => x :: cummin_from x l' end.

(** rnnt_loss.py:543-577 _monotonic_lower_bound (one row) *)
Definition monotonic_lower_bound (x : list Z) : list Z := rev (cummin (rev x)).

(** rnnt_loss.py:580-633 _adjust_pruning_lower_bound (one row) *)
Definition magic (s_range : Z) (x : list Z) : list Z :=
  imap (fun t s => - (s - (s_range - 1) * t)) 0 x.
Definition adjust_pruning_lower_bound (s_range : Z) (s_begin : list Z) : list Z :=
  magic s_range (map (Z.max 0) (monotonic_lower_bound (magic s_range (monotonic_lower_bound s_begin)))).

(** A row of the tensor [boundary]: (begin_symbol, begin_frame, end_symbol, end_frame) *)
Definition b_S (b : Z * Z * Z * Z) : Z := snd (fst b).
Definition b_T (b : Z * Z * Z * Z) : Z := snd b.

(** rnnt_loss.py:46-62 _validate_st_lengths *)
Definition validate_st_lengths (S T : Z) (is_regular : bool) (boundary : option (list (Z * Z * Z * Z))) : option unit :=
  check (0 <=? S);;
  match boundary with
  | None => check (is_regular || (S <=? T));; Some tt
  | Some bs => check (is_regular || forallb (fun b => b_S b <=? b_T b) bs);; Some tt
  end.

(** torch.max() of a 1-d tensor; raises when it is empty *)
Definition tmax (l : list Z) : option Z :=
  match l with [] => None | x :: l' => Some (fold_left Z.max l' x) end.

Section Ranges.
(** The gradients are floats of which only sums, differences and the position
    of the maximum are used: all of these are parameters. *)
Context {G : Type} (gzero : G) (gadd gsub : G -> G -> G) (argmax : list G -> Z).

(** rnnt_loss.py:690-707 the number of symbols kept per frame *)
Definition effective_range (S T : Z) (is_regular : bool) (boundary : list (Z * Z * Z * Z)) (s_range : Z) : option Z :=
  r1 <- (if is_regular then
           mins <- mapM (fun b => check (negb (b_T b =? 0));; Some (Z.quot (b_S b - 1) (b_T b) + 2)) boundary;;
           s_range_min <- tmax mins;;
           Some (if s_range <? s_range_min then s_range_min else s_range)
         else Some s_range);;
  let r2 := if S <? r1 then S + 1 else r1 in
  check (if is_regular then 2 <=? r2 else 1 <=? r2);;
  Some r2.

(** rnnt_loss.py:726-773 one utterance: the first kept symbol of each frame *)
Definition s_begin_row (S T r : Z) (px py : list (list G)) (b : Z * Z * Z * Z) : option (list Z) :=
  let S1 := S + 1 in
  let px_pad := repeat gzero (Z.to_nat T) :: px in          (* T1 columns, of which [:T] are used *)
  s_begin <- tabM T (fun t =>
    col <- tabM (S1 - r + 1) (fun s =>
      blk <- tabM r (fun j => rd2 py (s + j) t);;
      p <- rd2 px_pad s t;;
      Some (gsub (fold_left gadd blk gzero) p));;
    Some (argmax col));;
  let pad := Z.max 0 (b_S b - r + 1) in
  Some (imap (fun t s => if t <? b_T b - 1 then s else pad) 0 s_begin).

(** rnnt_loss.py:636-780 get_rnnt_prune_ranges.  B, S, T1, T: px_grad has shape
    (B, S, T1) and py_grad (B, S+1, T). *)
Definition get_rnnt_prune_ranges (B S T1 T : Z) (px_grad py_grad : list (list (list G)))
    (boundary : list (Z * Z * Z * Z)) (s_range : Z) : option (list (list (list Z))) :=
  let is_regular := negb (T1 =? T) in
  check ((T1 =? T) || (T1 =? T + 1));;
  check (shape3 B S T1 px_grad && shape3 B (S + 1) T py_grad);;
  check (zlen boundary =? B);;
  _u <- validate_st_lengths S T is_regular (Some boundary);;
  r <- effective_range S T is_regular boundary s_range;;
  tabM B (fun b =>
    px <- rd px_grad b;; py <- rd py_grad b;; bd <- rd boundary b;;
    row <- s_begin_row S T r px py bd;;
    let row' := adjust_pruning_lower_bound (if T1 =? T then 2 else r) row in
    Some (map (fun s => map (fun j => s + j) (zrange r)) row')).
End Ranges.

Inductive rnnt_type := Regular | Modified | Constrained.
Definition is_reg (k : rnnt_type) : bool := match k with Regular => true | _ => false end.

Section LogProbs.
(** Log-probabilities: floats with subtraction, addition, -inf and logsumexp. *)
Context {V : Type} (ninf : V) (vadd vsub : V -> V -> V) (lse : list V -> V).

(** rnnt_loss.py:25-43 fix_for_boundary (one utterance) *)
Definition fix_for_boundary (T_end : option Z) (px : list (list V)) : option (list (list V)) :=
  match T_end with
  | None => Some px
  | Some t => mapM (fun row => wr row t ninf) px
  end.

(** The end of both functions: rnnt_loss.py:440-447 and 1343-1348 *)
Definition finish (k : rnnt_type) (T_end : option Z) (S T : Z) (px py : list (list V)) : option (list (list V) * list (list V)) :=
  match k with
  | Regular => px' <- fix_for_boundary T_end px;; Some (px', py)
  | Modified => Some (px, py)
  | Constrained =>
      px' <- tabM2 S T (fun s t => x <- rd2 px s t;; y <- rd2 py (s + 1) t;; Some (vadd x y));;
      Some (px', py)
  end.

(** rnnt_loss.py:341-447 get_rnnt_logprobs_joint, one utterance of shape
    (T, S + 1, C): [px] of shape (S, T + 1) or (S, T), [py] of shape (S + 1, T). *)
Definition logprobs_joint_row (k : rnnt_type) (S T : Z) (logits : list (list (list V))) (symbols : list Z)
    (term : Z) (T_end : option Z) : option (list (list V) * list (list V)) :=
  normalizers <- tabM2 T (S + 1) (fun t s => l <- rd2 logits t s;; Some (lse l));;
  px <- tabM2 S T (fun s t => c <- rd symbols s;; l <- rd2 logits t s;; x <- rd l c;;
                              n <- rd2 normalizers t s;; Some (vsub x n));;
  let px := match k with Regular => map (fun row => row ++ [ninf]) px | _ => px end in
  py <- tabM2 (S + 1) T (fun s t => l <- rd2 logits t s;; x <- rd l term;;
                                    n <- rd2 normalizers t s;; Some (vsub x n));;
  finish k T_end S T px py.

(** rnnt_loss.py:957-989 _roll_by_shifts (one utterance).  Python's % is
    non-negative, like Z.modulo for a positive modulus. *)
Definition roll_by_shifts (S : Z) (src : list (list V)) (shifts : list Z) : option (list (list V)) :=
  tabM (zlen src) (fun t => row <- rd src t;; sh <- rd shifts t;; tabM S (fun i => rd row ((i - sh) mod S))).

(** rnnt_loss.py:1180-1348 get_rnnt_logprobs_pruned, one utterance: [logits] of
    shape (T, s_range, C), [ranges] of shape (T, s_range). *)
Definition logprobs_pruned_row (k : rnnt_type) (S T r : Z) (logits : list (list (list V))) (symbols : list Z)
    (ranges : list (list Z)) (term : Z) (T_end : option Z) : option (list (list V) * list (list V)) :=
  normalizers <- tabM2 T r (fun t j => l <- rd2 logits t j;; Some (lse l));;
  let symbols_with_terminal := symbols ++ [term] in
  pruned_symbols <- tabM2 T r (fun t j => i <- rd2 ranges t j;; rd symbols_with_terminal i);;
  shifts <- tabM T (fun t => rd2 ranges t 0);;
  px <- tabM2 T r (fun t j => c <- rd2 pruned_symbols t j;; l <- rd2 logits t j;; x <- rd l c;;
                              n <- rd2 normalizers t j;; Some (vsub x n));;
  check (0 <=? S + 1 - r);;
  let fill := repeat ninf (Z.to_nat (S + 1 - r)) in
  px <- roll_by_shifts (S + 1) (map (fun row => row ++ fill) px) shifts;;
  px <- tabM2 S T (fun s t => rd2 px t s);;                         (* [:, :, :S], permute *)
  let px := match k with Regular => map (fun row => row ++ [ninf]) px | _ => px end in
  py <- tabM2 T r (fun t j => l <- rd2 logits t j;; x <- rd l term;;
                              n <- rd2 normalizers t j;; Some (vsub x n));;
  py <- roll_by_shifts (S + 1) (map (fun row => row ++ fill) py) shifts;;
  py <- tabM2 (S + 1) T (fun s t => rd2 py t s);;
  finish k T_end S T px py.

(** The batch versions, with the checks on shapes and lengths. *)
Definition t_end (boundary : option (list (Z * Z * Z * Z))) (b : Z) : option (option Z) :=
  match boundary with None => Some None | Some bs => x <- rd bs b;; Some (Some (b_T x)) end.

Definition get_rnnt_logprobs_joint (k : rnnt_type) (B T S1 C : Z) (logits : list (list (list (list V))))
    (symbols : list (list Z)) (term : Z) (boundary : option (list (Z * Z * Z * Z)))
    : option (list (list (list V) * list (list V))) :=
  let S := S1 - 1 in
  check (shape4 B T S1 C logits && shape2 B S symbols);;
  _u <- validate_st_lengths S T (is_reg k) boundary;;
  tabM B (fun b => l <- rd logits b;; y <- rd symbols b;; te <- t_end boundary b;;
                   logprobs_joint_row k S T l y term te).

Definition get_rnnt_logprobs_pruned (k : rnnt_type) (B T r C S : Z) (logits : list (list (list (list V))))
    (symbols : list (list Z)) (ranges : list (list (list Z))) (term : Z)
    (boundary : option (list (Z * Z * Z * Z))) : option (list (list (list V) * list (list V))) :=
  check (shape4 B T r C logits && shape3 B T r ranges && shape2 B S symbols);;
  _u <- validate_st_lengths S T (is_reg k) boundary;;
  tabM B (fun b => l <- rd logits b;; y <- rd symbols b;; rg <- rd ranges b;; te <- t_end boundary b;;
                   logprobs_pruned_row k S T r l y rg term te).

(** rnnt_loss.py:913-954 do_rnnt_pruning on [lm], one utterance: row t holds
    lm[ranges[t][j]] (the expansion of [am] copies a row). *)
Definition do_rnnt_pruning {D} (B T S1 r : Z) (am lm : list (list (list D))) (ranges : list (list (list Z)))
    : option (list (list (list (list D))) * list (list (list (list D)))) :=
  check ((zlen ranges =? zlen am) && (zlen ranges =? zlen lm) && shape3 B T r ranges);;
  am_pruned <- tabM B (fun b => tabM2 T r (fun t _ => rd2 am b t));;
  lm_pruned <- tabM B (fun b => tabM2 T r (fun t j => i <- rd3 ranges b t j;; rd2 lm b i));;
  Some (am_pruned, lm_pruned).
End LogProbs.
