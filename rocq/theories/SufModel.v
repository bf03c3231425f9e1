(** * Model of k2/csrc/nbest.cu: suffix arrays, LCP arrays, LCP intervals and
      GetBestMatchingStats, the code behind k2.get_best_matching_stats.

    Arrays are lists; reading or writing outside an array is [None].  Integers are
    unbounded (int16_t or int32_t in the code).  Scores are exact integers, means and
    variances exact rationals (float and double in the code). *)
From Coq Require Import ZArith QArith List Bool.
From Verif Require Import Base RaggedModel OpsModel.
Import ListNotations.
Open Scope Z_scope.

(** nbest.cu:50-57 RadixPass: a[0..n-1] sorted by the keys in [r], from position [off] *)
Definition radix_pass (a r : list Z) (off n K : Z) : option (list Z) :=
  c <- foldM (fun c i => x <- rd a i;; k <- rd r (x + off);; v <- rd c k;; wr c k (v + 1)) (zrange n) (repeat 0 (Z.to_nat (K + 1)));;
  let c' := firstn (length c) (exsum c) in
  s <- foldM (fun s i => x <- rd a i;; k <- rd r (x + off);; v <- rd (fst s) k;;
                         b <- wr (snd s) v x;; c <- wr (fst s) k (v + 1);; Some (c, b)) (zrange n) (c', repeat 0 (Z.to_nat n));;
  Some (snd s).

(** 30-39 Leq *)
Definition leq2 (a1 a2 b1 b2 : Z) : bool := (a1 <? b1) || ((a1 =? b1) && (a2 <=? b2)).
Definition leq3 (a1 a2 a3 b1 b2 b3 : Z) : bool := (a1 <? b1) || ((a1 =? b1) && leq2 a2 a3 b2 b3).

(** 86-101 the names of the triples; [r] is what is left in R *)
Definition name_triples (text sa12 r : list Z) (n0 n02 : Z) : option (Z * (Z * Z * Z) * list Z) :=
  foldM (fun s i =>
      x <- rd sa12 i;; a <- rd text x;; b <- rd text (x + 1);; c <- rd text (x + 2);;
      let '(name, (c0, c1, c2), r) := s in
      let t := if negb (a =? c0) || negb (b =? c1) || negb (c =? c2) then (name + 1, (a, b, c)) else (name, (c0, c1, c2)) in
      r' <- wr r (if x mod 3 =? 1 then x / 3 else x / 3 + n0) (fst t);;
      Some (t, r')) (zrange n02) (0, (-1, -1, -1), r).

(** 116-139 the merge of the sorted suffixes at positions that are multiples of 3 and
    those that are not; [l12] and [l0] are what is left of SA12 and SA0, [k] is the
    number of free places in SA *)
Definition pos12 (n0 s : Z) : Z := if s <? n0 then s * 3 + 1 else (s - n0) * 3 + 2.
Fixpoint merge (text R : list Z) (n0 : Z) (k : nat) (l12 l0 : list Z) : option (list Z) :=
  match k with
  | O => Some []
  | S k' =>
      match l12, l0 with
      | s :: l12', j :: l0' =>
          let i := pos12 n0 s in
          b <- (if s <? n0 then
                  ti <- rd text i;; ri <- rd R (s + n0);; tj <- rd text j;; rj <- rd R (j / 3);; Some (leq2 ti ri tj rj)
                else
                  ti <- rd text i;; ti1 <- rd text (i + 1);; ri <- rd R (s - n0 + 1);;
                  tj <- rd text j;; tj1 <- rd text (j + 1);; rj <- rd R (j / 3 + n0);; Some (leq3 ti ti1 ri tj tj1 rj));;
          if b then
            match l12' with
            | [] => Some (i :: l0)
            | _ => r <- merge text R n0 k' l12' l0;; Some (i :: r)
            end
          else
            match l0' with
            | [] => Some (j :: map (pos12 n0) l12)
            | _ => r <- merge text R n0 k' l12 l0';; Some (j :: r)
            end
      | _, _ => None
      end
  end.

(** 62-140 CreateSuffixArray; [fuel] bounds the depth of the recursion *)
Fixpoint create_suffix_array (fuel : nat) (text : list Z) (n K : Z) : option (list Z) :=
  match fuel with
  | O => None
  | S fuel' =>
      if n =? 1 then Some [0]
      else
        let n0 := (n + 2) / 3 in let n1 := (n + 1) / 3 in let n2 := n / 3 in let n02 := n0 + n2 in
        let r := filter (fun i => negb (i mod 3 =? 0)) (zrange (n + (n0 - n1))) in
        s1 <- radix_pass r text 2 n02 K;;
        s2 <- radix_pass s1 text 1 n02 K;;
        sa12 <- radix_pass s2 text 0 n02 K;;
        named <- name_triples text sa12 (s2 ++ [0; 0; 0]) n0 n02;;
        let name := fst (fst named) in let R := snd named in
        p <- (if name <? n02 then
                sa <- create_suffix_array fuel' R n02 name;;
                R' <- foldM (fun r i => x <- rd sa i;; wr r x (i + 1)) (zrange n02) R;;
                Some (sa, R')
              else
                sa <- foldM (fun s i => x <- rd R i;; wr s (x - 1) i) (zrange n02) sa12;;
                Some (sa, R));;
        let r0 := map (fun x => 3 * x) (filter (fun x => x <? n0) (fst p)) in
        sa0 <- radix_pass r0 text 0 n0 K;;
        merge text (snd p) n0 (Z.to_nat n) (skipn (Z.to_nat (n0 - n1)) (fst p)) sa0
  end.

(** 186-217 CreateLcpArray *)
Fixpoint extend (fuel : nat) (text : list Z) (i j k : Z) : option Z :=
  match fuel with
  | O => None
  | S fuel' => a <- rd text (i + k);; b <- rd text (j + k);; if a =? b then extend fuel' text i j (k + 1) else Some k
  end.
Definition create_lcp_array (text sa : list Z) (n : Z) : option (list Z) :=
  x0 <- rd sa 0;;
  phi0 <- wr (repeat 0 (Z.to_nat n)) x0 (-1);;
  phi <- foldM (fun p i => x <- rd sa (i + 1);; y <- rd sa i;; wr p x y) (zrange (n - 1)) phi0;;
  s <- foldM (fun s i =>
        j <- rd phi i;;
        k <- (if j =? -1 then Some 0 else extend (length text) text i j (fst s));;
        Some (if 0 <? k then k - 1 else k, snd s ++ [k])) (zrange n) (0, []);;
  mapM (fun i => x <- rd sa i;; rd (snd s) x) (zrange n).

(** nbest.h:139-153 LcpInterval *)
Record node := mkN { n_lcp : Z; n_lb : Z; n_rb : Z; n_par : Z }.
(** 225-337 CreateLcpIntervalArray.  The stack has its top first; the intervals that
    have been written (dfs_next is their number), intervals_order, leaf_parent, the
    leaf stack and last_interval: *)
Record tree := mkT { t_out : list node; t_order : list Z; t_lp : list Z; t_leaf : list Z; t_last : Z }.
Fixpoint pop_leaves (d lb : Z) (leaf lp : list Z) : option (list Z * list Z) :=
  match leaf with
  | [] => Some ([], lp)
  | x :: r => if lb <=? x then lp' <- wr lp x d;; pop_leaves d lb r lp' else Some (leaf, lp)
  end.
(** 270-304 the inner loop *)
Fixpoint pops (v i : Z) (stack : list node) (s : tree) (lb : Z) : option (list node * tree * Z) :=
  match stack with
  | [] => None
  | e :: st =>
      if v <? n_lcp e then
        let d := zlen (t_out s) in
        q <- pop_leaves d (n_lb e) (t_leaf s) (t_lp s);;
        order <- wr (t_order s) (n_par e) d;;
        match st with
        | [] => None
        | e' :: _ =>
            let done := v <=? n_lcp e' in
            pops v i st
              (mkT (t_out s ++ [mkN (n_lcp e) (n_lb e) (i - 1) (if done then n_par e' else n_par e)]) order (snd q) (fst q)
                   (if done then -1 else n_par e)) (n_lb e)
        end
      else Some (stack, s, lb)
  end.
Definition interval_step (lcp : list Z) (st : list node * tree * Z) (i : Z) : option (list node * tree * Z) :=
  let '(stack, s, next) := st in
  v <- rd lcp i;;
  p <- pops v i stack (mkT (t_out s) (t_order s) (t_lp s) ((i - 1) :: t_leaf s) (t_last s)) (i - 1);;
  let '(stack, s, lb) := p in
  top <- rd stack 0;;
  if n_lcp top <? v then
    out <- (if 0 <=? t_last s then
              d <- rd (t_order s) (t_last s);; e <- rd (t_out s) d;; wr (t_out s) d (mkN (n_lcp e) (n_lb e) (n_rb e) next)
            else Some (t_out s));;
    Some (mkN v lb (-1) next :: stack, mkT out (t_order s) (t_lp s) (t_leaf s) (-1), next + 1)
  else Some (stack, s, next).
Definition create_lcp_intervals (n : Z) (lcp : list Z) : option (list node * list Z) :=
  let z := repeat 0 (Z.to_nat n) in
  p <- foldM (interval_step lcp) (map (fun i => i + 1) (zrange (n - 1))) ([mkN 0 0 (n - 1) 0], mkT [] z z [] (-1), 1);;
  let '(stack, s, next) := p in
  check (zlen stack =? 1);;
  top <- rd stack 0;;
  let d := zlen (t_out s) in
  let out := t_out s ++ [mkN (n_lcp top) (n_lb top) (n_rb top) (-1)] in
  order <- wr (t_order s) 0 d;;
  lp <- foldM (fun lp x => wr lp x d) (n - 1 :: t_leaf s) (t_lp s);;
  check (zlen out =? next);;
  nodes <- mapM (fun i => e <- rd out i;;
                          if i + 1 <? next then q <- rd order (n_par e);; Some (mkN (n_lcp e) (n_lb e) (n_rb e) q) else Some e) (zrange next);;
  Some (nodes, lp).

(** 352-389 FindTightestNonemptyIntervals: the new leaf_parent_intervals *)
Definition find_tightest (n : Z) (nodes : list node) (csum lp : list Z) : option (list Z) :=
  check (zlen csum =? n + 1);;
  check (zlen lp =? n);;
  let m := zlen nodes in
  tight <- foldM (fun t i =>
      e <- rd nodes i;; a <- rd csum (n_rb e + 1);; b <- rd csum (n_lb e);;
      j <- (if (n_par e <? 0) || (b <? a) then Some i else rd t (n_par e));;
      wr t i j) (rev (zrange m)) (repeat 0 (Z.to_nat m));;
  mapM (fun i => p <- rd lp i;; rd tight p) (zrange n).

(** 407-607 GetBestMatchingStatsInternal: mean, variance, count and order of every
    position *)
Record stat := mkSt { o_mean : Q; o_var : Q; o_count : Z; o_order : Z }.
Definition stats2 (tokens : list (list Z)) (scores counts : list Z) (eos min_token max_token max_order : Z) : option (list stat) :=
  let toks := concat tokens in
  let N := zlen toks in
  let offset := 1 - min_token in
  let terminator := max_token + 1 + offset in
  let n := N + 2 in
  let text := map (fun x => x + offset) (rev toks) ++ [eos + offset; terminator; 0; 0; 0] in
  sa <- create_suffix_array (Z.to_nat n) text n terminator;;
  let reorder (l : list Z) (f : Z -> Z) :=
    vals <- mapM (fun x => let r := n - 2 - x - 1 in if r <? 0 then Some 0 else v <- rd l r;; Some (f v)) sa;; Some (exsum vals) in
  cs <- reorder counts (fun v => v);;
  ss <- reorder scores (fun v => v);;
  qs <- reorder scores (fun v => v * v);;
  total <- rd cs n;;
  if total =? 0 then Some (map (fun _ => mkSt 0 0 0 0) toks)
  else
    lcp <- create_lcp_array text sa n;;
    tr <- create_lcp_intervals n lcp;;
    lp <- find_tightest n (fst tr) cs (snd tr);;
    let dist := concat (map (fun l => map (fun i => i + 1) (zrange (zlen l))) tokens) in
    inv <- foldM (fun v i => x <- rd sa i;; wr v x i) (zrange n) (repeat 0 (Z.to_nat n));;
    mapM (fun i =>
        x <- rd inv (n - 2 - i - 1);; k <- rd lp x;; e <- rd (fst tr) k;;
        let sum l := a <- rd l (n_rb e + 1);; b <- rd l (n_lb e);; Some (a - b) in
        s <- sum ss;; q <- sum qs;; c <- sum cs;;
        d <- rd dist i;;
        let mean := (if c =? 0 then 0 else inject_Z s / inject_Z c)%Q in
        let var := (if (c =? 0) || (c =? 1)%Z then 0
                    else (inject_Z q - 2 * mean * inject_Z s + inject_Z c * mean * mean) / inject_Z c)%Q in
        if n_lcp e =? 0 then
          check (n_par e =? -1);; Some (mkSt mean var 0 0)
        else
          Some (mkSt mean var c (if d <=? n_lcp e then max_order else Z.min (n_lcp e) max_order))) (zrange N).

(** 609-692 GetBestMatchingStats, for two axes: *)
Definition stats_checked (tokens : list (list Z)) (scores counts : list Z) (eos min_token max_token max_order : Z) : option (list stat) :=
  check ((min_token <=? eos) && (eos <=? max_token));;
  check (2 <=? max_order);;
  check (zlen (concat tokens) =? zlen scores);;
  check (zlen (concat tokens) =? zlen counts);;
  if zlen (concat tokens) =? 0 then Some [] else stats2 tokens scores counts eos min_token max_token max_order.
(** ... and for three *)
Fixpoint collections (tokens : list (list (list Z))) (scores counts : list Z) (eos min_token max_token max_order : Z) : option (list stat) :=
  match tokens with
  | [] => Some []
  | t :: ts =>
      let m := length (concat t) in
      r <- stats_checked t (firstn m scores) (firstn m counts) eos min_token max_token max_order;;
      rs <- collections ts (skipn m scores) (skipn m counts) eos min_token max_token max_order;;
      Some (r ++ rs)
  end.
Definition get_best_matching_stats3 (tokens : list (list (list Z))) (scores counts : list Z) (eos min_token max_token max_order : Z) : option (list stat) :=
  check ((min_token <=? eos) && (eos <=? max_token));;
  check (2 <=? max_order);;
  check (zlen (concat (concat tokens)) =? zlen scores);;
  check (zlen (concat (concat tokens)) =? zlen counts);;
  collections tokens scores counts eos min_token max_token max_order.
