(* The concurrent hash of k2/csrc/hash.h and k2/csrc/hash.cu.                 *)
(*                                                                            *)
(* The hash is an array of 64-bit words, "all ones" meaning empty.  Several   *)
(* threads run Insert and Find on it at once.  Every load of a bucket and     *)
(* every AtomicCAS is one indivisible step; between two steps of a thread the *)
(* others may run.  A schedule is a list of thread numbers.  Simplification:  *)
(* loads and compare-and-swaps of one 64-bit word are taken to be coherent    *)
(* (a load returns the latest value of that word).  SetValue, Delete and      *)
(* key_value_location are not modelled.                                       *)

From Coq Require Import List ZArith Bool.
From Verif Require Import Base.
Import ListNotations.
Open Scope Z_scope.

(* hash.h 120-155: the configuration.  bits = log2 num_buckets, i.e.
   buckets_num_bitsm1_ + 1; kept = num_kept_key_bits_ and impl =
   num_implicit_key_bits_ of PackedAccessor (hash.h 727-744), with
   num_key_bits = kept + impl and num_value_bits = 64 - kept.  Accessor<>
   (hash.h 280-460) and GenericAccessor (hash.h 525-700) are the case impl = 0. *)
Record cfg := mkCfg { bits : Z; kept : Z; impl : Z }.

Definition num_buckets (c : cfg) : Z := 2 ^ bits c.

(* The word with all 64 bits set: `~(uint64_t)0` (hash.h 138). *)
Definition EMPTY : Z := 2 ^ 64 - 1.

(* hash.h 776 (Insert), 837 (Find): cur_bucket. *)
Definition first_bucket (c : cfg) (key : Z) : Z :=
  Z.land (key mod 2 ^ 32) (num_buckets c - 1).

(* hash.h 781-782: bucket_inc, a uint32_t. *)
Definition bucket_inc (c : cfg) (key : Z) : Z :=
  (Z.shiftl (Z.lor 1 (Z.lxor (Z.shiftr key (bits c - 1)) key)) (impl c)) mod 2 ^ 32.

(* hash.h 810, 854: rotate the bucket index (uint32_t arithmetic). *)
Definition next_bucket (c : cfg) (key cur : Z) : Z :=
  Z.land ((cur + bucket_inc c key) mod 2 ^ 32) (num_buckets c - 1).

(* hash.h 783, 842. *)
Definition kept_key (c : cfg) (key : Z) : Z := Z.shiftr key (impl c).

(* hash.h 785: kept_key_mask. *)
Definition kept_mask (c : cfg) : Z := 2 ^ kept c - 1.

(* hash.h 790: new_elem. *)
Definition new_elem (c : cfg) (key value : Z) : Z :=
  Z.lor (Z.shiftl value (kept c)) (kept_key c key).

(* The test `(cur_elem & kept_key_mask) == kept_key` (hash.h 793, 804, 848). *)
Definition key_matches (c : cfg) (key elem : Z) : bool :=
  Z.land elem (kept_mask c) =? kept_key c key.

(* `elem >> num_kept_key_bits_` (hash.h 794, 805, 849). *)
Definition value_of (c : cfg) (elem : Z) : Z := Z.shiftr elem (kept c).

Inductive op :=
| Insert (key value : Z)
| Find (key : Z).

(* The outcomes of the calls: Insert returns true, or false and old_value;
   Find returns true and value_out, or false. *)
Inductive res :=
| Won
| Lost (old_value : Z)
| Found (value : Z)
| Missing.

Definition op_key (o : op) : Z :=
  match o with Insert k _ => k | Find k => k end.

(* A thread: the calls it still has to make, and where it is inside the first
   of them: None before it starts, Some (cur_bucket, cas) inside the loop,
   cas = true when it is about to run AtomicCAS. *)
Record thread := mkT { todo : list op; at_ : option (Z * bool) }.

Record event := mkE { e_thread : Z; e_op : op; e_res : res }.

Record st := mkS { data : list Z; threads : list thread; log : list event }.

(* What one step of the loop does to the thread: finish with a result, or go on
   at a bucket; and the value to be written to the bucket, if any. *)
Inductive outcome :=
| Finish (r : res)
| Goto (bucket : Z) (cas : bool).

(* hash.h 791-811 (PackedAccessor::Insert; GenericAccessor 585-615 and
   Accessor 330-362 are the same with impl = 0). *)
Definition insert_step (c : cfg) (key value cur : Z) (cas : bool) (elem : Z)
  : outcome * option Z :=
  if cas then
    (* AtomicCAS(data_ + cur_bucket, cur_elem, new_elem): hash.h 799-808 *)
    if elem =? EMPTY then (Finish Won, Some (new_elem c key value))
    else if key_matches c key elem then (Finish (Lost (value_of c elem)), None)
    else (Goto (next_bucket c key cur) false, None)
  else
    (* the load of data_[cur_bucket]: hash.h 792-797 *)
    if key_matches c key elem then (Finish (Lost (value_of c elem)), None)
    else if elem =? EMPTY then (Goto cur true, None)
    else (Goto (next_bucket c key cur) false, None).

(* hash.h 844-856 (PackedAccessor::Find; GenericAccessor 625-650, Accessor
   383-405). *)
Definition find_step (c : cfg) (key cur : Z) (elem : Z) : outcome :=
  if elem =? EMPTY then Finish Missing
  else if key_matches c key elem then Finish (Found (value_of c elem))
  else Goto (next_bucket c key cur) false.

Definition op_step (c : cfg) (o : op) (cur : Z) (cas : bool) (elem : Z)
  : outcome * option Z :=
  match o with
  | Insert k v => insert_step c k v cur cas elem
  | Find k => (find_step c k cur elem, None)
  end.

(* One step of thread t; None if there is no such thread or it has nothing left
   to do.  The log records finished calls in order. *)
Definition step (c : cfg) (t : Z) (s : st) : option st :=
  th <- rd (threads s) t ;;
  match todo th with
  | [] => None
  | o :: rest =>
      match at_ th with
      | None =>
          ths <- wr (threads s) t (mkT (o :: rest)
                                       (Some (first_bucket c (op_key o), false))) ;;
          Some (mkS (data s) ths (log s))
      | Some (cur, cas) =>
          elem <- rd (data s) cur ;;
          let (out, w) := op_step c o cur cas elem in
          data' <- (match w with
                    | Some x => wr (data s) cur x
                    | None => Some (data s)
                    end) ;;
          match out with
          | Finish r =>
              ths <- wr (threads s) t (mkT rest None) ;;
              Some (mkS data' ths (log s ++ [mkE t o r]))
          | Goto b cas' =>
              ths <- wr (threads s) t (mkT (o :: rest) (Some (b, cas'))) ;;
              Some (mkS data' ths (log s))
          end
      end
  end.

Fixpoint run (c : cfg) (sched : list Z) (s : st) : option st :=
  match sched with
  | [] => Some s
  | t :: sched' => s' <- step c t s ;; run c sched' s'
  end.

(* hash.h 138: a new hash; each thread is given its calls. *)
Definition init (c : cfg) (progs : list (list op)) : st :=
  mkS (repeat EMPTY (Z.to_nat (num_buckets c)))
      (map (fun p => mkT p None) progs) [].

(* hash.h 230-241, CopyDataFrom, and hash.cu 45-80, Resize: thread i looks at
   bucket i of the old hash and inserts the pair it finds into the new one.
   K2_CHECK_EQ(insert_success, true) is a statement about the results. *)
Definition copy_prog (src : cfg) (i elem : Z) : list op :=
  if elem =? EMPTY then []
  else
    let kk := Z.land elem (kept_mask src) in
    let key := Z.lor (Z.shiftl kk (impl src)) (Z.land i (2 ^ impl src - 1)) in
    [Insert key (value_of src elem)].

Definition copy_progs (src : cfg) (d : list Z) : list (list op) :=
  imap (copy_prog src) 0 d.
