(** * What a concurrent map promises *)
(* A sequential map with the two calls, against which the concurrent hash is
   compared.  Nothing here mentions buckets or words except [cfg_ok], [key_ok]
   and [value_ok], the documented conditions on the arguments. *)
From Coq Require Import List ZArith Bool.
From Verif Require Import Base HashModel.
Import ListNotations.
Open Scope Z_scope.

(** The configurations the constructor accepts (hash.h 108-155): num_buckets is
    a power of two, at least 128, an int32; there are at least 32 buckets per
    group of keys sharing the implicit bits; 0 < num_key_bits < 64. *)
Definition cfg_ok (c : cfg) : Prop :=
  7 <= bits c <= 30 /\ 1 <= kept c /\ 0 <= impl c /\ kept c + impl c < 64 /\
  impl c + 5 <= bits c.

(** Keys that may be used: num_key_bits bits, and the stored part is not all
    ones ("keys used must be less than (1<<num_key_bits)-1", hash.h 113-115). *)
Definition key_ok (c : cfg) (k : Z) : Prop :=
  0 <= k < 2 ^ (kept c + impl c) /\ k / 2 ^ impl c <> 2 ^ kept c - 1.

(** num_value_bits bits. *)
Definition value_ok (c : cfg) (v : Z) : Prop := 0 <= v < 2 ^ (64 - kept c).

Definition op_ok (c : cfg) (o : op) : Prop :=
  match o with
  | Insert k v => key_ok c k /\ value_ok c v
  | Find k => key_ok c k
  end.

(** The number of buckets a key can be stored in. *)
Definition group_size (c : cfg) : Z := 2 ^ (bits c - impl c).

(** The sequential map. *)
Fixpoint lookup (m : list (Z * Z)) (k : Z) : option Z :=
  match m with
  | [] => None
  | (k', v) :: m' => if k' =? k then Some v else lookup m' k
  end.

Definition seq_op (m : list (Z * Z)) (o : op) : list (Z * Z) * res :=
  match o with
  | Insert k v =>
      match lookup m k with
      | Some old => (m, Lost old)
      | None => ((k, v) :: m, Won)
      end
  | Find k =>
      match lookup m k with
      | Some v => (m, Found v)
      | None => (m, Missing)
      end
  end.

(** [sequential m l m']: doing the calls of [l] one after the other on the map
    [m] gives exactly the results recorded in [l] and leaves the map [m']. *)
Inductive sequential : list (Z * Z) -> list event -> list (Z * Z) -> Prop :=
| seq_nil m : sequential m [] m
| seq_cons m e l m1 m2 :
    seq_op m (e_op e) = (m1, e_res e) -> sequential m1 l m2 ->
    sequential m (e :: l) m2.

(** The calls of one thread in a log. *)
Definition calls_of (t : Z) (l : list event) : list op :=
  map e_op (filter (fun e => e_thread e =? t) l).

(** There is room: in every group of keys that share the implicit bits (with no
    implicit bits: among all keys), fewer distinct keys are inserted than there
    are buckets for them. *)
Definition inserted (progs : list (list op)) (k : Z) : Prop :=
  exists p v, In p progs /\ In (Insert k v) p.

Definition roomy (c : cfg) (progs : list (list op)) : Prop :=
  forall r ks, NoDup ks ->
    (forall k, In k ks -> k mod 2 ^ impl c = r /\ inserted progs k) ->
    zlen ks < group_size c.
