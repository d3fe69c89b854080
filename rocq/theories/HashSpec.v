(** Specification of the hash functions. *)
From Coq Require Import List Arith NArith Bool.
From Verif Require Import Bits HashModel.
Import ListNotations.
Local Open Scope N_scope.

(** The exclusive or of [f 0], ..., [f (n-1)] *)
Definition xor_over (n : nat) (f : nat -> N) : N := fold_right N.lxor 0 (map f (seq 0 n)).
(** The 32-bit window of the key, read as a circle of bits, that starts at bit [i] *)
Definition window (key : list N) (i : nat) : N := of_bits (map (fun j => nth ((i + j) mod (8 * length key)) (bits_of_bytes key) false) (seq 0 32)).
Definition toeplitz_spec (key buf : list N) : N := xor_over (8 * length buf) (fun i => if nth i (bits_of_bytes buf) false then window key i else 0).
(** A key is legal when its length is a positive multiple of four. *)
Definition legal_key (key : list N) : Prop := exists n, (0 < n)%nat /\ length key = (4 * n)%nat.
Inductive t_spec : list N -> list top -> list tout -> list N -> Prop :=
| ts_nil k : t_spec k [] [] k
| ts_set k k' l o k2 : legal_key k' -> t_spec k' l o k2 -> t_spec k (SetKey k' :: l) (TSuccess :: o) k2
| ts_bad k k' l o k2 : ~ legal_key k' -> t_spec k l o k2 -> t_spec k (SetKey k' :: l) (TInvalidKey :: o) k2
| ts_hash k buf l o k2 : t_spec k l o k2 -> t_spec k (THash buf :: l) (TValue (toeplitz_spec k buf) :: o) k2.

(** The XOR hash of width [8 * n] bits: output bit [j], from the most significant, is the parity of the input bits whose position is
    [j] modulo the width. *)
Definition parity (l : list bool) : bool := fold_right xorb false l.
Definition xor_bit (w : nat) (bits : list bool) (j : nat) : bool := parity (map (fun p => ((p mod w =? j)%nat && nth p bits false)%bool) (seq 0 (length bits))).
(** The number of distinct values in a list *)
Definition distinct (l : list (list N)) : nat := length (nodup (list_eq_dec N.eq_dec) l).
(** What a consistent round robin promises: equal inputs and only they get equal values, and an input seen for the first time gets the
    number of distinct inputs seen before it. *)
Definition consistent (ins : list (list N)) (outs : list N) : Prop :=
  length outs = length ins /\
  (forall i j x y u v, nth_error ins i = Some x -> nth_error ins j = Some y -> nth_error outs i = Some u -> nth_error outs j = Some v -> (x = y <-> u = v)) /\
  (forall i x, nth_error ins i = Some x -> ~ In x (firstn i ins) -> nth_error outs i = Some (N.of_nat (distinct (firstn i ins)))).
