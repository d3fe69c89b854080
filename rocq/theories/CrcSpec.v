(** What a CRC is: the remainder of a polynomial division over GF(2).  A polynomial is the number whose binary digits are
    its coefficients; addition is exclusive or, multiplication by x^k a shift by k. *)
From Coq Require Import List Arith NArith Bool.
From Verif Require Import Bits CrcModel.
Import ListNotations.
Local Open Scope N_scope.

(** Multiples of [p]: sums of shifted copies of [p]. *)
Inductive multiple (p : N) : N -> Prop :=
| mu_0 : multiple p 0
| mu_add m k : multiple p m -> multiple p (N.lxor m (N.shiftl p k)).
(** [r] is the remainder of [a] divided by [x^w + poly]. *)
Definition is_remainder (w : nat) (poly a r : N) : Prop := r < 2 ^ N.of_nat w /\ multiple (2 ^ N.of_nat w + poly) (N.lxor a r).
(** The message: the bits of the bytes, most significant first, or least significant first when reflected. *)
Definition message (refin : bool) (buf : list N) : list bool := concat (map (fun b => if refin then rev (bitsN 8 b) else bitsN 8 b) buf).
(** The CRC of width [w]: the message followed by [w] zeros, with the initial value added to its first [w] bits, is divided by
    x^w + poly; the remainder is reversed when reflected, and the final value added. *)
Definition is_crc (w : nat) (c : config) (buf : list N) (v : N) : Prop :=
  exists r, is_remainder w (c_poly c) (N.lxor (N.shiftl (of_bits (message (c_refin c) buf)) (N.of_nat w)) (N.shiftl (c_init c) (N.of_nat (8 * length buf)))) r /\
    v = N.lxor (if c_refout c then of_bits (rev (bitsN w r)) else r) (c_xor c).
(** The configuration has the width of the calculation. *)
Definition fits (w : nat) (c : config) : Prop := c_poly c < 2 ^ N.of_nat w /\ c_init c < 2 ^ N.of_nat w /\ c_xor c < 2 ^ N.of_nat w.

(** ** A configurable calculation: every computation uses the last configuration accepted. *)
Definition sc_step (st : nat * config) (o : cop) (st' : nat * config) (r : cout) : Prop :=
  match o with
  | Update w c => if Nat.eqb w (fst st) then st' = (fst st, c) /\ r = Success else st' = st /\ r = WrongType
  | Compute buf => st' = st /\ exists v, r = Hash v /\ is_crc (fst st) (snd st) buf v
  end.
Inductive sc_run : nat * config -> list cop -> list cout -> nat * config -> Prop :=
| sr_nil st : sc_run st [] [] st
| sr_cons st o st' r l rs st'' : sc_step st o st' r -> sc_run st' l rs st'' -> sc_run st (o :: l) (r :: rs) st''.
