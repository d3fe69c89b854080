(** Model of the arbitrary-precision values of include/bm/bm_sim/data.h and include/bm/bm_sim/bignum.h.

    A Bignum is a [Z].  GMP's functions are modelled by their documented meaning on integers in two's
    complement: [mpz_and]/[mpz_ior]/[mpz_xor]/[mpz_com] by [Z.land]/[Z.lor]/[Z.lxor]/[Z.lnot], shifts by
    [Z.shiftl]/[Z.shiftr] (floor), [mpz_import]/[mpz_export] by the big-endian value of a byte string.
    A failed assertion or a thrown exception is [None]. *)
From Coq Require Import List Arith NArith ZArith Bool.
From Verif Require Import Bits Bytes EntryListSpec.
Import ListNotations.
Local Open Scope Z_scope.

Definition two32 : Z := 4294967296.
(** get_uint 181-184: conversion to unsigned int throws for negative values (boost gmp_int) and keeps the
    low 32 bits otherwise *)
Definition get_uint (v : Z) : option Z := if v <? 0 then None else Some (v mod two32).
(** unsigned subtraction of 1 *)
Definition upred (u : Z) : Z := (u - 1) mod two32.

(** The operations 217-377; each stores its result in the destination and then calls export_bytes. *)
Inductive dop := DAdd | DSub | DMul | DMod | DDiv | DShl | DShr | DAnd | DOr | DXor | DNeg | DTwoComp | DUsat | DSat.
Definition d_op (o : dop) (a b : Z) : option Z :=
  match o with
  | DAdd => Some (a + b)                                                   (* 217-221 *)
  | DSub => Some (a - b)                                                   (* 224-228 *)
  | DMul => Some (a * b)                                                   (* 249-253 *)
  | DMod => if (a >=? 0) && (b >? 0) then Some (Z.rem a b) else None       (* 232-237, truncating *)
  | DDiv => if (a >=? 0) && (b >? 0) then Some (Z.quot a b) else None      (* 241-246, truncating *)
  | DShl => if b >=? 0 then match get_uint b with Some s => Some (Z.shiftl a s) | None => None end else None   (* 256-261 *)
  | DShr => if b >=? 0 then match get_uint b with Some s => Some (Z.shiftr a s) | None => None end else None   (* 264-269 *)
  | DAnd => Some (Z.land a b)                                              (* 286-290 *)
  | DOr => Some (Z.lor a b)                                                (* 293-297 *)
  | DXor => Some (Z.lxor a b)                                              (* 300-304 *)
  | DNeg => Some (Z.lnot a)                                                (* 307-311, one operand *)
  | DTwoComp =>                                                            (* 315-329 *)
      match get_uint b with
      | None => None
      | Some u =>
          let mask := Z.shiftl 1 u - 1 in
          let max := Z.shiftl 1 (upred u) - 1 in
          let min := - Z.shiftl 1 (upred u) in
          if (a <? min) || (a >? max)
          then let v := Z.land a mask in Some (if v >? max then v - Z.shiftl 1 u else v)
          else Some a
      end
  | DUsat =>                                                               (* 334-345 *)
      match get_uint b with
      | None => None
      | Some u => let max := Z.shiftl 1 u - 1 in Some (if a >? max then max else if a <? 0 then 0 else a)
      end
  | DSat =>                                                                (* 350-362 *)
      match get_uint b with
      | None => None
      | Some u =>
          let max := Z.shiftl 1 (upred u) - 1 in
          let min := - Z.shiftl 1 (upred u) in
          Some (if a >? max then max else if a <? min then min else a)
      end
  end.

(** bignum::import_bytes (bignum.h 45-47) *)
Definition import_bytes (l : list N) : Z := Z.of_N (be_val l).
(** bignum::export_bytes (bignum.h 35-39): one word of [nbytes] bytes into [dst], whose tail is kept; zero
    writes nothing; a value that does not fit writes past the word ([None]) *)
Definition export_bytes (nbytes : nat) (dst : list N) (v : Z) : option (list N) :=
  if v =? 0 then Some dst
  else if Z.abs v <? 256 ^ Z.of_nat nbytes
       then Some (be_enc nbytes (Z.abs_N v) ++ skipn nbytes dst) else None.

(** char2digit (bytecontainer.h 62-71, data.h) on character codes *)
Definition char2digit (c : N) : option N :=
  (if (48 <=? c) && (c <=? 57) then Some (c - 48)
   else if (65 <=? c) && (c <=? 70) then Some (c - 65 + 10)
   else if (97 <=? c) && (c <=? 102) then Some (c - 97 + 10) else None)%N.
(** the loop of set(hexstring) 164-168: two digits per byte *)
Fixpoint hex_pairs (l : list N) : option (list N) :=
  match l with
  | [] => Some []
  | [_] => None
  | a :: b :: r =>
      match char2digit a, char2digit b, hex_pairs r with
      | Some x, Some y, Some t => Some (N.add (N.shiftl x 4) y :: t)
      | _, _, _ => None
      end
  end.
Definition hex_bytes (l : list N) : option (list N) :=
  if Nat.odd (length l)
  then match l with
       | a :: r => match char2digit a, hex_pairs r with Some x, Some t => Some (x :: t) | _, _ => None end   (* 159-162 *)
       | [] => None
       end
  else hex_pairs l.
(** set(const std::string &) 144-173 *)
Definition set_hex (s : list N) : option Z :=
  let '(neg, s1) := match s with c :: r => if (c =? 45)%N then (true, r) else (false, s) | [] => (false, s) end in
  let s2 := match s1 with c :: d :: r => if (c =? 48)%N && (d =? 120)%N then r else s1 | _ => s1 end in
  match s2 with
  | [] => None                                                             (* assert 157 *)
  | _ => match hex_bytes s2 with
         | None => None
         | Some b => Some (if neg then - import_bytes b else import_bytes b)
         end
  end.

(** get_string 200-207: export_size_in_bytes is 1 for zero *)
Definition bit_size (v : Z) : Z := if v =? 0 then 1 else Z.log2 (Z.abs v) + 1.
Definition get_string (v : Z) : option (list N) :=
  let n := Z.to_nat ((bit_size v + 7) / 8) in export_bytes n (repeat 0%N n) v.
