(** Model of the CRC calculations: src/bm_sim/calculations.cpp 131-299 and 536-568.

    Simplifications.  [w] is the width of the unsigned type T in bits (8, 16, 32 or 64 in the code).  A cyclic counter of type unsigned
    int over the buffer is a walk over the list: buffers of 2^32 bytes or more are not covered.  A computation holds the mutex
    throughout, and an update installs configuration and table together under it: both are single steps. *)
From Coq Require Import List Arith NArith Bool.
From Verif Require Import Base PhvModel CrcTables.
Import ListNotations.
Local Open Scope N_scope.

Definition trunc (w : nat) (x : N) : N := x mod 2 ^ N.of_nat w.
(** reflect 133-147: [todo] bits left *)
Fixpoint reflect_loop (todo : nat) (data refl : N) : N :=
  match todo with
  | O => refl
  | S t => reflect_loop t (N.shiftr data 1) (if N.testbit data 0 then N.lor refl (N.shiftl 1 (N.of_nat t)) else refl)
  end.
Definition reflect (data : N) (n : nat) : N := reflect_loop n data 0.

(** crc_config_t (calculations.h 351-358) *)
Record config := mk_cfg { c_poly : N; c_init : N; c_xor : N; c_refin : bool; c_refout : bool }.
(** recompute_crc_table 250-270: one bit, one entry, the table *)
Definition div_step (w : nat) (poly r : N) : N :=
  if N.testbit r (N.of_nat (w - 1)) then N.lxor (trunc w (N.shiftl r 1)) poly else trunc w (N.shiftl r 1).
Fixpoint div_steps (n w : nat) (poly r : N) : N := match n with O => r | S k => div_steps k w poly (div_step w poly r) end.
Definition table_entry (w : nat) (poly : N) (dividend : nat) : N := div_steps 8 w poly (trunc w (N.shiftl (N.of_nat dividend) (N.of_nat (w - 8)))).
Definition make_table (w : nat) (poly : N) : list N := map (table_entry w poly) (seq 0 256).
(** The loop over the buffer: 227-233 (crc_custom), 159-162 (crc16), 281-284 (crc32), 293-296 (crcCCITT) *)
Fixpoint crc_loop (w : nat) (table : list N) (refin : bool) (buf : list N) (r : N) : option N :=
  match buf with
  | [] => Some r
  | b :: rest =>
      let data := N.lxor (if refin then reflect b 8 else b) (N.shiftr r (N.of_nat (w - 8))) in
      e <- nth_error table (N.to_nat data) ;;
      crc_loop w table refin rest (N.lxor e (trunc w (N.shiftl r 8)))
  end.
(** crc_custom::operator() 221-237 with the configuration and table installed *)
Definition crc_custom (w : nat) (c : config) (table : list N) (buf : list N) : option N :=
  r <- crc_loop w table (c_refin c) buf (c_init c) ;;
  Some (N.lxor (if c_refout c then reflect r w else r) (c_xor c)).
(** 153-164, 277-287, 289-299 *)
Definition crc16 (buf : list N) : option N := r <- crc_loop 16 table_crc16 true buf 0 ;; Some (N.lxor (reflect r 16) 0).
Definition crc32 (buf : list N) : option N := r <- crc_loop 32 table_crc32 true buf 4294967295 ;; Some (N.lxor (reflect r 32) 4294967295).
Definition crcCCITT (buf : list N) : option N := r <- crc_loop 16 table_crcCCITT false buf 65535 ;; Some (N.lxor r 0).

(** ** Calculation objects: a custom CRC of some width, or another calculation *)
Inductive calc := Custom (w : nat) (c : config) (table : list N) | Other.
(** The initial configurations 171-207 *)
Definition default_config (w : nat) : config :=
  match w with
  | 8%nat => mk_cfg 7 0 0 false false
  | 16%nat => mk_cfg 32773 0 0 true true
  | 32%nat => mk_cfg 79764919 4294967295 4294967295 true true
  | _ => mk_cfg 27 0 0 true true
  end.
(** The constructor 216-219 *)
Definition new_custom (w : nat) : calc := Custom w (default_config w) (make_table w (c_poly (default_config w))).
Inductive cop := Update (w : nat) (c : config) | Compute (buf : list N).
Inductive cout := Success | WrongType | Hash (v : N).
(** CustomCrcMgr<T>::update_config 556-564 with crc_custom::update_config 239-247; a computation *)
Definition c_step (k : calc) (o : cop) : option (calc * cout) :=
  match o, k with
  | Update w' c', Custom w c t => if Nat.eqb w' w then Some (Custom w c' (make_table w (c_poly c')), Success) else Some (k, WrongType)
  | Update _ _, Other => Some (k, WrongType)
  | Compute buf, Custom w c t => v <- crc_custom w c t buf ;; Some (k, Hash v)
  | Compute _, Other => None
  end.
Fixpoint c_run (k : calc) (l : list cop) : option (calc * list cout) :=
  match l with
  | [] => Some (k, [])
  | o :: r => q <- c_step k o ;; q' <- c_run (fst q) r ;; Some (fst q', snd q :: snd q')
  end.
