(** Model of the packet length simple_switch keeps (register 0 of a packet) while actions run: targets/simple_switch/primitives.cpp 217-261.

    The register is set to the number of bytes received (simple_switch.cpp 252), and what it holds after ingress becomes
    standard_metadata.packet_length in egress (679-680).  Header operations are those of PhvModel; only add_header and remove_header touch the
    register.  The register is 64 bits and get_nbytes_packet returns an int: conversions wrap around. *)
From Coq Require Import List Arith ZArith Bool.
From Verif Require Import Base PhvModel.
Import ListNotations.

Definition wrap64 (z : Z) : Z := (z mod 2 ^ 64)%Z.
(** add_header 217-230 *)
Definition add_header_len (d : desc) (p : phv * Z) (h : nat) : option (phv * Z) :=
  t <- nth_error (ds_h d) h ;;
  x <- nth_error (p_h (fst p)) h ;;
  if is_valid t x then Some p
  else
    s1 <- mark_valid d (set_h (fst p) h (reset_hdr x)) h ;;
    x1 <- nth_error (p_h s1) h ;;
    Some (s1, wrap64 (snd p + d_nb x1)).
(** remove_header 242-253 *)
Definition remove_header_len (d : desc) (p : phv * Z) (h : nat) : option (phv * Z) :=
  t <- nth_error (ds_h d) h ;;
  x <- nth_error (p_h (fst p)) h ;;
  if is_valid t x then (let len := wrap64 (snd p - d_nb x) in s1 <- mark_invalid d (fst p) h ;; Some (s1, len))
  else Some p.
(** Every other primitive leaves the register alone: add_header_fast 234-238, copy_header 257-261, core/primitives.cpp 48-97 *)
Definition len_step (legacy : bool) (d : desc) (p : phv * Z) (o : op) : option (phv * Z) :=
  match o with
  | OAdd h => add_header_len d p h
  | ORemove h => remove_header_len d p h
  | _ => s1 <- step legacy d (fst p) o ;; Some (s1, snd p)
  end.
Fixpoint len_run (legacy : bool) (d : desc) (p : phv * Z) (l : list op) : option (phv * Z) :=
  match l with [] => Some p | o :: r => p1 <- len_step legacy d p o ;; len_run legacy d p1 r end.
