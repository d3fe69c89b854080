(** Model of RegisterAccess (targets/simple_switch/register_access.h) on a packet's general purpose registers (include/bm/bm_sim/packet.h 104-105, 232-235, 379-381).
    The registers are 64-bit numbers, not initialised when a packet is created.  [None]: registers.at throws.
    PHV-independent; reads and writes of packet_length (primitives.cpp 223-250, simple_switch.cpp 252) are plain register accesses. *)
From Coq Require Import List Arith NArith Bool.
From Verif Require Import Base PhvModel.
Import ListNotations.
Local Open Scope N_scope.

Definition regs := list N.
(** Packet::get_register, Packet::set_register: packet.h 233, 235 *)
Definition get_register (r : regs) (i : nat) : option N := nth_error r i.
Definition set_register (r : regs) (i : nat) (v : N) : option regs := if Nat.ltb i (length r) then Some (list_set r i v) else None.

(** register_access.h 19-36 *)
Definition PACKET_LENGTH_REG_IDX : nat := 0.
Definition CLONE_MIRROR_SESSION_ID_REG_IDX : nat := 1.
Definition CLONE_MIRROR_SESSION_ID_MASK : N := 0x000000000000ffff.
Definition CLONE_MIRROR_SESSION_ID_SHIFT : N := 0.
Definition CLONE_FIELD_LIST_REG_IDX : nat := 1.
Definition CLONE_FIELD_LIST_MASK : N := 0x00000000ffff0000.
Definition CLONE_FIELD_LIST_SHIFT : N := 16.
Definition LF_FIELD_LIST_REG_IDX : nat := 1.
Definition LF_FIELD_LIST_MASK : N := 0x0000ffff00000000.
Definition LF_FIELD_LIST_SHIFT : N := 32.
Definition RESUBMIT_FLAG_REG_IDX : nat := 1.
Definition RESUBMIT_FLAG_MASK : N := 0xffff000000000000.
Definition RESUBMIT_FLAG_SHIFT : N := 48.
Definition RECIRCULATE_FLAG_REG_IDX : nat := 2.
Definition RECIRCULATE_FLAG_MASK : N := 0x000000000000ffff.
Definition RECIRCULATE_FLAG_SHIFT : N := 0.

(** 64-bit complement, static_cast<uint16_t>, 64-bit left shift *)
Definition not64 (x : N) : N := N.lxor x (N.ones 64).
Definition u16 (x : N) : N := x mod 2 ^ 16.
Definition shl64 (x s : N) : N := (N.shiftl x s) mod 2 ^ 64.
(** the body shared by the five getters (47-51, 60-64, 72-76, 83-87, 94-98) and by the five setters (52-59, 65-71, 77-82, 88-93, 99-105) *)
Definition get_field (r : regs) (i : nat) (mask shift : N) : option N := rv <- get_register r i ;; Some (u16 (N.shiftr (N.land rv mask) shift)).
Definition set_field (r : regs) (i : nat) (mask shift v : N) : option regs :=
  rv <- get_register r i ;; set_register r i (N.lor (N.land rv (not64 mask)) (shl64 v shift)).

Definition get_clone_mirror_session_id r := get_field r CLONE_MIRROR_SESSION_ID_REG_IDX CLONE_MIRROR_SESSION_ID_MASK CLONE_MIRROR_SESSION_ID_SHIFT.
Definition set_clone_mirror_session_id r v := set_field r CLONE_MIRROR_SESSION_ID_REG_IDX CLONE_MIRROR_SESSION_ID_MASK CLONE_MIRROR_SESSION_ID_SHIFT v.
Definition get_clone_field_list r := get_field r CLONE_FIELD_LIST_REG_IDX CLONE_FIELD_LIST_MASK CLONE_FIELD_LIST_SHIFT.
Definition set_clone_field_list r v := set_field r CLONE_FIELD_LIST_REG_IDX CLONE_FIELD_LIST_MASK CLONE_FIELD_LIST_SHIFT v.
Definition get_lf_field_list r := get_field r LF_FIELD_LIST_REG_IDX LF_FIELD_LIST_MASK LF_FIELD_LIST_SHIFT.
Definition set_lf_field_list r v := set_field r LF_FIELD_LIST_REG_IDX LF_FIELD_LIST_MASK LF_FIELD_LIST_SHIFT v.
Definition get_resubmit_flag r := get_field r RESUBMIT_FLAG_REG_IDX RESUBMIT_FLAG_MASK RESUBMIT_FLAG_SHIFT.
Definition set_resubmit_flag r v := set_field r RESUBMIT_FLAG_REG_IDX RESUBMIT_FLAG_MASK RESUBMIT_FLAG_SHIFT v.
Definition get_recirculate_flag r := get_field r RECIRCULATE_FLAG_REG_IDX RECIRCULATE_FLAG_MASK RECIRCULATE_FLAG_SHIFT.
Definition set_recirculate_flag r v := set_field r RECIRCULATE_FLAG_REG_IDX RECIRCULATE_FLAG_MASK RECIRCULATE_FLAG_SHIFT v.
(** 42-46 *)
Definition clear_all (r : regs) : option regs := r1 <- set_register r 1 0 ;; set_register r1 2 0.

(** The attributes of a packet, and operations on them; the setters of the five packed attributes take a uint16_t *)
Inductive attr := CloneSession | CloneFieldList | LfFieldList | Resubmit | Recirculate | PacketLength.
Inductive aop := OSet (a : attr) (v : N) | OGet (a : attr) | OClear.
Definition do_get (r : regs) (a : attr) : option N :=
  match a with
  | CloneSession => get_clone_mirror_session_id r | CloneFieldList => get_clone_field_list r | LfFieldList => get_lf_field_list r
  | Resubmit => get_resubmit_flag r | Recirculate => get_recirculate_flag r | PacketLength => get_register r PACKET_LENGTH_REG_IDX
  end.
Definition do_set (r : regs) (a : attr) (v : N) : option regs :=
  match a with
  | CloneSession => set_clone_mirror_session_id r (u16 v) | CloneFieldList => set_clone_field_list r (u16 v) | LfFieldList => set_lf_field_list r (u16 v)
  | Resubmit => set_resubmit_flag r (u16 v) | Recirculate => set_recirculate_flag r (u16 v) | PacketLength => set_register r PACKET_LENGTH_REG_IDX (v mod 2 ^ 64)
  end.
Definition a_step (r : regs) (o : aop) : option (regs * option N) :=
  match o with
  | OSet a v => r' <- do_set r a v ;; Some (r', None)
  | OGet a => v <- do_get r a ;; Some (r, Some v)
  | OClear => r' <- clear_all r ;; Some (r', None)
  end.
Fixpoint a_run (r : regs) (l : list aop) : option (regs * list (option N)) :=
  match l with [] => Some (r, []) | o :: t => q <- a_step r o ;; q' <- a_run (fst q) t ;; Some (fst q', snd q :: snd q') end.
