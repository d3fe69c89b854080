(** Specification of the bit-level codec: packets are bit strings, most significant bit of each byte
    first. *)
From Coq Require Import List Arith NArith Bool.
From Verif Require Import Bits.
Import ListNotations.

(** [b] is the byte string of the [length v]-bit field value [v]: right-aligned, zero-padded. *)
Definition holds (v : list bool) (b : list N) : Prop :=
  bytes_ok b /\ length b = (length v + 7) / 8 /\
  bits_of_bytes b = repeat false (8 * ((length v + 7) / 8) - length v) ++ v.
(** Consecutive slices of the given widths. *)
Fixpoint cut (ws : list nat) (l : list bool) : list (list bool) :=
  match ws with [] => [] | w :: r => firstn w l :: cut r (skipn w l) end.
Definition total (ws : list nat) : nat := fold_right Nat.add 0 ws.
