(** Specification of meters set through the PI: integers only.  Rates are in units per second, times
    in microseconds. *)
From Coq Require Import List Arith NArith Bool.
From Verif Require Import PiResModel PiRateModel.
Import ListNotations.

(** A meter: without a configuration, configured, or left in an unspecified configuration by a
    refused call (C13). *)
Inductive pst := POff | POn (s : mspec) | PUnknown.
Definition upd (w : nat -> pst) (i : nat) (x : pst) : nat -> pst := fun j => if Nat.eqb j i then x else w j.

(** The configuration that stands for "none" *)
Definition all_ones : mspec := mkMS (2 ^ 64 - 1) (2 ^ 32 - 1) (2 ^ 64 - 1) (2 ^ 32 - 1).

(** What is read back: the bursts, and each rate or one less *)
Definition about (s s' : mspec) : Prop :=
  (ms_cir s' <= ms_cir s <= ms_cir s' + 1)%N /\ (ms_pir s' <= ms_pir s <= ms_pir s' + 1)%N /\
  ms_cb s' = ms_cb s /\ ms_pb s' = ms_pb s.

Section Spec.
Variables (nrates size : nat).

Inductive pspec (w : nat -> pst) : pop -> pout -> (nat -> pst) -> Prop :=
| ps_index_set : forall i s, size <= i -> pspec w (PSet i s) (PCode PBadIndex) w
| ps_index_read : forall i, size <= i -> pspec w (PRead i) (PCode PBadIndex) w
| ps_none : forall i, i < size -> pspec w (PSet i all_ones) (PCode POk) (upd w i POff)
| ps_list : forall i s, i < size -> s <> all_ones -> nrates <> 2 -> pspec w (PSet i s) (PCode PBadList) w
| ps_set : forall i s, i < size -> s <> all_ones -> nrates = 2 -> (ms_cir s <= ms_pir s)%N ->
    pspec w (PSet i s) (PCode POk) (upd w i (POn s))
| ps_order : forall i s, i < size -> s <> all_ones -> nrates = 2 -> (ms_pir s < ms_cir s)%N ->
    pspec w (PSet i s) (PCode PBadRate) (upd w i (match w i with POff => POff | _ => PUnknown end))
| ps_read_off : forall i, i < size -> w i = POff -> pspec w (PRead i) (PSpec all_ones) w
| ps_read : forall i s s', i < size -> w i = POn s -> about s s' -> pspec w (PRead i) (PSpec s') w
| ps_read_unknown : forall i s', i < size -> w i = PUnknown -> pspec w (PRead i) (PSpec s') w
| ps_pkt_off : forall i len pre t, i < size -> w i = POff -> pspec w (PPkt i len pre t) (PColor 0) w
| ps_pkt : forall i len pre t c s, i < size -> w i = POn s -> pre <= c <= Nat.max pre 2 ->
    pspec w (PPkt i len pre t) (PColor c) w
| ps_pkt_unknown : forall i len pre t c, i < size -> w i = PUnknown -> pre <= c ->
    pspec w (PPkt i len pre t) (PColor c) w.

Inductive pspec_run : (nat -> pst) -> list pop -> list pout -> (nat -> pst) -> Prop :=
| psr_nil : forall w, pspec_run w [] [] w
| psr_cons : forall w o x w' os xs w'', pspec w o x w' -> pspec_run w' os xs w'' ->
    pspec_run w (o :: os) (x :: xs) w''.

(** The calls up to time [horizon]: rates below 2^51 units per second that accrue at most 2^50 tokens
    by the horizon, 32-bit bursts, packets for existing meters, and a clock that does not go back *)
Variable horizon : N.
Definition rate_ok (r : N) : Prop := (r < 2 ^ 51)%N /\ (r * horizon <= 2 ^ 50 * 1000000)%N.
Definition pspec_ok (s : mspec) : Prop :=
  s = all_ones \/
  (rate_ok (ms_cir s) /\ rate_ok (ms_pir s) /\ (ms_cb s < 2 ^ 32)%N /\ (ms_pb s < 2 ^ 32)%N).
Fixpoint pops_ok (t : N) (ops : list pop) : Prop :=
  match ops with
  | [] => True
  | PSet _ s :: r => pspec_ok s /\ pops_ok t r
  | PRead _ :: r => pops_ok t r
  | PPkt i _ _ t' :: r => i < size /\ (t <= t' <= horizon)%N /\ pops_ok t' r
  end.
End Spec.

(** No configuration call for meter [i] *)
Definition not_set (i : nat) (o : pop) : Prop :=
  match o with PSet j _ => j <> i | _ => True end.
(** Total size of the packets of meter [i] coloured [k] or lower, and the time of its last packet *)
Fixpoint p_passed (bytes : bool) (i k : nat) (ops : list pop) (outs : list pout) : N :=
  match ops, outs with
  | PPkt j len _ _ :: r, PColor c :: xs =>
      ((if Nat.eqb j i && (c <=? k)%nat then (if bytes then len else 1) else 0) + p_passed bytes i k r xs)%N
  | _ :: r, _ :: xs => p_passed bytes i k r xs
  | _, _ => 0%N
  end.
Fixpoint p_last (i : nat) (t : N) (ops : list pop) : N :=
  match ops with
  | [] => t
  | PPkt j _ _ t' :: r => p_last i (if Nat.eqb j i then t' else t) r
  | _ :: r => p_last i t r
  end.
