(** Model of the conversion of a queue's rate to a delay, rate_to_ticks
    (include/bm/bm_sim/queueing.h:383-388 and 694-699), with the arithmetic on doubles that the code
    does.  The queues are those of QueueingModel.v, where this conversion is a parameter; doubles
    are those of PiRateModel.v. *)
From Coq Require Import NArith ZArith Bool.
From Flocq Require Import Core BinarySingleNaN.
From Verif Require Import PiRateModel.

(** [duration_cast<ticks>(duration<double>(1. / pps))]: ticks are nanoseconds, so the cast multiplies by
    1e9 in doubles and truncates *)
Definition rate_to_ticks (pps : N) : option N :=
  if (pps =? 0)%N then Some 0%N
  else d_to (Bmult mode_NE (Bdiv mode_NE (d_of 1) (d_of pps)) (d_of 1000000000)).
(** For QueueingModel.v, whose conversion is total: 0 where the cast is undefined *)
Definition ticks_tot (pps : N) : N := match rate_to_ticks pps with Some n => n | None => 0%N end.
