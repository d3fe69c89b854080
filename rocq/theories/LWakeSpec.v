(** Specification of the wake-ups: on top of LearnSpec.v, what a client may do with the timeout. *)
From Coq Require Import List NArith Bool.
From Verif Require Import LearnModel LearnSpec LWakeModel.
Import ListNotations.

(** The events without the reasons for which the transmit thread woke *)
Definition evs (vs : list wev) : list lev := map snd vs.
(** Nobody wakes for no reason *)
Definition prompt (v : wev) : Prop := fst v = false.
(** What the transmit thread does by itself at a time *)
Definition own (now : N) (v : wev) : Prop := prompt v /\ (snd v = ETake now \/ snd v = ESend \/ snd v = EDone).
(** While samples are pending, the timeout is only switched off, or made longer *)
Definition calm1 (q : sl) (e : lev) : Prop :=
  match e with
  | ETimeout x => s_pend q = [] \/ x = 0%N \/ (0 < s_timeout q <= x)%N
  | _ => True
  end.
Fixpoint calm (q : sl) (es : list lev) (xs : list lout) : Prop :=
  match es, xs with e :: es, x :: xs => calm1 q e /\ calm (s_next q e x) es xs | _, _ => True end.
