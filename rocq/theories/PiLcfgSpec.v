(** Specification of the configuration of a digest: a timeout in nanoseconds, on clocks in milliseconds. *)
From Coq Require Import List NArith Bool.
From Verif Require Import LearnModel LearnSpec LWakeModel LWakeSpec.
Import ListNotations.

(** The timeout is not changed *)
Definition keeps_timeout (v : wev) : Prop := match snd v with ETimeout _ => False | _ => True end.
(** A call done in one go, nobody waking for no reason *)
Definition at_once (es : list lev) : list wev := map (fun e => (false, e)) es.
(** [ns] nanoseconds or more after the time [t], in milliseconds *)
Definition elapsed (t ns now : N) : Prop := (t * 1000000 + ns <= now * 1000000)%N.

(** Digests of a list are sent in time, for the timeouts [ok]: after a history [vs1], the configuration and a history [vs2], if the thread is not
    sending, some samples are pending, and the timeout has elapsed since the last sample, the thread takes samples. *)
Definition sent_in_time (config : nat -> nat -> N -> option (list lev)) (ok : N -> Prop) : Prop :=
  forall max timeout vs1 t size ns es vs2 w xs now,
    config t size ns = Some es -> ok ns ->
    let h := vs1 ++ at_once es ++ vs2 in
    w_run (w_new max timeout) h = Some (w, xs) -> all_fit (s_init timeout) (evs h) xs -> calm (s_init timeout) (evs h) xs -> Forall keeps_timeout vs2 ->
    (2 * N.of_nat (length h) + 2 < 2 ^ 64)%N ->
    let q := s_after (s_init timeout) (evs h) xs in
    s_ph q = SIdle -> s_pend q <> [] -> elapsed (s_latest q) ns now ->
    exists w', w_step w (false, ETake now) = Some (w', OTook true).
