(** Model of the configuration of a digest through the PI layer, _pi_learn_config_set (PI/src/pi_learn_imp.cpp:38-68), on the
    learn list of LearnModel.v and LWakeModel.v, with times in milliseconds, and with the arithmetic on doubles of the code (PiRateModel.v).
    Simplifications: the list is found by the name of the digest; the two calls
    list_set_max_samples and list_set_timeout are two events of the list, between which others can come. *)
From Coq Require Import List Arith NArith Bool.
From Verif Require Import PiRateModel LearnModel.
Import ListNotations.

(** [static_cast<unsigned int>] of a double: undefined behaviour if the value does not fit *)
Definition d_to32 (f : dbl) : option N :=
  match d_to f with Some n => if (n <? 2 ^ 32)%N then Some n else None | None => None end.
(** [config->max_timeout_ns / 1000000.], 54-55: a uint64_t divided by the double 10^6 *)
Definition timeout_ms (ns : N) : option N := d_to32 (rate_of ns).
(** pi_learn_config_t *)
Record lcfg := mk_lcfg { c_max_size : nat; c_max_timeout_ns : N }.
(** 50-66, for a digest that exists, called by thread [t]: the events of the list; a null pointer changes nothing (TODO at 48-49) *)
Definition config_set (t : nat) (c : option lcfg) : option (list lev) :=
  match c with
  | None => Some []
  | Some c =>
      match timeout_ms (c_max_timeout_ns c) with
      | Some ms => Some [EMax t (if c_max_size c =? 0 then 1024 else c_max_size c); ETimeout ms]
      | None => None
      end
  end.
(** The call with a configuration, not a null pointer, 50-66 *)
Definition config (t size : nat) (ns : N) : option (list lev) := config_set t (Some (mk_lcfg size ns)).
