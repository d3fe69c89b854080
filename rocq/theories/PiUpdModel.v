(** Model of which configuration the runtime calls and the packets use while a P4Runtime client updates the pipeline: _pi_update_device_start
    and _pi_update_device_end (PI/src/pi_imp.cpp:83-107), SwitchWContexts::load_new_config, swap_configs and reset_state (src/bm_sim/switch.cpp:335-379),
    Context (src/bm_sim/context.cpp:746-754, 803-833, 855-864), reset_target_state_ of simple_switch (targets/simple_switch/simple_switch.cpp:302-305).
    Calls are atomic and there is one context (C50 has any number of contexts and threads).  The runtime state of a P4Objects is a map of settings
    (table entries, members, counters, meters and registers as one map, the parameters of the digests as another); a clone session or a multicast group is
    a setting too.  A setting is deleted by writing [None].  The new configuration is one that init_objects accepts, and has the digests that are set. *)
From Coq Require Import List Arith NArith Bool.
Import ListNotations.

Definition settings : Type := nat -> option N.
Definition none : settings := fun _ => None.
Definition put (m : settings) (k : nat) (v : option N) : settings := fun j => if j =? k then v else m j.

(** P4Objects: the settings used through the [_rt] calls, and its LearnEngine *)
Record obj := mk_obj { o_set : settings; o_dig : settings }.
(** Context: p4objects ([u_live]) and p4objects_rt ([u_rt]: [None] if it is the same object); the switch: clone sessions (simple_switch.cpp:68-107) and multicast groups (McSimplePreLAG) *)
Record ust := mk_u { u_live : obj; u_rt : option obj; u_clone : settings; u_mc : settings }.
Definition u_new : ust := mk_u (mk_obj none none) None none none.

Inductive kind := KEntry | KDigest | KClone | KMulticast.
Inductive uop :=
| UStart                                        (* _pi_update_device_start *)
| UEnd                                          (* _pi_update_device_end *)
| UReset                                        (* reset_state *)
| UWrite (d : kind) (k : nat) (v : option N)    (* a runtime call that sets *)
| URead (k : nat)                               (* a runtime call that reads an entry *)
| UPkt (d : kind) (k : nat).                    (* a packet uses a setting *)
Inductive uout := UOk | UErr | UVal (v : option N).

(** the object of the [_rt] calls *)
Definition rt (s : ust) : obj := match u_rt s with Some o => o | None => u_live s end.
Definition set_rt (s : ust) (o : obj) : ust :=
  match u_rt s with Some _ => mk_u (u_live s) (Some o) (u_clone s) (u_mc s) | None => mk_u o None (u_clone s) (u_mc s) end.

Definition u_step (enabled : bool) (s : ust) (o : uop) : ust * uout :=
  match o with
  | UStart =>                                   (* switch.cpp:337, context.cpp:809-814 *)
      if enabled then
        match u_rt s with
        | None => (mk_u (u_live s) (Some (mk_obj none none)) (u_clone s) (u_mc s), UOk)
        | Some _ => (s, UErr)
        end
      else (s, UErr)
  | UEnd =>                                     (* switch.cpp:355-366, context.cpp:820-825, 855-864 *)
      if enabled then
        match u_rt s with
        | None => (s, UErr)
        | Some o => (mk_u o None (u_clone s) (u_mc s), UOk)
        end
      else (s, UErr)
  | UReset =>                                   (* switch.cpp:371-379; P4Objects::reset_state, P4Objects.cpp:2326-2346: the digests keep their parameters *)
      let s1 := set_rt s (mk_obj none (o_dig (rt s))) in (mk_u (u_live s1) (u_rt s1) (u_clone s1) none, UOk)
  | UWrite KEntry k v => (set_rt s (mk_obj (put (o_set (rt s)) k v) (o_dig (rt s))), UOk)
  | UWrite KDigest k v =>                       (* get_learn_engine, context.cpp:746-749: p4objects, not p4objects_rt *)
      (mk_u (mk_obj (o_set (u_live s)) (put (o_dig (u_live s)) k v)) (u_rt s) (u_clone s) (u_mc s), UOk)
  | UWrite KClone k v => (mk_u (u_live s) (u_rt s) (put (u_clone s) k v) (u_mc s), UOk)
  | UWrite KMulticast k v => (mk_u (u_live s) (u_rt s) (u_clone s) (put (u_mc s) k v), UOk)
  | URead k => (s, UVal (o_set (rt s) k))
  | UPkt d k =>
      (s, UVal (match d with KEntry => o_set (u_live s) k | KDigest => o_dig (u_live s) k | KClone => u_clone s k | KMulticast => u_mc s k end))
  end.
Fixpoint u_run (enabled : bool) (s : ust) (l : list uop) : ust * list uout :=
  match l with
  | [] => (s, [])
  | o :: r => let '(s1, x) := u_step enabled s o in let '(s2, xs) := u_run enabled s1 r in (s2, x :: xs)
  end.
