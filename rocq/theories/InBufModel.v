(** Model of simple_switch's input buffer (targets/simple_switch/simple_switch.cpp 116-190), at the granularity of critical sections, waits and
    notifications.  Each thread performs one call; a thread that makes several calls is a schedule that runs one thread after the other.  The mutex makes the
    code between acquiring the lock and releasing it (or waiting) one step; notify_one comes after the unlock (153, 158, 178) and is a step of its own.
    Waiting threads may wake up spuriously.  A queue is the list of its items, oldest first (the back of the deque comes first). *)
From Coq Require Import List Arith Bool.
From Verif Require Import Base.
Import ListNotations.

(** 118-123 *)
Inductive ptype := NORMAL | RESUBMIT | RECIRCULATE | SENTINEL.
Inductive call := Push (ty : ptype) (v : nat) | Pop.
Inductive result := Accepted | Refused | Got (hi : bool) (v : nat).
Inductive thr := TStart (c : call) | TWait (c : call) | TNotify (c : call) (r : result) | TDone (c : call) (r : result).
(** [b_log]: the calls in the order in which they took effect, a ghost *)
Record buf := mk_b { b_hi : list nat; b_lo : list nat; b_thr : list thr; b_log : list (nat * call * result) }.

(** condition variables 183-185 *)
Inductive cv := CanPushHi | CanPushLo | CanPop.
Definition cv_eqb (a b : cv) : bool := match a, b with CanPushHi, CanPushHi | CanPushLo, CanPushLo | CanPop, CanPop => true | _, _ => false end.
(** 128-143: queue and blocking mode of each type *)
Definition to_hi (ty : ptype) : bool := match ty with NORMAL => false | _ => true end.
Definition blocking (ty : ptype) : bool := match ty with NORMAL | SENTINEL => true | RESUBMIT | RECIRCULATE => false end.
Definition waits_on (c : call) : cv := match c with Push ty _ => if to_hi ty then CanPushHi else CanPushLo | Pop => CanPop end.
Definition notifies (r : result) : cv := match r with Got true _ => CanPushHi | Got false _ => CanPushLo | _ => CanPop end.

Definition is_waiting (k : cv) (t : thr) : bool := match t with TWait c => cv_eqb (waits_on c) k | _ => false end.
Definition wake (t : thr) : thr := match t with TWait c => TStart c | t => t end.
Fixpoint first_idx (f : thr -> bool) (l : list thr) : option nat :=
  match l with [] => None | t :: r => if f t then Some 0 else option_map S (first_idx f r) end.
(** notify_one: wakes one of the threads waiting on the condition variable, if any: thread [j] if it is one, else the first *)
Definition pick (f : thr -> bool) (j : nat) (l : list thr) : option nat :=
  match nth_error l j with Some t => if f t then Some j else first_idx f l | None => first_idx f l end.
Definition notify_one (k : cv) (j : nat) (l : list thr) : list thr :=
  match pick (is_waiting k) j l with
  | Some i => match nth_error l i with Some t => list_set l i (wake t) | None => l end
  | None => l
  end.

Section M.
Variables cap_hi cap_lo : nat.
(** push_front 166-180, pop_back 145-160 *)
Definition step (s : buf) (i j : nat) : buf :=
  match nth_error (b_thr s) i with
  | Some (TStart (Push ty v)) =>
      let c := Push ty v in
      let q := if to_hi ty then b_hi s else b_lo s in
      let cap := if to_hi ty then cap_hi else cap_lo in
      if length q =? cap then
        if blocking ty then mk_b (b_hi s) (b_lo s) (list_set (b_thr s) i (TWait c)) (b_log s)
        else mk_b (b_hi s) (b_lo s) (list_set (b_thr s) i (TDone c Refused)) (b_log s ++ [(i, c, Refused)])
      else mk_b (if to_hi ty then b_hi s ++ [v] else b_hi s) (if to_hi ty then b_lo s else b_lo s ++ [v])
             (list_set (b_thr s) i (TNotify c Accepted)) (b_log s ++ [(i, c, Accepted)])
  | Some (TStart Pop) =>
      match b_hi s, b_lo s with
      | [], [] => mk_b [] [] (list_set (b_thr s) i (TWait Pop)) (b_log s)
      | v :: r, lo => mk_b r lo (list_set (b_thr s) i (TNotify Pop (Got true v))) (b_log s ++ [(i, Pop, Got true v)])
      | [], v :: r => mk_b [] r (list_set (b_thr s) i (TNotify Pop (Got false v))) (b_log s ++ [(i, Pop, Got false v)])
      end
  | Some (TNotify c r) => mk_b (b_hi s) (b_lo s) (notify_one (notifies r) j (list_set (b_thr s) i (TDone c r))) (b_log s)
  | _ => s
  end.
Definition spurious (s : buf) (i : nat) : buf :=
  match nth_error (b_thr s) i with Some t => mk_b (b_hi s) (b_lo s) (list_set (b_thr s) i (wake t)) (b_log s) | None => s end.
Inductive act := Run (i j : nat) | Spurious (i : nat).
Definition do_act (s : buf) (a : act) : buf := match a with Run i j => step s i j | Spurious i => spurious s i end.
Definition init (calls : list call) : buf := mk_b [] [] (map TStart calls) [].
Definition run (calls : list call) (sched : list act) : buf := fold_left do_act sched (init calls).
End M.
