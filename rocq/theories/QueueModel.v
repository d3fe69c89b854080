(** Model of the bounded queue between threads (include/bm/bm_sim/queue.h:40-145), at the granularity
    of critical sections, waits and notifications.  Each thread performs one call; a program that makes
    several calls is a schedule that runs one thread after the other.  The mutex makes the code between
    acquiring the lock and releasing it (or waiting) one step; [notify_one] comes after the unlock
    (lines 79, 94, 106) and is a step of its own.  Waiting threads may wake up spuriously. *)
From Coq Require Import List Arith Bool.
From Verif Require Import Base.
Import ListNotations.

Section Queue.
Context {T : Type}.

Inductive qthr :=
| PrStart (v : T)      (* push_front, about to take the lock *)
| PrWait (v : T)       (* waiting on q_not_full *)
| PrNotify (v : T)     (* has pushed, about to notify q_not_empty *)
| PrDone (v : T) (accepted : bool)
| CoStart              (* pop_back, about to take the lock *)
| CoWait               (* waiting on q_not_empty *)
| CoNotify (v : T)     (* has popped, about to notify q_not_full *)
| CoDone (v : T)
| CapStart (c : nat)   (* set_capacity *)
| CapDone.

Record qstate := mkQ {
  q_items : list T;                (* oldest first: the back of the deque comes first *)
  q_cap : nat;
  q_thr : list qthr;
  q_enq : list (nat * T);          (* record of the critical sections that pushed: thread, item *)
  q_deq : list (nat * T) }.        (* record of the critical sections that popped *)

Definition is_cowait (t : qthr) : bool := match t with CoWait => true | _ => false end.
Definition is_prwait (t : qthr) : bool := match t with PrWait _ => true | _ => false end.
(** Waking a waiting thread: it takes the lock again and re-evaluates the condition of its loop. *)
Definition wake (t : qthr) : qthr := match t with PrWait v => PrStart v | CoWait => CoStart | t => t end.

Fixpoint first_idx (f : qthr -> bool) (l : list qthr) : option nat :=
  match l with [] => None | t :: r => if f t then Some 0 else option_map S (first_idx f r) end.
(** notify_one: wakes one of the threads waiting on the condition variable, if any: thread [j] if it
    is one, else the first. *)
Definition pick (f : qthr -> bool) (j : nat) (l : list qthr) : option nat :=
  match nth_error l j with
  | Some t => if f t then Some j else first_idx f l
  | None => first_idx f l
  end.
Definition notify_one (f : qthr -> bool) (j : nat) (l : list qthr) : list qthr :=
  match pick f j l with
  | Some k => match nth_error l k with Some t => list_set l k (wake t) | None => l end
  | None => l
  end.

(** One step of thread [i]; [block] is [wb == WriteBlock]; [j] resolves the choice of [notify_one].
    push_front 70-96, pop_back 99-108, set_capacity 117-121. *)
Definition qstep (block : bool) (s : qstate) (i j : nat) : qstate :=
  match nth_error (q_thr s) i with
  | Some (PrStart v) =>
      if length (q_items s) <? q_cap s
      then mkQ (q_items s ++ [v]) (q_cap s) (list_set (q_thr s) i (PrNotify v)) (q_enq s ++ [(i, v)]) (q_deq s)
      else if block
      then mkQ (q_items s) (q_cap s) (list_set (q_thr s) i (PrWait v)) (q_enq s) (q_deq s)
      else mkQ (q_items s) (q_cap s) (list_set (q_thr s) i (PrDone v false)) (q_enq s) (q_deq s)
  | Some (PrNotify v) =>
      mkQ (q_items s) (q_cap s) (notify_one is_cowait j (list_set (q_thr s) i (PrDone v true))) (q_enq s) (q_deq s)
  | Some CoStart =>
      match q_items s with
      | v :: r => mkQ r (q_cap s) (list_set (q_thr s) i (CoNotify v)) (q_enq s) (q_deq s ++ [(i, v)])
      | [] => mkQ [] (q_cap s) (list_set (q_thr s) i CoWait) (q_enq s) (q_deq s)
      end
  | Some (CoNotify v) =>
      mkQ (q_items s) (q_cap s) (notify_one is_prwait j (list_set (q_thr s) i (CoDone v))) (q_enq s) (q_deq s)
  | Some (CapStart c) => mkQ (q_items s) c (list_set (q_thr s) i CapDone) (q_enq s) (q_deq s)
  | _ => s
  end.
(** Spurious wake-up of thread [i]. *)
Definition qwake (s : qstate) (i : nat) : qstate :=
  match nth_error (q_thr s) i with
  | Some t => mkQ (q_items s) (q_cap s) (list_set (q_thr s) i (wake t)) (q_enq s) (q_deq s)
  | None => s
  end.

Inductive qact := Run (i j : nat) | Spurious (i : nat).
Definition qdo (block : bool) (s : qstate) (a : qact) : qstate :=
  match a with Run i j => qstep block s i j | Spurious i => qwake s i end.

Inductive qcall := QPush (v : T) | QPop | QSetCap (c : nat).
Definition qthread (c : qcall) : qthr :=
  match c with QPush v => PrStart v | QPop => CoStart | QSetCap c => CapStart c end.
Definition qinit (cap : nat) (calls : list qcall) : qstate := mkQ [] cap (map qthread calls) [] [].
Definition qrun (block : bool) (cap : nat) (calls : list qcall) (sched : list qact) : qstate :=
  fold_left (qdo block) sched (qinit cap calls).
End Queue.
Arguments qthr : clear implicits.
Arguments qstate : clear implicits.
Arguments qcall : clear implicits.
