(** Model of periodic tasks (src/bm_sim/periodic_task.cpp, include/bm/bm_sim/periodic_task.h): the tasks, the list they are registered with and the thread that executes them, under every schedule.

    Simplifications.  Time is a number that grows.  Everything done while holding queue_mutex is one step, except the
    execution of a task, during which time may pass and tasks may be constructed but nothing that needs the mutex can happen.
    The order of a std::priority_queue among tasks with the same time is not fixed: [top] is any element with the least time.
    A wait on the condition variable may end at any moment (notification or spurious wake-up), and with status timeout only
    once its time has come.  A destructor is one step: unregistering the task and freeing it. *)
From Coq Require Import List Arith NArith Bool.
Import ListNotations.
Local Open Scope N_scope.

(** Where the thread of the loop is: not started or ended; about to take the mutex; waiting on an empty queue; waiting for the
    time of a task; executing a task, with the mutex held; waiting for the mutex it holds itself *)
Inductive loop := Off | Ready | WaitAny | WaitFor (k : nat) (t : N) | Exec (k : nat) | Stuck.

(** What can be observed *)
Inductive event :=
| Made (k : nat) (t : N)        (* a task is constructed at time t *)
| Reg (k : nat) (ok : bool)     (* register_task returns *)
| Unreg (k : nat) (ok : bool)   (* unregister_task returns *)
| Freed (k : nat)               (* the destructor of a task ends *)
| Waits (k : nat)               (* the loop begins to wait for the time of a task *)
| Begins (k : nat) (t : N)      (* the function of a task is called at time t *)
| Ends (k : nat) (t : N)        (* the function has returned and the next time is computed at time t *)
| Dies.                         (* std::terminate *)

Record st := mk_st { s_now : N; s_alive : nat -> bool; s_next : nat -> N; s_q : list nat; s_running : bool; s_loop : loop; s_told : bool; s_log : list event }.
(** Static storage: zero-initialised (periodic_task.h 106, 115; get_instance 146-149) *)
Definition init : st := mk_st 0 (fun _ => false) (fun _ => 0) [] false Off false [].

Inductive label := Tick (d : N) | Make (k : nat) | Register (k : nat) | Unregister (k : nat) | Free (k : nat) | Start | Join
                 | Loop (i : nat) | Wake | Timeout (i : nat) | Finish | Nested.

Definition set1 {A} (f : nat -> A) (k : nat) (x : A) : nat -> A := fun j => if Nat.eqb j k then x else f j.
Definition in_q (k : nat) (q : list nat) : bool := existsb (Nat.eqb k) q.
Definition del (k : nat) (q : list nat) : list nat := filter (fun j => negb (Nat.eqb j k)) q.
(** PeriodCompare (periodic_task.h 95-101): the element at [i] has the least [next] *)
Definition top (nxt : nat -> N) (q : list nat) (i : nat) : option nat :=
  match nth_error q i with
  | Some k => if forallb (fun j => nxt k <=? nxt j) q then Some k else None
  | None => None
  end.
Definition free_mutex (l : loop) : bool := match l with Exec _ | Stuck => false | _ => true end.

Section Tasks.
Variable interval : nat -> N.   (** the interval of each task *)

(** One step; [None] if it is not possible in this state. *)
Definition step (s : st) (a : label) : option st :=
  let '(mk_st now alive nxt q running lp told log) := s in
  match a with
  | Tick d => Some (mk_st (now + d) alive nxt q running lp told log)
  | Make k =>                                                       (* PeriodicTask::PeriodicTask 14-20, without registering *)
      if alive k then None
      else Some (mk_st now (set1 alive k true) (set1 nxt k (now + interval k)) q running lp told (Made k now :: log))
  | Register k =>                                                   (* register_task 44-69 *)
      if negb (alive k && free_mutex lp) then None
      else if in_q k q then Some (mk_st now alive nxt q running lp told (Reg k false :: log))
      else Some (mk_st now alive nxt (k :: q) running lp true (Reg k true :: log))
  | Unregister k =>                                                 (* unregister_task 72-95 *)
      if negb (alive k && free_mutex lp) then None
      else Some (mk_st now alive nxt (del k q) running lp true (Unreg k (in_q k q) :: log))
  | Free k =>                                                       (* PeriodicTask::~PeriodicTask 22-30 *)
      if negb (alive k && free_mutex lp) then None
      else Some (mk_st now (set1 alive k false) nxt (del k q) running lp true (Freed k :: log))
  | Start =>                                                        (* start 98-106 *)
      if negb (free_mutex lp) then None
      else if running then Some s
      else match lp with
           | Off => Some (mk_st now alive nxt q true Ready told log)
           | _ => Some (mk_st now alive nxt q true Stuck told (Dies :: log))   (* assignment to a joinable std::thread *)
           end
  | Join =>                                                         (* join 109-120, before waiting for the thread *)
      if negb (free_mutex lp) then None
      else if running then Some (mk_st now alive nxt q false lp true log) else Some s
  | Loop i =>                                                       (* loop 123-134 *)
      match lp with
      | Ready =>
          if negb running then Some (mk_st now alive nxt q running Off told log)
          else match q with
               | [] => Some (mk_st now alive nxt q running WaitAny false log)
               | _ => match top nxt q i with
                      | Some k => Some (mk_st now alive nxt q running (WaitFor k (nxt k)) false (Waits k :: log))
                      | None => None
                      end
               end
      | _ => None
      end
  | Wake =>                                                         (* the end of cv.wait 130, or of wait_until 134 without timeout *)
      match lp with
      | WaitAny | WaitFor _ _ => Some (mk_st now alive nxt q running Ready told log)
      | _ => None
      end
  | Timeout i =>                                                    (* 134-138: the end of wait_until with timeout *)
      match lp with
      | WaitFor _ t =>
          if now <? t then None
          else match q with
               | [] => Some (mk_st now alive nxt q running Ready told log)
               | _ => match top nxt q i with
                      | Some k => Some (mk_st now alive nxt (del k q) running (Exec k) told (Begins k now :: log))
                      | None => None
                      end
               end
      | _ => None
      end
  | Finish =>                                                       (* execute 38-41, reset_next 33-35; 139 *)
      match lp with
      | Exec k => Some (mk_st now alive (set1 nxt k (now + interval k)) (k :: q) running Ready told (Ends k now :: log))
      | _ => None
      end
  | Nested =>                                                       (* the function of a task constructs or destroys a task: lock_guard 45, 73 *)
      match lp with
      | Exec k => Some (mk_st now alive nxt q running Stuck told log)
      | _ => None
      end
  end.
Fixpoint run (s : st) (ls : list label) : option st :=
  match ls with
  | [] => Some s
  | a :: r => match step s a with Some s' => run s' r | None => None end
  end.
End Tasks.
