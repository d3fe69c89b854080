(** Model of the port monitors, src/bm_sim/port_monitor.cpp, under concurrent calls.

    A schedule is a list of actions.  Every critical section (port_mutex, cb_map_mutex) and every
    message sent is one atomic step; a thread runs at most one call at a time.  [None] means that the
    list is not a schedule: a call on a thread that is still in one, or a step of an idle thread.
    Not modelled: that callbacks are kept by reference (port_monitor.cpp:84), callbacks that call the
    monitor themselves (they would lock cb_map_mutex twice), the bytes of the messages, starting and
    stopping the polling thread. *)
From Coq Require Import List Arith NArith Bool.
Import ListNotations.

(** PortStatus, port_monitor.h:35 *)
Inductive pevt := Added | Removed | Up | Down.
Definition pevt_eqb (a b : pevt) : bool :=
  match a, b with Added, Added | Removed, Removed | Up, Up | Down, Down => true | _, _ => false end.

(** what is left to do of a call in progress *)
Inductive pstep :=
| Deliver (p : N) (e : pevt)               (* event_handler, 52-58 *)
| Send (v : list (N * bool)).              (* send_notifications, 62-78 *)

(** A delivery: thread, port, event, and the callbacks invoked (their order is that of an
    unordered_multimap: unspecified). *)
Notation delivery := (nat * (N * pevt) * list nat)%type.

Record pmon := mkPM {
  pm_ports : list (N * bool);              (* curr_ports, 86 *)
  pm_cbs : list (pevt * nat);              (* cb_map, 84 *)
  pm_todo : nat -> list pstep;             (* per thread *)
  pm_log : list delivery;                  (* callbacks made *)
  pm_sent : list (nat * list (N * bool)) } (* messages sent *).
Definition pm_new : pmon := mkPM [] [] (fun _ => []) [] [].

Fixpoint pfind (l : list (N * bool)) (p : N) : option bool :=
  match l with [] => None | (q, b) :: r => if (q =? p)%N then Some b else pfind r p end.
Fixpoint pset (l : list (N * bool)) (p : N) (b : bool) : list (N * bool) :=
  match l with
  | [] => []
  | (q, x) :: r => if (q =? p)%N then (q, b) :: r else (q, x) :: pset r p b
  end.
Definition perase (l : list (N * bool)) (p : N) : list (N * bool) := filter (fun x => negb (fst x =? p)%N) l.

Definition up_down (e : pevt) : bool := match e with Up | Down => true | _ => false end.
(** make_one_status, 80-82 *)
Definition one_status (p : N) (e : pevt) : N * bool := (p, pevt_eqb e Up).

(** notify_'s critical section, 93-110: the new ports, or [None] when the event is ignored *)
Definition pm_accept (ports : list (N * bool)) (p : N) (e : pevt) : option (list (N * bool)) :=
  match e, pfind ports p with
  | Added, None => Some (ports ++ [(p, false)])
  | Removed, Some _ => Some (perase ports p)
  | Up, Some false => Some (pset ports p true)
  | Down, Some true => Some (pset ports p false)
  | _, _ => None
  end.
(** the rest of notify_, 111-116.  [w] says whether there is a notifications_writer. *)
Definition notify_rest (w : bool) (p : N) (e : pevt) : list pstep :=
  Deliver p e :: (if up_down e && w then [Send [one_status p e]] else []).

(** cbs_todo, a std::map: insert keeps it sorted and never replaces *)
Fixpoint todo_insert (p : N) (e : pevt) (l : list (N * pevt)) : list (N * pevt) :=
  match l with
  | [] => [(p, e)]
  | (q, x) :: r =>
      if (p <? q)%N then (p, e) :: l else if (p =? q)%N then l else (q, x) :: todo_insert p e r
  end.
(** monitor's critical section, 165-177; [f] is what p_status_fn answers during this pass *)
Fixpoint pm_poll (f : N -> bool) (ports : list (N * bool)) (todo : list (N * pevt))
  : list (N * bool) * list (N * pevt) :=
  match ports with
  | [] => ([], todo)
  | (p, b) :: r =>
      let todo' := if negb (f p) && b then todo_insert p Down todo
                   else if f p && negb b then todo_insert p Up todo else todo in
      let (r', t) := pm_poll f r todo' in ((p, f p) :: r', t)
  end.
(** 179-191; send_notifications ignores an empty vector, 63 *)
Definition poll_rest (w : bool) (todo : list (N * pevt)) : list pstep :=
  map (fun x => Deliver (fst x) (snd x)) todo ++
  (if w then match filter (fun x => up_down (snd x)) todo with
             | [] => []
             | v => [Send (map (fun x => one_status (fst x) (snd x)) v)]
             end else []).

Inductive paction :=
| ANotify (t : nat) (p : N) (e : pevt)
| APoll (t : nat) (f : N -> bool)
| ARegister (e : pevt) (cb : nat)
| ARun (t : nat).

Definition tset {A} (g : nat -> A) (t : nat) (x : A) : nat -> A := fun u => if u =? t then x else g u.

Definition pm_step (w : bool) (m : pmon) (a : paction) : option pmon :=
  match a with
  | ANotify t p e =>
      match pm_todo m t with
      | _ :: _ => None
      | [] =>
          match pm_accept (pm_ports m) p e with
          | None => Some m
          | Some ps => Some (mkPM ps (pm_cbs m) (tset (pm_todo m) t (notify_rest w p e)) (pm_log m) (pm_sent m))
          end
      end
  | APoll t f =>
      match pm_todo m t with
      | _ :: _ => None
      | [] =>
          let (ps, todo) := pm_poll f (pm_ports m) [] in
          Some (mkPM ps (pm_cbs m) (tset (pm_todo m) t (poll_rest w todo)) (pm_log m) (pm_sent m))
      end
  | ARegister e cb =>       (* register_cb_, 119-124 *)
      Some (mkPM (pm_ports m) (pm_cbs m ++ [(e, cb)]) (pm_todo m) (pm_log m) (pm_sent m))
  | ARun t =>
      match pm_todo m t with
      | [] => None
      | Deliver p e :: r =>
          Some (mkPM (pm_ports m) (pm_cbs m) (tset (pm_todo m) t r)
                  (pm_log m ++ [(t, (p, e), map snd (filter (fun c => pevt_eqb (fst c) e) (pm_cbs m)))]) (pm_sent m))
      | Send v :: r =>
          Some (mkPM (pm_ports m) (pm_cbs m) (tset (pm_todo m) t r) (pm_log m) (pm_sent m ++ [(t, v)]))
      end
  end.
Fixpoint pm_run (w : bool) (m : pmon) (acts : list paction) : option pmon :=
  match acts with
  | [] => Some m
  | a :: r => match pm_step w m a with Some m' => pm_run w m' r | None => None end
  end.
