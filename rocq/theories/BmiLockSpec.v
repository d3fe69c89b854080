(** Specification of C65: what an observer of the events may see. *)
From Coq Require Import List Arith NArith Bool.
From Verif Require Import BmiLockModel.
Import ListNotations.

(** the last thing that happened to the port was that it was added *)
Fixpoint there (log : list levent) (p : N) (now : bool) : bool :=
  match log with
  | [] => now
  | EAdded q _ :: r => there r p (if (q =? p)%N then true else now)
  | ERemoved q :: r => there r p (if (q =? p)%N then false else now)
  | _ :: r => there r p now
  end.
(** a packet of a port is handled only while the port is there and when select reported its descriptor the last time, and a port is never removed (nor one added) while a packet is being handled *)
Definition handled_well (log : list levent) : Prop :=
  (forall l1 l2 p fd, log = l1 ++ EBegin p fd :: l2 -> there l1 p false = true) /\
  (forall l1 l2 l3 p fd e, log = l1 ++ EBegin p fd :: l2 ++ e :: l3 -> (exists q, e = ERemoved q \/ e = EClosed q \/ exists x, e = EAdded q x) -> In (EEnd p) l2) /\
  (forall l1 l2 p fd, log = l1 ++ EBegin p fd :: l2 -> exists l0 ready l0', l1 = l0 ++ ESelected ready :: l0' /\ In fd ready /\ forall r, ~ In (ESelected r) l0').
(** no descriptor is closed while the receiving thread waits for it in select *)
Definition closed_well (log : list levent) : Prop :=
  forall l1 l2 l3 fds fd, log = l1 ++ ESelect fds :: l2 ++ EClosed fd :: l3 -> In fd fds -> exists ready, In (ESelected ready) l2.

(** a thread waits for the answer of the receiving thread in a remove *)
Definition waits (s : lst) (t : nat) : Prop := exists p fd, l_call s t = CRead p fd.
(** The call of t returns after some more steps. *)
Definition can_return (sock : N) (s : lst) (t : nat) : Prop :=
  exists acts s' new, l_run sock s acts = Some s' /\ l_log s' = l_log s ++ new /\ In (EReturned t) new.
(** The receiving thread waits in select with the socket among the descriptors it was given, or has been told of it there. *)
Definition attentive (sock : N) (s : lst) : Prop :=
  match l_sel s with
  | TSelect fds maxfd => In sock fds /\ (sock <= maxfd)%N
  | TReady ready => In sock ready
  | TEcho _ => True
  | _ => l_back s <> 0
  end.
