(** What a user of the port monitor relies on, in terms of the calls made and the callbacks seen. *)
From Coq Require Import List Arith NArith Bool Sorted.
From Verif Require Import PortMonModel.
Import ListNotations.

(** A status change: the thread whose call caused it, the port and the event. *)
Notation change := (nat * (N * pevt))%type.

(** The events of one port, and its last one. *)
Definition of_port (p : N) (l : list (N * pevt)) : list pevt :=
  map snd (filter (fun x => (fst x =? p)%N) l).
Definition last_evt (p : N) (h : list change) : option pevt :=
  match rev (of_port p (map snd h)) with [] => None | e :: _ => Some e end.

(** The protocol: a port is added, then goes up and down in turn, then is removed. *)
Definition may_follow (last : option pevt) (e : pevt) : Prop :=
  match last with
  | None | Some Removed => e = Added
  | Some Added | Some Down => e = Up \/ e = Removed
  | Some Up => e = Down \/ e = Removed
  end.
Fixpoint protocol (last : option pevt) (l : list pevt) : Prop :=
  match l with [] => True | e :: r => may_follow last e /\ protocol (Some e) r end.

Definition present (last : option pevt) : Prop := exists e, last = Some e /\ e <> Removed.

(** The changes a call makes after the changes [h]. *)
Definition notify_makes (h : list change) (p : N) (e : pevt) (l : list (N * pevt)) : Prop :=
  (may_follow (last_evt p h) e /\ l = [(p, e)]) \/ (~ may_follow (last_evt p h) e /\ l = []).
Definition poll_makes (h : list change) (f : N -> bool) (l : list (N * pevt)) : Prop :=
  StronglySorted (fun a b => (fst a < fst b)%N) l /\
  forall p e, In (p, e) l <->
    present (last_evt p h) /\
    ((e = Up /\ f p = true /\ last_evt p h <> Some Up) \/ (e = Down /\ f p = false /\ last_evt p h = Some Up)).

(** The changes made by a schedule, in order. *)
Inductive changes : list paction -> list change -> Prop :=
| ch_nil : changes [] []
| ch_notify acts h t p e l : changes acts h -> notify_makes h p e l ->
    changes (acts ++ [ANotify t p e]) (h ++ map (pair t) l)
| ch_poll acts h t f l : changes acts h -> poll_makes h f l ->
    changes (acts ++ [APoll t f]) (h ++ map (pair t) l)
| ch_register acts h e cb : changes acts h -> changes (acts ++ [ARegister e cb]) h
| ch_run acts h t : changes acts h -> changes (acts ++ [ARun t]) h.

(** What one thread did. *)
Definition by_thread {A} (t : nat) (l : list (nat * A)) : list A :=
  map snd (filter (fun x => fst x =? t) l).
Definition prefix {A} (a b : list A) : Prop := exists r, b = a ++ r.

(** The callbacks registered for an event so far. *)
Definition registered (acts : list paction) (e : pevt) : list nat :=
  flat_map (fun a => match a with ARegister e' cb => if pevt_eqb e' e then [cb] else [] | _ => [] end) acts.

(** The changes to report in messages. *)
Definition reports (l : list (N * pevt)) : list (N * bool) :=
  flat_map (fun x => match snd x with Up => [(fst x, true)] | Down => [(fst x, false)] | _ => [] end) l.
