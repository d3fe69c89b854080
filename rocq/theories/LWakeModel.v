(** Model of when the transmit thread of a learn list is awake, src/bm_sim/learning.cpp:333-424: the waits on [b_can_send],
    with or without a deadline, and the notifications.  The buffers are those of LearnModel.v, whose events are reused; there the thread runs whenever it
    likes.  Times and timeouts are in the same unit.  Not modelled: the destructor, which stops the thread. *)
From Coq Require Import List Arith NArith Bool.
From Verif Require Import LearnModel.
Import ListNotations.

(** [w_sleep]: [None] if the thread is not waiting on b_can_send, else the time until which it waits ([Some None]: for a notification only);
    [w_note]: the thread waits, and was notified since *)
Record wst := mk_w { w_l : lst; w_sleep : option (option N); w_note : bool }.
(** The thread is started by init 285-288, and has not run yet *)
Definition w_new (max : nat) (timeout : N) : wst := mk_w (l_new max timeout) None false.

(** b_can_send.notify_one() is called: by add_sample for the first sample of a buffer (382-385) or in process_full_buffer once
    the buffers are swapped (362); by set_max_samples 338-344; by a producer which waited in process_full_buffer.  Not by set_timeout 333-337 *)
Definition notifies (s : lst) (e : lev) (x : lout) : bool :=
  match e, x with
  | EAdd _ _ _, OAdd acc blk =>
      acc && (if (l_n s + 1 =? 1) && (1 <? l_max s) then true else (l_max s <=? l_n s + 1) && negb blk)
  | EMax _ m, OBlocked blk => (0 <? l_n s) && (m <=? l_n s) && negb blk
  | EWake _, OWoke b => b
  | _, _ => false
  end.

(** The thread can run at a time: it does not wait, or was notified, or its deadline has come, or it wakes for no reason ([sp]) *)
Definition may_run (w : wst) (sp : bool) (now : N) : bool :=
  match w_sleep w with
  | None => true
  | Some d => sp || w_note w || match d with Some t => (t <=? now)%N | None => false end
  end.
(** wait_until or wait, 405-409 *)
Definition deadline (s : lst) : option N :=
  if (0 <? l_timeout s)%N && (0 <? l_n s) then Some (l_started s + l_timeout s)%N else None.

Definition wev : Type := bool * lev.
Definition w_step (w : wst) (v : wev) : option (wst * lout) :=
  let '(sp, e) := v in
  match e with
  | ETake now =>
      if may_run w sp now then
        match l_step (w_l w) e with
        | Some (s', OTook false) => Some (mk_w s' (Some (deadline s')) false, OTook false)
        | Some (s', x) => Some (mk_w s' None false, x)
        | None => None
        end
      else None
  | _ =>
      match l_step (w_l w) e with
      | Some (s', x) => Some (mk_w s' (w_sleep w) (w_note w || match w_sleep w with Some _ => notifies (w_l w) e x | None => false end), x)
      | None => None
      end
  end.
Fixpoint w_run (w : wst) (vs : list wev) : option (wst * list lout) :=
  match vs with
  | [] => Some (w, [])
  | v :: r => match w_step w v with Some (w', x) => match w_run w' r with Some (w'', xs) => Some (w'', x :: xs) | None => None end | None => None end
  end.
