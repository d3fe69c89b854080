(** Specification of learning: what producers, the receiver of the notifications and the acknowledging client see.  No buffers, filter or references. *)
From Coq Require Import List Arith NArith ZArith Bool.
From Verif Require Import Base LearnModel.
Import ListNotations.

(** The transmit thread as seen from outside: idle, between taking and sending, sent and not yet finished *)
Inductive sphase := SIdle | STook | SSent.
(** Accepted samples not delivered yet, oldest first; delivered buffers, with [None] for acknowledged samples; blocked producers; the last time a sample was accepted *)
Record sl := mk_sl { s_pend : list sample; s_bufs : list (N * list (option sample)); s_wait : list nat; s_ph : sphase; s_dest : option N; s_timeout : N; s_latest : N }.
Definition s_init (timeout : N) : sl := mk_sl [] [] [] SIdle None timeout 0.
(** Accepted and not acknowledged *)
Definition outstanding (q : sl) (x : sample) : Prop := In x (s_pend q) \/ exists b, In b (s_bufs q) /\ In (Some x) (snd b).
Definition all_acked (l : list (option sample)) : Prop := forall o, In o l -> o = None.
(** Acknowledging one sample, given its position in the buffer; other positions are ignored *)
Definition ack_one (l : list (option sample)) (i : Z) : list (option sample) := if (i <? 0)%Z then l else list_set l (Z.to_nat i) None.
Definition on_buf (id : N) (f : list (option sample) -> list (option sample)) (l : list (N * list (option sample))) : list (N * list (option sample)) :=
  map (fun b => if (fst b =? id)%N then (fst b, f (snd b)) else b) l.

(** The state after an event with a given outcome *)
Definition s_next (q : sl) (e : lev) (x : lout) : sl :=
  match e, x with
  | EAdd t now y, OAdd acc blk =>
      mk_sl (if acc then s_pend q ++ [y] else s_pend q) (s_bufs q) (if blk then t :: s_wait q else s_wait q) (s_ph q) (s_dest q) (s_timeout q) (if acc then N.max (s_latest q) now else s_latest q)
  | EMax t _, OBlocked blk => mk_sl (s_pend q) (s_bufs q) (if blk then t :: s_wait q else s_wait q) (s_ph q) (s_dest q) (s_timeout q) (s_latest q)
  | EWake t, OWoke b => mk_sl (s_pend q) (s_bufs q) (if b then filter (fun u => negb (t =? u)) (s_wait q) else s_wait q) (s_ph q) (s_dest q) (s_timeout q) (s_latest q)
  | ETake _, OTook b => mk_sl (s_pend q) (s_bufs q) (s_wait q) (if b then STook else s_ph q) (s_dest q) (s_timeout q) (s_latest q)
  | ESend, OMsg (_, id, n, _) => mk_sl (skipn n (s_pend q)) (s_bufs q ++ [(id, map Some (firstn n (s_pend q)))]) (s_wait q) SSent (s_dest q) (s_timeout q) (s_latest q)
  | EDone, _ => mk_sl (s_pend q) (s_bufs q) (s_wait q) SIdle (s_dest q) (s_timeout q) (s_latest q)
  | EAck id ids, _ => mk_sl (s_pend q) (on_buf id (fun l => fold_left ack_one ids l) (s_bufs q)) (s_wait q) (s_ph q) (s_dest q) (s_timeout q) (s_latest q)
  | EAckBuf id, _ => mk_sl (s_pend q) (on_buf id (map (fun _ => None)) (s_bufs q)) (s_wait q) (s_ph q) (s_dest q) (s_timeout q) (s_latest q)
  | EReset, _ => mk_sl [] [] (s_wait q) (s_ph q) (s_dest q) (s_timeout q) (s_latest q)
  | ETimeout x, _ => mk_sl (s_pend q) (s_bufs q) (s_wait q) (s_ph q) (s_dest q) x (s_latest q)
  | EDest d, _ => mk_sl (s_pend q) (s_bufs q) (s_wait q) (s_ph q) (Some d) (s_timeout q) (s_latest q)
  | _, _ => q
  end.

(** The outcomes that are right in a state *)
Definition allowed (q : sl) (e : lev) (x : lout) : Prop :=
  match e with
  | EAdd _ _ y => exists acc blk, x = OAdd acc blk /\ (acc = true <-> ~ outstanding q y) /\ (blk = true -> acc = true)
  | EMax _ _ => exists b, x = OBlocked b
  | EWake _ => exists b, x = OWoke b
  (* something to send; with a timeout, what is pending is taken once the timeout has elapsed *)
  | ETake now => exists b, x = OTook b /\ (b = true -> s_pend q <> []) /\ (s_pend q <> [] -> (0 < s_timeout q)%N -> (s_latest q + s_timeout q <= now)%N -> b = true)
  (* the oldest samples, under an id greater than those used before *)
  | ESend => exists id n, x = OMsg (s_dest q, id, n, concat (firstn n (s_pend q))) /\ 0 < n <= length (s_pend q) /\ forall b, In b (s_bufs q) -> (fst b < id)%N
  | _ => x = ONone
  end.

(** What is asked of the environment.  Threads do what they can do; samples have bytes; acknowledgements name delivered buffers;
    a sample is acknowledged once, no acknowledgement goes on after the last sample of its buffer, and a buffer is not acknowledged as a whole after some of its samples
    were (unless nothing else is outstanding); the state is reset when nobody is blocked and nothing is being sent. *)
Fixpoint ack_fits (l : list (option sample)) (ids : list Z) : Prop :=
  match ids with
  | [] => True
  | i :: r => if (i <? 0)%Z then ack_fits l r
              else ~ all_acked l /\ (Z.to_nat i < length l -> exists x, nth_error l (Z.to_nat i) = Some (Some x)) /\ ack_fits (list_set l (Z.to_nat i) None) r
  end.
Definition fits (q : sl) (e : lev) : Prop :=
  match e with
  | EAdd t _ y => ~ In t (s_wait q) /\ y <> []
  | EMax t _ => ~ In t (s_wait q)
  | EWake t => In t (s_wait q)
  | ETake _ => s_ph q = SIdle
  | ESend => s_ph q = STook
  | EDone => s_ph q = SSent
  | EAck id ids => exists l, In (id, l) (s_bufs q) /\ (all_acked l \/ ack_fits l ids)
  | EAckBuf id => exists l, In (id, l) (s_bufs q) /\ (all_acked l \/ (forall o, In o l -> o <> None) \/ forall x, outstanding q x -> In (Some x) l)
  | EReset => s_ph q = SIdle /\ s_wait q = []
  | ETimeout _ => True
  | EDest _ => s_ph q = SIdle
  end.

(** Histories *)
Fixpoint s_after (q : sl) (es : list lev) (xs : list lout) : sl := match es, xs with e :: es, x :: xs => s_after (s_next q e x) es xs | _, _ => q end.
Fixpoint all_fit (q : sl) (es : list lev) (xs : list lout) : Prop := match es, xs with e :: es, x :: xs => fits q e /\ all_fit (s_next q e x) es xs | _, _ => True end.
Fixpoint all_allowed (q : sl) (es : list lev) (xs : list lout) : Prop := match es, xs with e :: es, x :: xs => allowed q e x /\ all_allowed (s_next q e x) es xs | _, _ => True end.
