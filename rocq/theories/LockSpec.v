(** Specification of concurrent table and profile calls: every call appears to take effect at one
    instant between its call and its return. *)
From Coq Require Import List Arith NArith Bool.
From Verif Require Import ProfileModel ProfileSpec LockModel.
Import ListNotations.

(** The calls under way: for each thread, the call and, once it has taken effect, its result. *)
Definition pending := nat -> option (pop * option pout).
Definition pend_upd (p : pending) (t : nat) (v : option (pop * option pout)) : pending :=
  fun u => if u =? t then v else p u.

(** [one s o x r]: executed alone in state [s], call [o] may answer [x] and leave state [r]
    ([None]: nothing is promised from then on).  [atomic one s p h]: the history [h] of calls and
    returns can be explained by choosing, for each call that returns, one instant between its call
    and its return at which it is executed alone. *)
Inductive atomic {S : Type} (one : S -> pop -> pout -> option S -> Prop)
  : option S -> pending -> list (hev pop) -> Prop :=
| at_nil : forall s p, atomic one s p []
| at_call : forall s p t o h, p t = None ->
    atomic one s (pend_upd p t (Some (o, None))) h -> atomic one s p (HCall t o :: h)
| at_effect : forall s p t o x r h, p t = Some (o, None) -> one s o x r ->
    atomic one r (pend_upd p t (Some (o, Some x))) h -> atomic one (Some s) p h
| at_ret : forall s p t o x h, p t = Some (o, Some x) ->
    atomic one s (pend_upd p t None) h -> atomic one s p (HRet t x :: h)
| at_any : forall p h, atomic one None p h.

(** Alone, by the code: nothing is promised after a call that kills the process. *)
Definition alone (np : nat -> nat) (cs : list itcfg) (w : world) (o : pop) (x : pout)
    (r : option world) : Prop :=
  match w_step np cs w o with
  | Some (w', y) => y = x /\ r = Some w'
  | None => r = None
  end.

(** Alone, by the specification of C11 and C12: nothing is promised after one of the calls that
    leave the reference counts wrong. *)
Definition one_by_one (np : nat -> nat) (cs : list itcfg) (s : wst) (o : pop) (x : pout)
    (r : option wst) : Prop :=
  exists s', pspec_step np cs s o x s' /\
    ((dirty o x /\ r = None) \/ (~ dirty o x /\ r = Some s')).

Definition calls_ok (P : pop -> Prop) (h : list (hev pop)) : Prop :=
  Forall (fun e => match e with HCall _ o => P o | _ => True end) h.

(** A shared mutex that makes readers wait behind a waiting writer (what std::shared_mutex may do
    and writer-preferring implementations do): the thread can go on. *)
Definition can_go {O} (m : mach O) (t : nat) : Prop :=
  match m_t O m t with
  | Idle => False
  | Run _ (Acq (x, b) :: _) _ _ =>
      can_take O m (x, b) /\ (b = false -> forall u, ~ wants O (m_t O m u) (x, true))
  | _ => True
  end.
