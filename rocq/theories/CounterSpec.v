(** Specification of counters: what each call means for each of the two counts, and linearizability
    of the concurrent history with respect to it. *)
From Coq Require Import List Arith NArith Bool.
From Verif Require Import CounterModel.
Import ListNotations.

(** The value a call sets cell [a] to, and the amount it adds to it. *)
Definition sets (c : call) (a : cell) : option N :=
  match c with
  | CReset i => if fst a =? i then Some 0%N else None
  | CWrite i b p => if fst a =? i then Some (if snd a then b else p) else None
  | CResetAll n => if fst a <? n then Some 0%N else None
  | _ => None
  end.
Definition adds (c : call) (a : cell) : N :=
  match c with
  | CInc i len => if fst a =? i then (if snd a then len else 1%N) else 0%N
  | _ => 0%N
  end.
(** The call concerns cell [a]. *)
Definition concerns (c : call) (a : cell) : Prop :=
  match c with
  | CInc i _ | CQuery i | CReset i | CWrite i _ _ => fst a = i
  | CResetAll n => fst a < n
  end.

Section Lin.
Variable calls : list call.
Definition sets_of (a : cell) (i : nat) : option N :=
  match nth_error calls i with Some c => sets c a | None => None end.
Definition adds_of (a : cell) (i : nat) : N :=
  match nth_error calls i with Some c => adds c a | None => 0%N end.
Definition total (a : cell) (l : list nat) : N := fold_right (fun i n => (adds_of a i + n)%N) 0%N l.

(** The value of cell [a] after the calls [l], in this order: what was added since the last call that
    set it, on top of what that call set, modulo 2^64. *)
Inductive value_after (a : cell) (l : list nat) (v : N) : Prop :=
| va_start : (forall i, In i l -> sets_of a i = None) -> v = (total a l mod 2 ^ 64)%N -> value_after a l v
| va_set : forall l1 i w l2, l = l1 ++ i :: l2 -> sets_of a i = Some w ->
    (forall j, In j l2 -> sets_of a j = None) -> v = ((w + total a l2) mod 2 ^ 64)%N -> value_after a l v.

Definition before {A} (h : list A) (x y : A) : Prop := exists h1 h2 h3, h = h1 ++ x :: h2 ++ y :: h3.

(** [l] is a linearization of history [h] for cell [a]: an order of the calls that have taken effect
    which contains every call that returned and no call that has not started, respects the order of
    non-overlapping calls, and explains every value returned for this cell. *)
Record linearization (h : list event) (a : cell) (l : list nat) : Prop := {
  ln_nodup : NoDup l;
  ln_done : forall i g c, In (ERes i g) h -> nth_error calls i = Some c -> concerns c a -> In i l;
  ln_started : forall i, In i l -> In (EInv i) h /\ exists c, nth_error calls i = Some c /\ concerns c a;
  ln_realtime : forall i j g, before h (ERes i g) (EInv j) -> In i l -> In j l -> before l i j;
  ln_reads : forall i g, nth_error calls i = Some (CQuery (fst a)) -> In (ERes i g) h ->
    exists b p l1 l2, g = [b; p] /\ l = l1 ++ i :: l2 /\ value_after a l1 (if snd a then b else p) }.

(** Writes store 64-bit values. *)
Definition call_ok (c : call) : Prop :=
  match c with CWrite _ b p => (b < 2 ^ 64 /\ p < 2 ^ 64)%N | _ => True end.
End Lin.
