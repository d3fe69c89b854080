(** What the log of observable events says (newest event first). *)
From Coq Require Import List Arith NArith Bool.
From Verif Require Import PeriodicModel.
Import ListNotations.
Local Open Scope N_scope.

(** The task is registered: its last registration has not been undone. *)
Fixpoint registered (log : list event) (k : nat) : bool :=
  match log with
  | [] => false
  | Reg j true :: r => if Nat.eqb j k then true else registered r k
  | Unreg j _ :: r | Freed j :: r => if Nat.eqb j k then false else registered r k
  | _ :: r => registered r k
  end.
(** When the task is due: one interval after it was constructed or last ran. *)
Fixpoint due (interval : nat -> N) (log : list event) (k : nat) : option N :=
  match log with
  | [] => None
  | Made j t :: r | Ends j t :: r => if Nat.eqb j k then Some (t + interval k) else due interval r k
  | _ :: r => due interval r k
  end.
(** The task was not taken off the list in this part of the log. *)
Definition undisturbed (w : nat) (part : list event) : Prop := Forall (fun e => match e with Unreg j _ | Freed j => j <> w | _ => True end) part.
(** Not the beginning of a wait or of a run *)
Definition plain (e : event) : Prop := match e with Waits _ | Begins _ _ => False | _ => True end.
(** How often a task was run *)
Definition runs (k : nat) (part : list event) : nat := length (filter (fun e => match e with Begins j _ => Nat.eqb j k | _ => false end) part).
(** The task stays on the list and does not run. *)
Definition calm (k : nat) (e : event) : Prop := match e with Begins j _ | Ends j _ | Freed j | Unreg j true => j <> k | _ => True end.
Definition reachable (interval : nat -> N) (s : st) : Prop := exists ls, run interval init ls = Some s.
