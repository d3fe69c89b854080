(** Six independent attributes: a read returns what was last written to that attribute. *)
From Coq Require Import List NArith Bool.
From Verif Require Import AccessModel.
Import ListNotations.
Local Open Scope N_scope.

Definition attr_eq_dec (a b : attr) : {a = b} + {a <> b}.
Proof. decide equality. Defined.
Definition width (a : attr) : N := match a with PacketLength => 64 | _ => 16 end.
(** The value of an attribute after some operations, most recent first; [None]: never written nor cleared *)
Fixpoint value (a : attr) (history : list aop) : option N :=
  match history with
  | [] => None
  | OSet b v :: h => if attr_eq_dec a b then Some (v mod 2 ^ width a) else value a h
  | OClear :: h => match a with PacketLength => value a h | _ => Some 0 end
  | OGet _ :: h => value a h
  end.
(** Every read returns that value *)
Fixpoint reads_ok (history l : list aop) (outs : list (option N)) : Prop :=
  match l, outs with
  | [], [] => True
  | o :: t, out :: outs' =>
      match o with OGet a => exists v, out = Some v /\ v < 2 ^ width a /\ match value a history with Some w => v = w | None => True end | _ => out = None end
      /\ reads_ok (o :: history) t outs'
  | _, _ => False
  end.
