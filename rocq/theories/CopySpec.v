(** Conditions under which copy ids are distinct. *)
From Coq Require Import List Arith NArith Bool.
From Verif Require Import CopyModel.
Import ListNotations.
Local Open Scope N_scope.

(** A packet is created only when no live packet uses the same counter *)
Definition alone_in_slot (W : N) (live : list (N * N)) (pid : N) : Prop := forall x, In x live -> fst x mod W <> pid mod W.
(** ... at every creation of a schedule *)
Fixpoint slots_ok (W : N) (s : cst) (es : list cev) : Prop :=
  match es with
  | [] => True
  | e :: r => match e with ENew pid => alone_in_slot W (s_live s) pid | _ => True end /\ match c_step W s e with Some (s', _) => slots_ok W s' r | None => True end
  end.
(** Among the copies made, those of packets that use counter [k]; how often packet [pid] is cloned *)
Definition made_in (W : N) (k : nat) (es : list (N * N)) : nat := length (filter (fun x => Nat.eqb (N.to_nat (fst x mod W)) k) es).
Definition copies (pid : N) (l : list aev) : nat := length (filter (fun a => match a with AClone p _ => p =? pid | _ => false end) l).
Definition creations (l : list aev) : list N := flat_map (fun a => match a with ANew p => [p] | _ => [] end) l.
