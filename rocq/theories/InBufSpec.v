(** The input buffer as one caller at a time sees it: two first-in first-out lists. *)
From Coq Require Import List Arith Bool.
From Verif Require Import InBufModel.
Import ListNotations.

Definition reinserted (ty : ptype) : Prop := ty = RESUBMIT \/ ty = RECIRCULATE.
Section S.
Variables cap_hi cap_lo : nat.
(** [effect hi lo c r hi' lo']: call [c] returns [r] and takes the lists (oldest first) from [hi], [lo] to [hi'], [lo'] *)
Inductive effect : list nat -> list nat -> call -> result -> list nat -> list nat -> Prop :=
| push_lo hi lo v : length lo < cap_lo -> effect hi lo (Push NORMAL v) Accepted hi (lo ++ [v])
| push_hi hi lo ty v : ty <> NORMAL -> length hi < cap_hi -> effect hi lo (Push ty v) Accepted (hi ++ [v]) lo
| refuse hi lo ty v : reinserted ty -> length hi = cap_hi -> effect hi lo (Push ty v) Refused hi lo
| pop_hi hi lo v : effect (v :: hi) lo Pop (Got true v) hi lo
| pop_lo lo v : effect [] (v :: lo) Pop (Got false v) [] lo.
(** A sequence of calls one after the other *)
Inductive history : list (call * result) -> list nat -> list nat -> Prop :=
| h_nil : history [] [] []
| h_snoc l hi lo c r hi' lo' : history l hi lo -> effect hi lo c r hi' lo' -> history (l ++ [(c, r)]) hi' lo'.
End S.
(** Items that went into and came out of a class, in order *)
Definition ins (hi : bool) (l : list (call * result)) : list nat :=
  flat_map (fun x => match x with (Push ty v, Accepted) => if Bool.eqb (match ty with NORMAL => false | _ => true end) hi then [v] else [] | _ => [] end) l.
Definition outs (hi : bool) (l : list (call * result)) : list nat :=
  flat_map (fun x => match snd x with Got h v => if Bool.eqb h hi then [v] else [] | _ => [] end) l.
