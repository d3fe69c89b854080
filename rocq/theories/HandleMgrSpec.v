(** Specification of a handle allocator, independent of bitsets: the state is the list of
    live handles (no order) together with the first handle number never used so far. *)
From Coq Require Import List Arith Sorted.
From Verif Require Import HandleMgrModel.
Import ListNotations.

Record aspec := mkA { live : list nat; top : nat }.

Definition a_empty : aspec := mkA [] 0.

Definition remove_h (h : nat) (l : list nat) : list nat := remove Nat.eq_dec h l.

(** What a client may observe for each operation. *)
Inductive a_step : aspec -> hop -> hout -> aspec -> Prop :=
| a_get : forall a h,
    ~ In h (live a) -> (forall k, k < h -> In k (live a)) ->
    a_step a HGet (OHandle h) (mkA (h :: live a) (Nat.max (top a) (S h)))
| a_rel_ok : forall a h, In h (live a) ->
    a_step a (HRelease h) (OOk true) (mkA (remove_h h (live a)) (top a))
| a_rel_no : forall a h, ~ In h (live a) -> a_step a (HRelease h) (OOk false) a
| a_set_ok : forall a h, ~ In h (live a) ->
    a_step a (HSet h) (OOk true) (mkA (h :: live a) (Nat.max (top a) (S h)))
| a_set_no : forall a h, In h (live a) -> a_step a (HSet h) (OOk false) a
| a_valid_y : forall a h, In h (live a) -> a_step a (HValid h) (OOk true) a
| a_valid_n : forall a h, ~ In h (live a) -> a_step a (HValid h) (OOk false) a
| a_size : forall a, a_step a HSize (ONum (length (live a))) a
| a_iter : forall a l, StronglySorted lt l -> (forall h, In h l <-> In h (live a)) ->
    a_step a HIter (OList l) a
| a_clear : forall a, a_step a HClear ONone a_empty.

(** The one call that breaks the code: marking, by [set_handle], the very first never-used
    handle while all smaller ones are live. *)
Definition bad_set (a : aspec) (o : hop) : Prop :=
  match o with
  | HSet h => h = top a /\ (forall k, k < h -> In k (live a))
  | _ => False
  end.

Inductive a_run : aspec -> list hop -> list hout -> aspec -> Prop :=
| ar_nil : forall a, a_run a [] [] a
| ar_cons : forall a o x a' os xs a'',
    a_step a o x a' -> a_run a' os xs a'' -> a_run a (o :: os) (x :: xs) a''.
