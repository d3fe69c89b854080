(** Longest-prefix match, specified on bit strings. *)
From Coq Require Import List Arith NArith.
From Verif Require Import Bits LpmModel.
Import ListNotations.

Section Spec.
Context {V : Type}.

(** The table is a set of (prefix bits, value) pairs. *)
Definition table := list (list bool * V).

(** [r] is the answer of longest-prefix match for key bits [k]. *)
Definition lpm_answer (t : table) (k : list bool) (r : option V) : Prop :=
  match r with
  | None => forall p v, In (p, v) t -> ~ is_prefix p k
  | Some v => exists p, In (p, v) t /\ is_prefix p k /\
                        forall p' v', In (p', v') t -> is_prefix p' k -> length p' <= length p
  end.

(** The prefix named by the API: the first [len] bits of the byte string. *)
Definition pbits (p : list N) (len : nat) : list bool := firstn len (bits_of_bytes p).

(** [t'] maps [p] to [o] (absent if [None]) and agrees with [t] elsewhere. *)
Definition updated (t : table) (p : list bool) (o : option V) (t' : table) : Prop :=
  (forall q v, q <> p -> (In (q, v) t' <-> In (q, v) t)) /\
  (forall v, In (p, v) t' <-> o = Some v).

Inductive lspec_step : table -> lop V -> lout V -> table -> Prop :=
| ls_insert : forall t p len v t',
    updated t (pbits p len) (Some v) t' -> lspec_step t (LInsert p len v) LUnit t'
| ls_delete : forall t p len v t',
    In (pbits p len, v) t -> updated t (pbits p len) None t' ->
    lspec_step t (LDelete p len) (LBool true) t'
| ls_delete_no : forall t p len,
    (forall v, ~ In (pbits p len, v) t) -> lspec_step t (LDelete p len) (LBool false) t
| ls_retrieve : forall t p len o,
    (forall v, o = Some v <-> In (pbits p len, v) t) ->
    lspec_step t (LRetrieve p len) (LVal o) t
| ls_lookup : forall t key r,
    lpm_answer t (bits_of_bytes key) r -> lspec_step t (LLookup key) (LVal r) t
| ls_clear : forall t, lspec_step t LClear LUnit [].

Inductive lspec_run : table -> list (lop V) -> list (lout V) -> table -> Prop :=
| lr_nil : forall t, lspec_run t [] [] t
| lr_cons : forall t o x t' os xs t'',
    lspec_step t o x t' -> lspec_run t' os xs t'' -> lspec_run t (o :: os) (x :: xs) t''.

(** Calls the table code may make on a trie of [kw] bytes: keys are [kw] bytes long and
    prefixes are at most [8*kw] bits. *)
Definition lop_ok (kw : nat) (o : lop V) : Prop :=
  match o with
  | LInsert p len _ | LDelete p len | LRetrieve p len =>
      bytes_ok p /\ length p = kw /\ len <= 8 * kw
  | LLookup key => bytes_ok key /\ length key = kw
  | LClear => True
  end.
End Spec.
Arguments table : clear implicits.
