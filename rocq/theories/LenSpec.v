(** The length of the packet a header vector stands for. *)
From Coq Require Import List Arith ZArith Bool.
From Verif Require Import PhvModel PhvSpec.
Import ListNotations.

(** Bytes a header contributes to the packet: none if it is metadata or not valid *)
Definition hdr_bytes (d : desc) (s : phv) (h : nat) : nat :=
  match nth_error (ds_h d) h, header s h with
  | Some t, Some x => if negb (hd_meta t) && d_valid x then fold_right (fun f n => fst f + n) 0 (d_fields x) / 8 else 0
  | _, _ => 0
  end.
Definition total (f : nat -> nat) (l : list nat) : nat := fold_right (fun h n => f h + n) 0 l.
(** Bytes of all the headers *)
Definition size (d : desc) (s : phv) : nat := total (hdr_bytes d s) (seq 0 (length (ds_h d))).

(** Operations after which the length is still right: adding a header that is not in a union with a valid one, removing a header that is not
    metadata, and writing fields. *)
Definition kept (d : desc) (s : phv) (o : op) : Prop :=
  match o with
  | OAdd h => forall k x, siblings d h k -> header s k = Some x -> d_valid x = false
  | ORemove h => ~ meta d h
  | OSet _ _ _ | OResetMeta => True
  | _ => False
  end.
Fixpoint kept_all (legacy : bool) (d : desc) (s : phv) (l : list op) : Prop :=
  match l with
  | [] => True
  | o :: r => kept d s o /\ forall s1, step legacy d s o = Some s1 -> kept_all legacy d s1 r
  end.
(** A deparser that emits every header once *)
Definition emits_all (d : desc) (hs : list nat) : Prop := NoDup hs /\ forall h, In h hs <-> (h < length (ds_h d) /\ ~ meta d h).
