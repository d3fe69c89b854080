(** Specification vocabulary for the packet header vector. *)
From Coq Require Import List Arith ZArith Bool.
From Verif Require Import PhvModel.
Import ListNotations.

(** A header [h] is a member (number [i]) of union [u]. *)
Definition member (d : desc) (u i h : nat) : Prop := exists m, nth_error (ds_u d) u = Some m /\ nth_error m i = Some h.
Definition in_union (d : desc) (h : nat) : Prop := exists u i, member d u i h.
Definition siblings (d : desc) (h h' : nat) : Prop := exists u i i', member d u i h /\ member d u i' h' /\ i <> i'.
Definition same_type (d : desc) (h h' : nat) : Prop :=
  exists t t', nth_error (ds_h d) h = Some t /\ nth_error (ds_h d) h' = Some t' /\ hd_ty t = hd_ty t'.
Definition meta (d : desc) (h : nat) : Prop := exists t, nth_error (ds_h d) h = Some t /\ hd_meta t = true.
Definition fixed_bits (t : htype) : nat := fold_right Nat.add 0 (map (fun w => match w with Some w => w | None => 0 end) t).

(** What the P4 front end guarantees about a program: header types are consistent, headers are a whole number of bytes,
    a header belongs to at most one union, elements of a stack are distinct, of one type, not metadata and not
    union members; unions of a stack have the same shape. *)
Record wf (d : desc) : Prop := {
  wf_ty : forall h h' t t', nth_error (ds_h d) h = Some t -> nth_error (ds_h d) h' = Some t' -> hd_ty t = hd_ty t' -> hd_fields t = hd_fields t';
  wf_size : forall h t, nth_error (ds_h d) h = Some t -> fixed_bits (hd_fields t) mod 8 = 0;
  wf_u_disj : forall u i u' i' h, member d u i h -> member d u' i' h -> u = u' /\ i = i';
  wf_u_range : forall u i h, member d u i h -> h < length (ds_h d) /\ ~ meta d h;
  wf_s_nodup : forall k e, nth_error (ds_s d) k = Some e -> NoDup e;
  wf_s_el : forall k e h h', nth_error (ds_s d) k = Some e -> In h e -> In h' e -> same_type d h h' /\ ~ in_union d h /\ ~ meta d h;
  wf_us_nodup : forall k e, nth_error (ds_us d) k = Some e -> NoDup e;
  wf_us_el : forall k e u u', nth_error (ds_us d) k = Some e -> In u e -> In u' e ->
    exists m m', nth_error (ds_u d) u = Some m /\ nth_error (ds_u d) u' = Some m' /\ Forall2 (same_type d) m m' }.

(** Operations a type-correct program can issue. *)
Definition unions_match (d : desc) (u u' : nat) : Prop :=
  exists m m', nth_error (ds_u d) u = Some m /\ nth_error (ds_u d) u' = Some m' /\ Forall2 (same_type d) m m'.
Definition op_ok (d : desc) (o : op) : Prop :=
  match o with
  | OExtract h vl vals => exists t, nth_error (ds_h d) h = Some t /\ length vals = length (hd_fields t) /\ vl mod 8 = 0
  | OExtractNext k vl vals => exists e, nth_error (ds_s d) k = Some e /\ vl mod 8 = 0 /\ forall h t, In h e -> nth_error (ds_h d) h = Some t -> length vals = length (hd_fields t)
  | OAdd h | OAddFast h | ORemove h => h < length (ds_h d)
  | OAssign a b => same_type d a b
  | OAssignU a b => unions_match d a b
  | OAssignS a b => exists e e', nth_error (ds_s d) a = Some e /\ nth_error (ds_s d) b = Some e' /\ Forall2 (same_type d) e e'
  | OAssignUS a b => exists e e', nth_error (ds_us d) a = Some e /\ nth_error (ds_us d) b = Some e' /\ Forall2 (unions_match d) e e'
  | OPush k _ => exists e, nth_error (ds_s d) k = Some e /\ e <> []
  | OPop k _ | OPushBack k | OPopBack k => k < length (ds_s d)
  | OPushU k _ => exists e, nth_error (ds_us d) k = Some e /\ e <> []
  | OPopU k _ | OPushBackU k => k < length (ds_us d)
  | OSet h f _ => exists t, nth_error (ds_h d) h = Some t /\ f < length (hd_fields t)
  | ORecycle | OResetMeta => True
  end.
(** The two uses of header assignment that break the agreement of the validity flags (findings, see PhvProps). *)
Definition op_agree (d : desc) (o : op) : Prop :=
  match o with OAssign a b => ~ siblings d a b /\ (meta d b -> meta d a) | _ => True end.

(** Number of valid headers among the members of a union. *)
Definition n_valid (s : phv) (m : list nat) : nat :=
  length (filter (fun h => match nth_error (p_h s) h with Some x => d_valid x | None => false end) m).
(** HeaderUnion::get_valid_header (header_unions.h 76-78) *)
Definition get_valid_header (d : desc) (s : phv) (u : nat) : option nat :=
  match nth_error (p_u s) u, nth_error (ds_u d) u with
  | Some (true, i), Some m => nth_error m i
  | _, _ => None
  end.

(** Header vectors reachable from a new one by operations of a type-correct program; [reach_ag]: without the two uses
    of header assignment above. *)
Definition reach (legacy : bool) (d : desc) (s : phv) : Prop := exists l, Forall (op_ok d) l /\ run legacy d (create d) l = Some s.
Definition reach_ag (legacy : bool) (d : desc) (s : phv) : Prop := exists l, Forall (op_ok d) l /\ Forall (op_agree d) l /\ run legacy d (create d) l = Some s.
Definition header (s : phv) (h : nat) : option hdr := nth_error (p_h s) h.
(** Element number [i] of a stack with elements [e]. *)
Definition element (e : list nat) (s : phv) (i : nat) : option hdr := match nth_error e i with Some h => header s h | None => None end.
Definition invalid (x : option hdr) : Prop := exists y, x = Some y /\ d_valid y = false /\ d_vf y = false.
Definition valid (x : option hdr) : Prop := exists y, x = Some y /\ d_valid y = true /\ d_vf y = true.
(** Contents of a union: which member it reports as valid, and its headers. *)
Definition union_view (d : desc) (s : phv) (u : nat) : option (bool * nat) * list (option hdr) :=
  (nth_error (p_u s) u, match nth_error (ds_u d) u with Some m => map (header s) m | None => [] end).
Definition uelement (d : desc) (e : list nat) (s : phv) (i : nat) := match nth_error e i with Some u => union_view d s u | None => (None, []) end.
(** What a packet-processing program can see of a header vector: the validity of every header (both flags), the contents of
    valid headers and of metadata, the valid member of every union, the stack indexes. *)
Definition hdr_eq (t : hdesc) (x y : hdr) : Prop := d_valid x = d_valid y /\ d_vf x = d_vf y /\ (hd_meta t || d_valid x = true -> x = y).
Record same_view (d : desc) (s r : phv) : Prop := {
  sv_h : forall h t, nth_error (ds_h d) h = Some t -> exists x y, header s h = Some x /\ header r h = Some y /\ hdr_eq t x y;
  sv_u : forall u, get_valid_header d s u = get_valid_header d r u;
  sv_s : p_s s = p_s r;
  sv_us : p_us s = p_us r }.
(** The operations whose effect depends on the contents of an invalid header: making a header valid without
    writing it, and adding a header with a variable-length field (it keeps its last length). *)
Definition op_blind (legacy : bool) (d : desc) (o : op) : Prop :=
  match o with
  | OAddFast _ | OPushBack _ => False
  | OAdd h => forall t, nth_error (ds_h d) h = Some t -> existsb (fun w => match w with None => true | Some _ => false end) (hd_fields t) = false
  | OPush _ _ => legacy = false
  | _ => True
  end.
