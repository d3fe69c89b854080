(** Specification vocabulary for the parser. *)
From Coq Require Import List Arith NArith ZArith Bool.
From Verif Require Import Bits ExtractSpec PhvModel PhvSpec ParserModel.
Import ListNotations.

(** ** Packets are bit strings; a field of width [w] and value [v] is the [w] bits of [v]. *)
Definition field_bits (f : nat * Z) : list bool := bitsN (fst f) (Z.to_N (snd f mod 2 ^ Z.of_nat (fst f))).
(** [piece] is what the event says was consumed. *)
Definition accounts (piece : list N) (e : event) : Prop :=
  match e with
  | EvHdr _ fs => bits_of_bytes piece = concat (map field_bits fs)
  | EvSkip n => length piece = n
  end.

(** ** What the front end guarantees about a parser *)
(** Fields of a header: no empty fixed-width field, a variable-length field starts on a byte boundary. *)
Fixpoint layout_ok (off : nat) (t : htype) : Prop :=
  match t with
  | [] => True
  | Some w :: r => 0 < w /\ layout_ok ((off + w) mod 8) r
  | None :: r => off = 0 /\ layout_ok 0 r
  end.
Definition n_VL (t : htype) : nat := length (filter (fun w => match w with None => true | Some _ => false end) t).
Record wf_layout (d : desc) : Prop := {
  wl_layout : forall h t, nth_error (ds_h d) h = Some t -> layout_ok 0 (hd_fields t);
  wl_one : forall h t, nth_error (ds_h d) h = Some t -> n_VL (hd_fields t) <= 1 }.
Definition has_VL (d : desc) (h : nat) : Prop := exists t, nth_error (ds_h d) h = Some t /\ In None (hd_fields t).
Definition field_exists (d : desc) (h f : nat) : Prop := exists t, nth_error (ds_h d) h = Some t /\ f < length (hd_fields t).
(** The objects a parse operation names exist. *)
Definition pop_ok (d : desc) (o : pop) : Prop :=
  match o with
  | PExtract h _ => h < length (ds_h d)
  | PExtractStack k _ => k < length (ds_s d)
  | PExtractUStack k i _ => exists e, nth_error (ds_us d) k = Some e /\ forall u, In u e -> exists m, nth_error (ds_u d) u = Some m /\ i < length m
  | PSet h f _ | PSetLook h f _ _ => field_exists d h f
  | PMethod f => forall s, Forall (op_ok d) (f s)
  | PVerify _ _ | PShift _ | PAdvance _ => True
  end.
Definition next_ok (pg : program) (n : option nat) : Prop := match n with None => True | Some i => i < length (pg_states pg) end.
Record prog_ok (d : desc) (pg : program) : Prop := {
  po_init : next_ok pg (pg_init pg);
  po_ops : forall p, In p (pg_states pg) -> Forall (pop_ok d) (st_ops p);
  po_next : forall p, In p (pg_states pg) -> next_ok pg (st_default p) /\ Forall (fun c => next_ok pg (case_next c)) (st_cases p) }.

(** ** Operations that the bounds checks cover completely *)
(** The header that an extraction fills. *)
Definition extracts (d : desc) (o : pop) (h : nat) : Prop :=
  match o with
  | PExtract h' _ => h = h'
  | PExtractStack k _ => exists e, nth_error (ds_s d) k = Some e /\ In h e
  | PExtractUStack k i _ => exists e u m, nth_error (ds_us d) k = Some e /\ In u e /\ nth_error (ds_u d) u = Some m /\ nth_error m i = Some h
  | _ => False
  end.
Definition pop_vl (o : pop) : option ((phv -> Z) * nat) := match o with PExtract _ v | PExtractStack _ v | PExtractUStack _ _ v => v | _ => None end.
(** A header with a variable-length field is extracted with a length; lengths and advances are not negative; a lookahead
    stays in the bytes that are checked. *)
Definition guarded (d : desc) (o : pop) : Prop :=
  (pop_vl o = None -> forall h, extracts d o h -> ~ has_VL d h) /\
  (forall len maxb, pop_vl o = Some (len, maxb) -> forall s, (0 <= len s)%Z) /\
  match o with
  | PSetLook _ _ off w => 0 < w /\ off + w <= 8 * ((w + 7) / 8)
  | PAdvance g => forall s, (0 <= g s)%Z
  | _ => True
  end.
(** ** Select *)
(** The bits that an entry of a select key stands for. *)
Definition field_is (s : phv) (h f : nat) (bits : list bool) : Prop := exists x v, header s h = Some x /\ nth_error (d_fields x) f = Some v /\ bits = field_bits v.
Definition entry_bits (d : desc) (s : phv) (data : list N) (bp : nat) (k : kentry) (bits : list bool) : Prop :=
  match k with
  | KField h f => field_is s h f bits
  | KStack k f => exists e n h, nth_error (ds_s d) k = Some e /\ nth_error (p_s s) k = Some (S n) /\ nth_error e n = Some h /\ field_is s h f bits
  | KUStack k i f => exists e n u h, nth_error (ds_us d) k = Some e /\ nth_error (p_us s) k = Some (S n) /\ nth_error e n = Some u /\ member d u i h /\ field_is s h f bits
  | KLook off w => off + w <= 8 * (length data - bp) /\ bits = firstn w (skipn off (bits_of_bytes (skipn bp data)))
  end.
(** Equality on the bits selected by a mask. *)
Definition agree_on (m a b : list N) : Prop := forall p, nth p (bits_of_bytes m) false = true -> nth p (bits_of_bytes a) false = nth p (bits_of_bytes b) false.
Definition case_matches (env : list vset) (c : case) (key : list N) : Prop :=
  match c with
  | CExact k _ => key = k
  | CMask k m _ => agree_on m k key
  | CVSet i j _ => exists vs sh, nth_error env i = Some vs /\ nth_error vs j = Some sh /\ sh_contains sh key = Some true
  end.
Definition case_sized (env : list vset) (n : nat) (c : case) : Prop :=
  match c with
  | CExact _ _ => True
  | CMask k m _ => length k = n /\ length m = n
  | CVSet i j _ => exists vs sh, nth_error env i = Some vs /\ nth_error vs j = Some sh /\ sh_width sh = n /\ forall m, sh_mask sh = Some m -> length m = n
  end.

(** Static types of key entries; the last element of a stack may be used after it was extracted in the same state. *)
Definition fixed_field (d : desc) (h f w : nat) : Prop := exists t, nth_error (ds_h d) h = Some t /\ nth_error (hd_fields t) f = Some (Some w).
Definition is_method (o : pop) : Prop := match o with PMethod _ => True | _ => False end.
Definition on_top (ops : list pop) (P : pop -> Prop) : Prop := exists l1 o l2, ops = l1 ++ o :: l2 /\ P o /\ forall o', In o' l2 -> ~ is_method o'.
Definition entry_width (d : desc) (ops : list pop) (k : kentry) (w : nat) : Prop :=
  match k with
  | KField h f => fixed_field d h f w
  | KStack k f => (exists e, nth_error (ds_s d) k = Some e /\ forall h, In h e -> fixed_field d h f w) /\ on_top ops (fun o => exists vl, o = PExtractStack k vl)
  | KUStack k i f => (exists e, nth_error (ds_us d) k = Some e /\ forall u, In u e -> exists h, member d u i h /\ fixed_field d h f w) /\ on_top ops (fun o => exists j vl, o = PExtractUStack k j vl)
  | KLook _ _ => False
  end.
Definition key_bytes (ws : list nat) : nat := fold_right Nat.add 0 (map (fun w => (w + 7) / 8) ws).
Definition select_ok (d : desc) (env : nat -> list vset) (p : pstate) : Prop :=
  forall ks, st_key p = Some ks -> exists ws, Forall2 (entry_width d (st_ops p)) ks ws /\ forall n, Forall (case_sized (env n) (key_bytes ws)) (st_cases p).

(** ** Value sets *)
(** After the updates [l], the set has an element satisfying [R]: one was added, and since then the set was not cleared and no
    value satisfying [R] was removed. *)
Definition present (R : list N -> Prop) (l : list vop) : Prop :=
  exists l1 v l2, l = l1 ++ VAdd v :: l2 /\ R v /\ forall o, In o l2 -> o <> VClear /\ forall v', o = VRemove v' -> ~ R v'.
(** [v] is the value of the concatenation of key fields [fs], and [key] the select key for these fields. *)
Definition same_key (fs : list (list bool)) (v key : list N) : Prop := holds (concat fs) v /\ exists bs, Forall2 holds fs bs /\ key = concat bs.
Definition op_sized (ws : list nat) (o : vop) : Prop :=
  match o with VAdd v | VRemove v => exists fs, map (@length bool) fs = ws /\ holds (concat fs) v | VClear => True end.
Definition agrees (mask : option (list N)) (a b : list N) : Prop := match mask with None => a = b | Some m => agree_on m a b end.

(** ** Termination *)
(** An operation that, when it succeeds, consumes at least one byte: an extraction of a header with at least one byte of
    fixed-width fields, or a shift. *)
Definition is_extract (o : pop) : Prop := match o with PExtract _ _ | PExtractStack _ _ | PExtractUStack _ _ _ => True | _ => False end.
Definition consumes (d : desc) (o : pop) : Prop :=
  (is_extract o /\ forall h t, extracts d o h -> nth_error (ds_h d) h = Some t -> 8 <= fixed_bits (hd_fields t)) \/
  (exists n, o = PShift n /\ 0 < n).
Definition edge (pg : program) (i j : nat) : Prop :=
  exists p, nth_error (pg_states pg) i = Some p /\ (st_default p = Some j \/ exists c, In c (st_cases p) /\ case_next c = Some j).
Definition consuming (d : desc) (pg : program) (i : nat) : Prop :=
  exists p o, nth_error (pg_states pg) i = Some p /\ In o (st_ops p) /\ consumes d o.
(** A path of the parse graph, with at least one transition, whose transitions all leave states outside [busy]. *)
Inductive idle_walk (busy : nat -> bool) (pg : program) : nat -> nat -> Prop :=
| iw_one : forall i j, busy i = false -> edge pg i j -> idle_walk busy pg i j
| iw_step : forall i k j, busy i = false -> edge pg i k -> idle_walk busy pg k j -> idle_walk busy pg i j.
(** Every cycle of the parse graph goes through a state of [busy], and every state of [busy] has a consuming operation. *)
Definition cycles_consume (d : desc) (pg : program) : Prop :=
  exists busy, (forall i, busy i = true -> consuming d pg i) /\ forall i, ~ idle_walk busy pg i i.
