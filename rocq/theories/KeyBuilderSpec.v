(** Specification of match keys, field by field and on numbers only. *)
From Coq Require Import List Arith NArith ZArith Bool.
From Verif Require Import Bits Bytes EntryListModel EntryListSpec KeyBuilderModel.
Import ListNotations.

(** The number a packet presents for a key field: 1 or 0 for a validity field, the value of the
    field, 0 if the header is absent (unless the field is one of the hidden ones). *)
Definition field_value (f : kfield) (phv : nat -> pfield) : N :=
  let p := phv (f_ref f) in
  match f_type f with
  | TValid => if pf_valid p then 1 else 0
  | _ => if pf_valid p || pf_hidden p then be_val (pf_bytes p) else 0
  end%N.

(** The static mask of a field, when the program gives one. *)
Definition smask (f : kfield) (x : N) : N :=
  match f_mask f with None => x | Some m => N.land x (be_val m) end.

(** The number an API parameter denotes: only the low [f_bits] bits count. *)
Definition param_value (f : kfield) (p : param) : N :=
  smask f (be_val (p_key p) mod 2 ^ N.of_nat (f_bits f))%N.

(** What it means for the packet to satisfy one parameter. [lpm_shift] is the number of low bits
    a prefix parameter ignores. *)
Definition param_holds_sh (lpm_shift : kfield -> param -> N) (f : kfield) (p : param)
    (phv : nat -> pfield) : Prop :=
  let x := smask f (field_value f phv) in
  let y := param_value f p in
  match f_type f with
  | TValid | TExact => x = y
  | TLpm => N.shiftr x (lpm_shift f p) = N.shiftr y (lpm_shift f p)
  | TTernary => N.land x (be_val (p_mask p)) = N.land y (be_val (p_mask p))
  | TRange => (y <= x <= be_val (p_mask p))%N
  end.

(** A /p prefix of a w-bit field ignores w - p bits. *)
Definition prefix_shift (f : kfield) (p : param) : N := (N.of_nat (f_bits f) - Z.to_N (p_plen p))%N.
Definition param_holds := param_holds_sh prefix_shift.

(** A key of the table is well formed: positive widths, masks as long as their field,
    validity fields as declared by push_back_valid_header. *)
Definition field_ok (f : kfield) : Prop :=
  0 < f_bits f /\ (Z.of_nat (f_bits f) < 2 ^ 32)%Z /\
  (forall m, f_mask f = Some m -> bytes_ok m /\ length m = f_nbytes f) /\
  (f_type f = TValid -> f_bits f = 8 /\ f_mask f = None).

(** Which match types may appear in a table of each kind. *)
Definition type_in (kd : mkind) (t : mtype) : Prop :=
  match kd with
  | KExact => t = TValid \/ t = TExact
  | KLpm => t = TValid \/ t = TExact \/ t = TLpm
  | KTernary => t <> TRange
  | KRange => True
  end.
Definition is_lpm (f : kfield) : bool := match f_type f with TLpm => true | _ => false end.
Definition layout_ok (kd : mkind) (fs : list kfield) : Prop :=
  Forall field_ok fs /\ Forall (fun f => type_in kd (f_type f)) fs /\
  (kd = KLpm -> length (filter is_lpm fs) = 1).

(** C++ typing of a parameter: strings of bytes, a 32-bit int. *)
Definition param_typed (p : param) : Prop :=
  bytes_ok (p_key p) /\ bytes_ok (p_mask p) /\ (- 2 ^ 31 <= p_plen p < 2 ^ 31)%Z.

(** A packet field fits its declared width. *)
Definition phv_ok (fs : list kfield) (phv : nat -> pfield) : Prop :=
  Forall (fun f => f_type f <> TValid ->
    bytes_ok (pf_bytes (phv (f_ref f))) /\ length (pf_bytes (phv (f_ref f))) = f_nbytes f /\
    (be_val (pf_bytes (phv (f_ref f))) < 2 ^ N.of_nat (f_bits f))%N) fs.

(** Which parameters the API must accept for a field. *)
Definition param_acceptable (f : kfield) (p : param) : Prop :=
  p_type p = f_type f /\ length (p_key p) = f_nbytes f /\
  match f_type f with
  | TValid | TExact => True
  | TLpm => (0 <= p_plen p <= Z.of_nat (f_bits f))%Z
  | TTernary => length (p_mask p) = f_nbytes f
  | TRange => length (p_mask p) = f_nbytes f /\ (be_val (p_key p) <= be_val (p_mask p))%N
  end.

(** Total size of the key. *)
Definition key_bytes (fs : list kfield) : nat := list_sum (map f_nbytes fs).

(** Canonical form of a parameter: irrelevant members are reset; the value is reduced to the
    width of the field and to the static mask; in ternary and range tables the bits a ternary or
    prefix parameter does not look at are cleared. *)
Definition canon (kd : mkind) (f : kfield) (p : param) : param :=
  let y := param_value f p in
  let low := N.of_nat (8 * f_nbytes f - Z.to_nat (p_plen p)) in
  let enc := be_enc (f_nbytes f) in
  match f_type f with
  | TValid | TExact => mkParam (f_type f) (enc y) [] 0
  | TTernary => mkParam TTernary (enc (N.land y (be_val (p_mask p)))) (p_mask p) 0
  | TRange => mkParam TRange (enc y) (p_mask p) 0
  | TLpm => mkParam TLpm
      (match kd with
       | KLpm => enc y
       | _ => enc (N.shiftl (N.shiftr y low) low)
       end) [] (p_plen p)
  end.
