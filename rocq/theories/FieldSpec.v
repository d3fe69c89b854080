(** Specification of fixed-width fields and of the arithmetic operations, on mathematical integers. *)
From Coq Require Import List Arith NArith ZArith Bool.
From Verif Require Import DataModel FieldModel.
Import ListNotations.
Local Open Scope Z_scope.

(** ** Operations: [opspec o a b r] says that [r] is the result of [o] on [a] and [b]. *)
Definition clamp (lo hi v : Z) : Z := Z.max lo (Z.min hi v).
Inductive opspec : dop -> Z -> Z -> Z -> Prop :=
| os_add : forall a b, opspec DAdd a b (a + b)
| os_sub : forall a b, opspec DSub a b (a - b)
| os_mul : forall a b, opspec DMul a b (a * b)
| os_mod : forall a b q r, 0 <= a -> 0 < b -> a = q * b + r -> 0 <= r < b -> opspec DMod a b r
| os_div : forall a b q r, 0 <= a -> 0 < b -> a = q * b + r -> 0 <= r < b -> opspec DDiv a b q
| os_shl : forall a b, 0 <= b < 2 ^ 32 -> opspec DShl a b (a * 2 ^ b)
| os_shr : forall a b, 0 <= b < 2 ^ 32 -> opspec DShr a b (a / 2 ^ b)
| os_and : forall a b r, (forall i, 0 <= i -> Z.testbit r i = Z.testbit a i && Z.testbit b i) -> opspec DAnd a b r
| os_or : forall a b r, (forall i, 0 <= i -> Z.testbit r i = Z.testbit a i || Z.testbit b i) -> opspec DOr a b r
| os_xor : forall a b r, (forall i, 0 <= i -> Z.testbit r i = xorb (Z.testbit a i) (Z.testbit b i)) -> opspec DXor a b r
| os_neg : forall a b r, r = - a - 1 -> opspec DNeg a b r
| os_twocomp : forall a w r k, 1 <= w < 2 ^ 32 -> - 2 ^ (w - 1) <= r < 2 ^ (w - 1) -> a = r + k * 2 ^ w -> opspec DTwoComp a w r
| os_usat : forall a w, 0 <= w < 2 ^ 32 -> opspec DUsat a w (clamp 0 (2 ^ w - 1) a)
| os_sat : forall a w, 1 <= w < 2 ^ 32 -> opspec DSat a w (clamp (- 2 ^ (w - 1)) (2 ^ (w - 1) - 1) a).
(** Operands for which the operation is defined. *)
Definition indom (o : dop) (a b : Z) : Prop :=
  match o with
  | DMod | DDiv => 0 <= a /\ 0 < b
  | DShl | DShr | DUsat => 0 <= b < 2 ^ 32
  | DTwoComp | DSat => 1 <= b < 2 ^ 32
  | _ => True
  end.

(** ** Field types and the value a field of a type holds after a result [v] is stored in it *)
Record fty := mkTy { ty_bits : nat; ty_signed : bool; ty_sat : bool; ty_VL : bool }.
Definition lo (t : fty) : Z := if ty_signed t then - 2 ^ (Z.of_nat (ty_bits t) - 1) else 0.
Definition hi (t : fty) : Z := if ty_signed t then 2 ^ (Z.of_nat (ty_bits t) - 1) - 1 else 2 ^ Z.of_nat (ty_bits t) - 1.
Definition stored (t : fty) (v : Z) : Z :=
  if ty_sat t then clamp (lo t) (hi t) v else (v - lo t) mod 2 ^ Z.of_nat (ty_bits t) + lo t.
(** The two's-complement big-endian encoding on the smallest number of bytes. *)
Fixpoint be_bytes (n : nat) (v : Z) : list N :=
  match n with O => [] | S n' => Z.to_N ((v / 256 ^ Z.of_nat n') mod 256) :: be_bytes n' v end.
Definition encoding (t : fty) (v : Z) : list N :=
  be_bytes ((ty_bits t + 7) / 8) (v mod 2 ^ Z.of_nat (ty_bits t)).

(** The results that a signed wrapping field stores correctly: all but those in the upper half of the
    unsigned range. *)
Definition storable (t : fty) (v : Z) : Prop :=
  ty_signed t = true -> ty_sat t = false -> ~ (2 ^ (Z.of_nat (ty_bits t) - 1) <= v < 2 ^ Z.of_nat (ty_bits t)).

(** ** Histories.  A field is a type and a value; [None] is the unspecified value of a variable-length
    field that was reset and not extracted since. *)
Definition cell : Type := fty * option Z.
Definition byte_string (b : list N) : Prop := Forall (fun x => (x < 256)%N) b.
Definition wf_ty (t : fty) : Prop := ty_signed t = true -> (1 < ty_bits t)%nat /\ ty_VL t = false.
Definition setc (s : list cell) (d : nat) (c : cell) : list cell := firstn d s ++ c :: skipn (S d) s.
Inductive fspec (s : list cell) : fop -> fout -> list cell -> Prop :=
| fs_new : forall n sg st vl, wf_ty (mkTy n sg st vl) -> fspec s (FNew n sg st vl) FDone (s ++ [(mkTy n sg st vl, Some 0)])
| fs_const : forall d v t x, nth_error s d = Some (t, Some x) -> storable t v ->
    fspec s (FConst d v) FDone (setc s d (t, Some (stored t v)))
| fs_op : forall o d a b t x ta va tb vb r, nth_error s d = Some (t, Some x) -> nth_error s a = Some (ta, Some va) ->
    nth_error s b = Some (tb, Some vb) -> indom o va vb -> opspec o va vb r -> storable t r ->
    fspec s (FOp o d a b) FDone (setc s d (t, Some (stored t r)))
| fs_bytes : forall d b t x v, nth_error s d = Some (t, Some x) -> byte_string b -> lo t <= v <= hi t -> b = encoding t v ->
    fspec s (FBytes d b) FDone (setc s d (t, Some v))
| fs_swap : forall a b t va u vb, nth_error s a = Some (t, va) -> nth_error s b = Some (u, vb) -> a <> b ->
    (t = u \/ (ty_VL t = true /\ ty_VL u = true /\ ty_sat t = ty_sat u)) ->
    fspec s (FSwap a b) FDone (setc (setc s a (u, vb)) b (t, va))
| fs_copy : forall d e t vd u ve, nth_error s d = Some (t, vd) -> nth_error s e = Some (u, ve) ->
    (t = u \/ (ty_VL t = true /\ ty_VL u = true /\ ty_sat t = ty_sat u)) ->
    fspec s (FCopy d e) FDone (setc s d (u, ve))
| fs_extract_VL : forall d n b t x v, nth_error s d = Some (t, x) -> ty_VL t = true -> byte_string b ->
    let t' := mkTy n false (ty_sat t) true in lo t' <= v <= hi t' -> b = encoding t' v ->
    fspec s (FExtractVL d n b) FDone (setc s d (t', Some v))
| fs_assign_VL : forall d e t x u v, nth_error s d = Some (t, x) -> nth_error s e = Some (u, Some v) -> ty_VL t = true -> ty_VL u = true ->
    fspec s (FAssignVL d e) FDone (setc s d (mkTy (ty_bits u) false (ty_sat t) true, Some v))
| fs_reset_VL : forall d t x, nth_error s d = Some (t, x) -> ty_VL t = true ->
    fspec s (FResetVL d) FDone (setc s d (mkTy 0 false (ty_sat t) true, None))
| fs_get : forall d t v, nth_error s d = Some (t, Some v) -> fspec s (FGet d) (FVal v (encoding t v)) s.
Inductive fspec_run : list cell -> list fop -> list fout -> list cell -> Prop :=
| fsr_nil : forall s, fspec_run s [] [] s
| fsr_cons : forall s o x s' os xs s'', fspec s o x s' -> fspec_run s' os xs s'' -> fspec_run s (o :: os) (x :: xs) s''.
