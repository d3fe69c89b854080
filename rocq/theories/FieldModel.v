(** Model of Field (include/bm/bm_sim/fields.h 38-230, src/bm_sim/fields.cpp 26-142).

    The notification and written_to machinery is left out.  [zr] is true when the field belongs to an
    invalid header and reads of invalid headers return zero (fields.cpp 155-169); it is false by default. *)
From Coq Require Import List Arith NArith ZArith Bool.
From Verif Require Import Bits Bytes DataModel.
Import ListNotations.
Local Open Scope Z_scope.

Record field := mkF {
  f_nbits : nat; f_nbytes : nat; f_bytes : list N;
  f_signed : bool; f_sat : bool; f_arith : bool; f_VL : bool;
  f_mask : Z; f_max : Z; f_min : Z; f_value : Z }.
Definition nbytes_for (n : nat) : nat := ((n + 7) / 8)%nat.

(** constructor, fields.cpp 26-45 *)
Definition f_new (nbits : nat) (arith sgn sat vl : bool) : option field :=
  let nb := nbytes_for nbits in
  let mask := Z.shiftl 1 (Z.of_nat nbits) - 1 in
  if sgn
  then if (1 <? nbits)%nat
       then Some (mkF nbits nb (repeat 0%N nb) sgn sat arith vl mask (Z.shiftl 1 (Z.of_nat nbits - 1) - 1) (Z.shiftl 1 (Z.of_nat nbits - 1) * -1) 0)
       else None
  else Some (mkF nbits nb (repeat 0%N nb) sgn sat arith vl mask mask 0 0).

Definition with_value (f : field) (v : Z) : field :=
  mkF (f_nbits f) (f_nbytes f) (f_bytes f) (f_signed f) (f_sat f) (f_arith f) (f_VL f) (f_mask f) (f_max f) (f_min f) v.
Definition with_bytes (f : field) (b : list N) : field :=
  mkF (f_nbits f) (f_nbytes f) b (f_signed f) (f_sat f) (f_arith f) (f_VL f) (f_mask f) (f_max f) (f_min f) (f_value f).

(** get_value, fields.cpp 155-169 *)
Definition f_get (zr : bool) (f : field) : Z := if zr then 0 else f_value f.

(** export_bytes, fields.h 96-130 *)
Definition f_export (zr : bool) (f : field) : option field :=
  let zeros := repeat 0%N (length (f_bytes f)) in
  let v0 := f_get zr f in
  let v1 := if f_sat f then if v0 <? f_min f then f_min f else if v0 >? f_max f then f_max f else v0 else v0 in
  let v2 := if negb (f_signed f) then Z.land v1 (f_mask f)
            else if (v1 <? f_min f) || (v1 >? f_mask f)
                 then let w := Z.land v1 (f_mask f) in if w >? f_max f then w - (f_mask f + 1) else w
                 else v1 in
  let out := if negb (f_signed f) then v2 else if v2 >=? 0 then v2 else v2 - f_min f - f_min f in
  match export_bytes (f_nbytes f) zeros out with
  | None => None
  | Some b => let f' := with_bytes f b in Some (if v2 =? v0 then f' else with_value f' v2)
  end.
(** Every Data setter and operation: store the result, then export *)
Definition f_set (zr : bool) (f : field) (v : Z) : option field := f_export zr (with_value f v).

(** sync_value, fields.h 61-71 *)
Definition f_sync (f : field) : field :=
  let v := import_bytes (firstn (f_nbytes f) (f_bytes f)) in
  let v' := if f_signed f && Z.testbit v (Z.of_nat (f_nbits f) - 1)
            then Z.clearbit v (Z.of_nat (f_nbits f) - 1) + f_min f else v in
  with_value f v'.
(** set_bytes, fields.h 55-59; [extract] (fields.cpp 67-74) does the same with the bytes that
    generic_extract writes *)
Definition f_set_bytes (f : field) (b : list N) : option field :=
  if (length b =? f_nbytes f)%nat
  then let f' := with_bytes f (b ++ skipn (f_nbytes f) (f_bytes f)) in Some (if f_arith f then f_sync f' else f')
  else None.

(** swap_values, fields.cpp 52-66 *)
Definition f_swap (a b : field) : field * field :=
  let half x y := mkF (if f_VL a then f_nbits y else f_nbits x) (if f_VL a then f_nbytes y else f_nbytes x) (f_bytes y)
                      (f_signed x) (f_sat x) (f_arith x) (f_VL x)
                      (if f_VL a then f_mask y else f_mask x) (if f_VL a then f_max y else f_max x) (if f_VL a then f_min y else f_min x)
                      (f_value y) in
  (half a b, half b a).
(** copy_value, fields.cpp 129-141 *)
Definition f_copy (zr : bool) (d s : field) : field :=
  mkF (if f_VL d then f_nbits s else f_nbits d) (if f_VL d then f_nbytes s else f_nbytes d) (f_bytes s)
      (f_signed d) (f_sat d) (f_arith d) (f_VL d)
      (if f_VL d then f_mask s else f_mask d) (if f_VL d then f_max s else f_max d) (if f_VL d then f_min s else f_min d)
      (f_get zr s).

Definition resize_bytes (n : nat) (l : list N) : list N := firstn n l ++ repeat 0%N (n - length l).
(** extract_VL, fields.cpp 77-92, with the bytes generic_extract writes (variable-length fields are created
    with 0 bits, so the constructor's assertion rules out signed ones) *)
Definition f_extract_VL (f : field) (n : nat) (b : list N) : option field :=
  let nb := nbytes_for n in
  let mask := Z.shiftl 1 (Z.of_nat n) - 1 in
  let f1 max min := mkF n nb (resize_bytes nb (f_bytes f)) (f_signed f) (f_sat f) (f_arith f) (f_VL f) mask max min (f_value f) in
  if f_signed f
  then if (1 <? n)%nat
       then f_set_bytes (f1 (Z.shiftl (f_max f) (Z.of_nat n - 1) - 1) (Z.shiftl (f_min f) (Z.of_nat n - 1) * -1)) b else None
  else f_set_bytes (f1 mask 0) b.
(** assign_VL, fields.cpp 103-114 *)
Definition f_assign_VL (zr : bool) (d s : field) : option field :=
  if f_VL d
  then f_set zr (mkF (f_nbits s) (f_nbytes s) (resize_bytes (f_nbytes s) (f_bytes d)) (f_signed d) (f_sat d) (f_arith d) (f_VL d)
                  (f_mask s) (f_max s) (f_min s) (f_value d)) (f_get zr s)
  else None.
(** reset_VL, fields.cpp 116-126 *)
Definition f_reset_VL (f : field) : option field :=
  if f_VL f
  then Some (mkF 0 0 (f_bytes f) (f_signed f) (f_sat f) (f_arith f) (f_VL f) 1
               (if f_signed f then 1 else f_max f) (if f_signed f then 1 else f_min f) (f_value f))
  else None.

(** Histories over a set of fields.  All fields here are arithmetic (the compiler marks every field that is
    used in computations). *)
Inductive fop :=
| FNew (nbits : nat) (sgn sat vl : bool)
| FConst (d : nat) (v : Z)                  (* set(integer) *)
| FOp (o : dop) (d a b : nat)               (* d.op(a, b) *)
| FBytes (d : nat) (b : list N)             (* set_bytes / extract *)
| FSwap (a b : nat) | FCopy (d s : nat)
| FExtractVL (d n : nat) (b : list N) | FAssignVL (d s : nat) | FResetVL (d : nat)
| FGet (d : nat).
Inductive fout := FDone | FVal (v : Z) (b : list N).
Definition put {A} (l : list A) (i : nat) (x : A) : list A := firstn i l ++ x :: skipn (S i) l.

Definition f_step (fs : list field) (o : fop) : option (list field * fout) :=
  let upd d r := match r with Some f => Some (put fs d f, FDone) | None => None end in
  match o with
  | FNew n sgn sat vl => match f_new n true sgn sat vl with Some f => Some (fs ++ [f], FDone) | None => None end
  | FConst d v => match nth_error fs d with Some f => upd d (f_set false f v) | None => None end
  | FOp o d a b => match nth_error fs d, nth_error fs a, nth_error fs b with
                   | Some f, Some x, Some y =>
                       match d_op o (f_get false x) (f_get false y) with Some v => upd d (f_set false f v) | None => None end
                   | _, _, _ => None end
  | FBytes d b => match nth_error fs d with Some f => upd d (f_set_bytes f b) | None => None end
  | FSwap a b => match nth_error fs a, nth_error fs b with
                 | Some x, Some y => let '(x', y') := f_swap x y in Some (put (put fs a x') b y', FDone) | _, _ => None end
  | FCopy d s => match nth_error fs d, nth_error fs s with Some x, Some y => upd d (Some (f_copy false x y)) | _, _ => None end
  | FExtractVL d n b => match nth_error fs d with Some f => upd d (f_extract_VL f n b) | None => None end
  | FAssignVL d s => match nth_error fs d, nth_error fs s with Some x, Some y => upd d (f_assign_VL false x y) | _, _ => None end
  | FResetVL d => match nth_error fs d with Some f => upd d (f_reset_VL f) | None => None end
  | FGet d => match nth_error fs d with Some f => Some (fs, FVal (f_get false f) (firstn (f_nbytes f) (f_bytes f))) | None => None end
  end.
Fixpoint f_run (fs : list field) (ops : list fop) : option (list field * list fout) :=
  match ops with
  | [] => Some (fs, [])
  | o :: r => match f_step fs o with
              | None => None
              | Some (fs', x) => match f_run fs' r with None => None | Some (fs'', xs) => Some (fs'', x :: xs) end
              end
  end.
