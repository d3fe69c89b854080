(** Model of saving and restoring an array of meters as text, with the digits of the rates that are
    written: Meter and MeterArray serialize and deserialize, src/bm_sim/meters.cpp:96-117 and 167-175.  The
    code prints a double to a stream with the default precision, 6 significant digits.
    Simplifications: a printed number is its digits and exponent, not the characters of the %g
    format; negative, infinite and undefined rates are left out ([None]), as is a text that does not
    have the expected shape.  The meters are those of MeterModel.v, doubles those of PiRateModel.v;
    printing and reading numbers are those of glibc, both correctly rounded to nearest. *)
From Coq Require Import List Arith NArith ZArith Bool.
From Flocq Require Import Core BinarySingleNaN.
From Verif Require Import Base MeterModel PiRateModel.
Import ListNotations.

(** [n / d] rounded to the nearest integer, ties to even *)
Definition rne (n d : Z) : Z :=
  let q := (n / d)%Z in
  match (2 * (n mod d) ?= d)%Z with
  | Lt => q
  | Gt => (q + 1)%Z
  | Eq => if Z.even q then q else (q + 1)%Z
  end.
(** The power of ten of the first digit of [n / d], and the number without it: between 1 and 10 *)
Fixpoint norm_up (fuel : nat) (n d x : Z) : Z * Z * Z :=
  match fuel with
  | O => (n, d, x)
  | S f => if (10 * d <=? n)%Z then norm_up f n (10 * d)%Z (x + 1)%Z else (n, d, x)
  end.
Fixpoint norm_down (fuel : nat) (n d x : Z) : Z * Z * Z :=
  match fuel with
  | O => (n, d, x)
  | S f => if (n <? d)%Z then norm_down f (10 * n)%Z d (x - 1)%Z else (n, d, x)
  end.
Definition norm (n d : Z) : Z * Z * Z :=
  if (n <? d)%Z then norm_down (Z.to_nat (Z.log2 d + 1)) n d 0 else norm_up (Z.to_nat (Z.log2 n + 1)) n d 0.

(** A printed number: 0, or digits [q] (six of them, 10^5 <= q < 10^6) standing for q * 10^(x-5) *)
Inductive dnum := DZero | DNum (q x : Z).
(** [out << f], the %g format with 6 digits *)
Definition print_frac (n d : Z) : dnum :=
  let '(n', d', x) := norm n d in
  let q := rne (100000 * n') d' in
  if (q =? 1000000)%Z then DNum 100000 (x + 1) else DNum q x.
Definition d_print (f : dbl) : option dnum :=
  match f with
  | B754_zero false => Some DZero
  | B754_finite false m e _ =>
      Some (if (0 <=? e)%Z then print_frac (Z.pos m * 2 ^ e) 1 else print_frac (Z.pos m) (2 ^ (- e)))
  | _ => None
  end.
(** [in >> f]: the double nearest to a fraction (as the division of IEEE 754, whose operands here need not
    be doubles) *)
Definition frac_dbl (n d : positive) : dbl :=
  SF2B _ (proj1 (Bdiv_correct_aux 53 1024 prec_ok emax_ok mode_NE false n 0 false d 0)).
Definition d_scan (s : dnum) : option dbl :=
  match s with
  | DZero => Some (B754_zero false)
  | DNum (Z.pos q) x =>
      let f := frac_dbl (q * Z.to_pos (10 ^ Z.max 0 (x - 5))) (Z.to_pos (10 ^ Z.max 0 (5 - x))) in
      if is_finite f then Some f else None
  | _ => None
  end.

(** The text *)
Inductive mtok := KConf (b : bool) | KRate (s : dnum) | KBurst (b : N).

(** the loop of serialize, 101-102; the initial rate 0.0 is not in a configured meter *)
Fixpoint save_rates (l : list (option dbl * N)) : option (list mtok) :=
  match l with
  | [] => Some []
  | (Some f, b) :: r =>
      match d_print f, save_rates r with
      | Some s, Some t => Some (KRate s :: KBurst b :: t)
      | _, _ => None
      end
  | (None, _) :: _ => None
  end.
(** Meter::serialize 96-104 *)
Definition m_save (m : meter dbl) : option (list mtok) :=
  match mt_dump m with
  | None => Some [KConf false]
  | Some l => match save_rates l with Some t => Some (KConf true :: t) | None => None end
  end.
(** the loop of deserialize 110-115: as many rates as the meter has *)
Fixpoint load_rates (n : nat) (t : list mtok) : option (list (dbl * N) * list mtok) :=
  match n with
  | O => Some ([], t)
  | S n =>
      match t with
      | KRate s :: KBurst b :: t =>
          match d_scan s, load_rates n t with
          | Some f, Some (l, t') => Some ((f, b) :: l, t')
          | _, _ => None
          end
      | _ => None
      end
  end.
(** Meter::deserialize 106-117 *)
Definition m_load (m : meter dbl) (t : list mtok) : option (meter dbl * list mtok) :=
  match t with
  | KConf false :: t => Some (mt_load d_gt m None, t)
  | KConf true :: t =>
      match load_rates (length (mt_rates m)) t with
      | Some (l, t') => Some (mt_load d_gt m (Some l), t')
      | None => None
      end
  | _ => None
  end.
(** MeterArray::serialize, deserialize 167-175 *)
Fixpoint ma_save (ms : list (meter dbl)) : option (list mtok) :=
  match ms with
  | [] => Some []
  | m :: r => match m_save m, ma_save r with Some a, Some b => Some (a ++ b) | _, _ => None end
  end.
Fixpoint ma_load (ms : list (meter dbl)) (t : list mtok) : option (list (meter dbl) * list mtok) :=
  match ms with
  | [] => Some ([], t)
  | m :: r =>
      match m_load m t with
      | Some (m', t') =>
          match ma_load r t' with Some (r', t'') => Some (m' :: r', t'') | None => None end
      | None => None
      end
  end.
