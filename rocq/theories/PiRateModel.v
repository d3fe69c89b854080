(** Model of meter rates in the PI layer, with the arithmetic on doubles that the code does: the
    conversions of PI/src/direct_res_spec.cpp:39-106, the tokens that a rate accrues
    (src/bm_sim/meters.cpp:75-77), and _pi_meter_set and _pi_meter_read (PI/src/pi_meter_imp.cpp:44-85)
    on an array of the meters of MeterModel.v.  A double is a binary64 number of the IEEE 754
    library Flocq, rounded to nearest, ties to even.  Simplifications: the meter array is found by its name;
    all the meters are created at time 0; the two conversion routines of the code, for bytes and for
    packets, are the same one; a cast out of range (undefined behaviour), an index out of range
    in a packet and [rates.at] on a short list are [None]. *)
From Coq Require Import List Arith NArith ZArith Bool.
From Flocq Require Import Core BinarySingleNaN.
From Verif Require Import Base MeterModel PiResModel.
Import ListNotations.

(** double, and [>] on doubles *)
#[global] Instance prec_ok : Prec_gt_0 53 := eq_refl.
#[global] Instance emax_ok : Prec_lt_emax 53 1024 := eq_refl.
Definition dbl := binary_float 53 1024.
Definition d_gt (a b : dbl) : bool := match Bcompare a b with Some Gt => true | _ => false end.
(** [static_cast<double>] of an integer below 2^64 *)
Definition d_of (n : N) : dbl := binary_normalize 53 1024 prec_ok emax_ok mode_NE (Z.of_N (n mod 2 ^ 64)) 0 false.
(** [static_cast<uint64_t>] of a double *)
Definition d_to (f : dbl) : option N :=
  if is_finite f && (0 <=? Btrunc f)%Z && (Btrunc f <? 2 ^ 64)%Z then Some (Z.to_N (Btrunc f)) else None.

(** conv_packets, conv_bytes, direct_res_spec.cpp:52-63 *)
Definition rate_of (r : N) : dbl := Bdiv mode_NE (d_of r) (d_of 1000000).
(** conv_packets, conv_bytes, direct_res_spec.cpp:79-88; a rate never set is 0.0 *)
Definition rate_back (f : option dbl) : option N :=
  match f with
  | None => Some 0%N
  | Some f => d_to (Bmult mode_NE f (d_of 1000000))
  end.

(** [static_cast<uint64_t>(micros_since_init * rate.info_rate)], meters.cpp:75-77 *)
Definition tokens (f : dbl) (t : N) : option N := d_to (Bmult mode_NE (d_of t) f).
(** For MeterModel.v, whose accrual is total: the largest value where the cast is undefined.  The
    time is an int64_t. *)
Definition tokens_tot (f : dbl) (t : N) : N :=
  if (t <? 2 ^ 63)%N then match tokens f t with Some n => n | None => max64 end else max64.

(** Meter::MeterErrorCode *)
Inductive pcode := POk | PBadIndex | PBadList | PBadRate.
Definition p_code (c : mtcode) : pcode :=
  match c with MtOk => POk | MtBadList => PBadList | MtBadRate => PBadRate end.

Inductive pop :=
| PSet (i : nat) (s : mspec)
| PRead (i : nat)
| PPkt (i : nat) (len : N) (pre : nat) (t : N).
Inductive pout := PCode (c : pcode) | PSpec (s : mspec) | PColor (c : nat).

Definition pm_new (bytes : bool) (nrates size : nat) : list (meter dbl) :=
  repeat (mt_new bytes nrates) size.

(** convert_to_meter_spec, direct_res_spec.cpp:75-106 *)
Definition spec_back (l : list (option dbl * N)) : option mspec :=
  match l with
  | [] => Some (mkMS max64 max32 max64 max32)
  | (r0, b0) :: (r1, b1) :: _ =>
      match rate_back r0, rate_back r1 with
      | Some c, Some p => Some (mkMS c (b0 mod 2 ^ 32) p (b1 mod 2 ^ 32))
      | _, _ => None
      end
  | _ => None
  end.

(** One rate of a configured meter: the cast is defined.  The code stops at the first rate that lacks
    tokens; here the casts of all rates must be defined. *)
Definition cast_ok (t : N) (r : mrate dbl) : bool :=
  match mt_rate r with
  | None => true
  | Some f => match tokens f t with Some _ => true | None => false end
  end.

(** _pi_meter_set 64-85 and _pi_meter_read 44-62 with Context::meter_set_rates, meter_reset_rates and
    meter_get_rates (context.cpp:562-592); Meter::execute *)
Definition pm_step (ms : list (meter dbl)) (o : pop) : option (list (meter dbl) * pout) :=
  match o with
  | PSet i s =>
      match nth_error ms i with
      | None => Some (ms, PCode PBadIndex)
      | Some m =>
          match from_spec rate_of s with
          | [] => Some (list_set ms i (mt_reset m), PCode POk)
          | rates => let '(m', c) := mt_set_rates d_gt m rates in Some (list_set ms i m', PCode (p_code c))
          end
      end
  | PRead i =>
      match nth_error ms i with
      | None => Some (ms, PCode PBadIndex)
      | Some m => match spec_back (mt_get_rates m) with Some s => Some (ms, PSpec s) | None => None end
      end
  | PPkt i len pre t =>
      match nth_error ms i with
      | None => None
      | Some m =>
          if mt_conf m && negb (forallb (cast_ok t) (mt_rates m)) then None
          else match mt_execute tokens_tot m len pre t with
               | Some (m', c) => Some (list_set ms i m', PColor c)
               | None => None
               end
      end
  end.
Fixpoint pm_run (ms : list (meter dbl)) (ops : list pop) : option (list (meter dbl) * list pout) :=
  match ops with
  | [] => Some (ms, [])
  | o :: r => match pm_step ms o with
              | None => None
              | Some (ms', x) => match pm_run ms' r with
                                 | None => None
                                 | Some (ms'', xs) => Some (ms'', x :: xs)
                                 end
              end
  end.
