(** Specification of saved meters: rates that are decimals of at most six significant digits. *)
From Coq Require Import List NArith ZArith Reals.
From Flocq Require Import Core BinarySingleNaN.
From Verif Require Import MeterModel PiResModel PiRateModel PiRateSpec.
Import ListNotations.

Definition r10 : radix := Build_radix 10 eq_refl.
(** The double nearest to [k * 10^j], where [k] has at most six digits; or 0 *)
Definition six_digits (f : dbl) : Prop :=
  f = B754_zero false \/
  exists k j : Z, (0 < k < 1000000)%Z /\ (-290 <= j <= 290)%Z /\ is_finite f = true /\
    B2R f = round radix2 (FLT_exp (-1074) 53) ZnearestE (IZR k * bpow r10 j).
(** An integer rate, in units per second, of at most six significant digits *)
Definition six_digits_int (r : N) : Prop := exists k j : N, (k < 1000000 /\ r = k * 10 ^ j)%N.

(** All the rates that [get_rates] returns satisfy [P] *)
Definition all_rates (P : dbl -> Prop) (m : meter dbl) : Prop :=
  Forall (fun p => exists f, fst p = Some f /\ P f) (mt_get_rates m).
(** 0, or between 10^-10 and 2^64 units per microsecond *)
Definition usual (f : dbl) : Prop :=
  f = B754_zero false \/ (is_finite f = true /\ (/ 10000000000 <= B2R f <= IZR (2 ^ 64))%R).
(** Two configurations that differ by a factor of at most 1 + 1/199999 in each rate *)
Definition close_config (l l' : list (option dbl * N)) : Prop :=
  Forall2 (fun p p' => snd p' = snd p /\ exists f f', fst p = Some f /\ fst p' = Some f' /\
             (Rabs (B2R f' - B2R f) <= B2R f / 199999)%R) l l'.
(** An array of the same program: as many meters with as many rates *)
Definition same_shape (ms ms0 : list (meter dbl)) : Prop :=
  Forall2 (fun m m0 => length (mt_rates m) = length (mt_rates m0)) ms ms0.

(** Rates used in a sequence of calls of the PI *)
Definition rates_in (P : N -> Prop) (o : pop) : Prop :=
  match o with PSet _ s => s = all_ones \/ (P (ms_cir s) /\ P (ms_pir s)) | _ => True end.
(** Integer rates that differ by at most 1/199990 and one unit per second *)
Definition close_rate (a b : N) : Prop := (199990 * (N.max a b - N.min a b) <= a + 200000)%N.
Definition close_spec (s s' : mspec) : Prop :=
  close_rate (ms_cir s) (ms_cir s') /\ close_rate (ms_pir s) (ms_pir s') /\ ms_cb s' = ms_cb s /\ ms_pb s' = ms_pb s.
