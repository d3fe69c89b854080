(** Model of meters (include/bm/bm_sim/meters.h:60-190, src/bm_sim/meters.cpp).
    A rate is an element of an arbitrary type [RT] (double in the code); [acc r t] is
    [static_cast<uint64_t>(t * r)], the tokens accrued [t] microseconds after the creation of the
    meter, and [gt] is [>] on rates.  Time is given in microseconds since the creation of the meter
    ([micros_since_init]).  Simplifications: each call is atomic (the code takes the meter's lock,
    but reads [configured] and the clock just before it); [reset_time_origin], used by tests
    only, is left out.  A failing assertion is [None]. *)
From Coq Require Import List Arith NArith Bool.
From Verif Require Import Base.
Import ListNotations.

Section Meter.
Context {RT : Type}.
Variables (acc : RT -> N -> N) (gt : RT -> RT -> bool).

(** MeterRate, meters.h:157-164 ([valid] is never read) *)
Record mrate := mkRate {
  mt_rate : option RT;      (* info_rate; [None]: the initial 0.0 *)
  mt_burst : N; mt_tokens : N; mt_last : N; mt_color : nat }.
Record meter := mkMeter { mt_bytes : bool; mt_rates : list mrate; mt_conf : bool }.

Definition mt_new (bytes : bool) (n : nat) : meter :=
  mkMeter bytes (repeat (mkRate None 0 0 0 0) n) false.

Inductive mtcode := MtOk | MtBadList | MtBadRate.

(** Tokens accrued at a rate; the initial rate 0.0 accrues nothing. *)
Definition accd (r : option RT) (t : N) : N := match r with Some r => acc r t | None => 0%N end.

(** set_rate 27-40: writes element [idx], then compares with its predecessor *)
Definition set_rate (rs : list mrate) (idx : nat) (cfg : RT * N) : list mrate * mtcode :=
  let rs' := list_set rs idx (mkRate (Some (fst cfg)) (snd cfg) (snd cfg) 0 (S idx)) in
  match idx with
  | O => (rs', MtOk)
  | S p => match nth_error rs' p with
           | Some (mkRate (Some r) _ _ _ _) =>
               if gt r (fst cfg) then (rs', MtBadRate) else (rs', MtOk)
           | _ => (rs', MtOk)
           end
  end.
(** the loop of set_rates, meters.h:117-121 *)
Fixpoint set_loop (rs : list mrate) (idx : nat) (cfgs : list (RT * N)) : list mrate * mtcode :=
  match cfgs with
  | [] => (rs, MtOk)
  | c :: r => match set_rate rs idx c with
              | (rs', MtOk) => set_loop rs' (S idx) r
              | (rs', e) => (rs', e)
              end
  end.
(** set_rates, meters.h:103-126 *)
Definition mt_set_rates (m : meter) (cfgs : list (RT * N)) : meter * mtcode :=
  if negb (length cfgs =? length (mt_rates m)) then (m, MtBadList)
  else match set_loop (mt_rates m) 0 cfgs with
       | (rs, MtOk) => (mkMeter (mt_bytes m) (rev rs) true, MtOk)
       | (rs, e) => (mkMeter (mt_bytes m) rs (mt_conf m), e)
       end.

(** reset_rates 43-50 *)
Definition mt_reset (m : meter) : meter := mkMeter (mt_bytes m) (mt_rates m) false.

(** the loop of execute 74-91; [size_t] and [uint64_t] are 64-bit *)
Fixpoint ex_loop (input t : N) (rs : list mrate) : option (list mrate * nat) :=
  match rs with
  | [] => Some ([], 0)
  | r :: rest =>
      let since := accd (mt_rate r) t in
      if (since <? mt_last r)%N then None
      else
        let fresh := (since - mt_last r)%N in
        let tokens := N.min ((mt_tokens r + fresh) mod 2 ^ 64) (mt_burst r) in
        if (tokens <? input)%N
        then Some (mkRate (mt_rate r) (mt_burst r) tokens since (mt_color r) :: rest, mt_color r)
        else match ex_loop input t rest with
             | None => None
             | Some (rest', c) =>
                 Some (mkRate (mt_rate r) (mt_burst r) (tokens - input) since (mt_color r) :: rest', c)
             end
  end.
(** execute 58-94 *)
Definition mt_execute (m : meter) (len : N) (pre : nat) (t : N) : option (meter * nat) :=
  if negb (mt_conf m) then Some (m, 0)
  else let input := if mt_bytes m then len else 1%N in
       match ex_loop input t (mt_rates m) with
       | None => None
       | Some (rs, c) => Some (mkMeter (mt_bytes m) rs true, Nat.max pre c)
       end.

(** get_rates 126-136 *)
Definition mt_get_rates (m : meter) : list (option RT * N) :=
  if mt_conf m then rev (map (fun r => (mt_rate r, mt_burst r)) (mt_rates m)) else [].

(** serialize 96-104: the rates in the stored order; deserialize 106-117 *)
Definition mt_dump (m : meter) : option (list (option RT * N)) :=
  if mt_conf m then Some (map (fun r => (mt_rate r, mt_burst r)) (mt_rates m)) else None.
Fixpoint load_loop (rs : list mrate) (idx : nat) (cfgs : list (RT * N)) : list mrate :=
  match cfgs with
  | [] => rs
  | c :: r => load_loop (fst (set_rate rs idx c)) (S idx) r
  end.
Definition mt_load (m : meter) (d : option (list (RT * N))) : meter :=
  match d with
  | None => mkMeter (mt_bytes m) (mt_rates m) false
  | Some cfgs => mkMeter (mt_bytes m) (load_loop (mt_rates m) 0 cfgs) true
  end.

Inductive mtop :=
| MtSet (cfgs : list (RT * N))
| MtReset
| MtExec (len : N) (pre : nat) (t : N)
| MtGet.
Inductive mtout :=
| MtCode (c : mtcode)
| MtColor (c : nat)
| MtRates (l : list (option RT * N)).

Definition mt_step (m : meter) (o : mtop) : option (meter * mtout) :=
  match o with
  | MtSet cfgs => let '(m', c) := mt_set_rates m cfgs in Some (m', MtCode c)
  | MtReset => Some (mt_reset m, MtCode MtOk)
  | MtExec len pre t => match mt_execute m len pre t with
                        | Some (m', c) => Some (m', MtColor c) | None => None end
  | MtGet => Some (m, MtRates (mt_get_rates m))
  end.
Fixpoint mt_run (m : meter) (ops : list mtop) : option (meter * list mtout) :=
  match ops with
  | [] => Some (m, [])
  | o :: r => match mt_step m o with
              | None => None
              | Some (m', x) => match mt_run m' r with
                                | None => None | Some (m'', xs) => Some (m'', x :: xs) end
              end
  end.
End Meter.
Arguments mrate : clear implicits.
Arguments meter : clear implicits.
Arguments mtop : clear implicits.
Arguments mtout : clear implicits.
