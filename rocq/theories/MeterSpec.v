(** Specification of an N-rate, N+1-colour meter: one textbook token bucket per rate, all of them
    refilled continuously.  Nothing here knows about [tokens_last], reversed vectors or colours
    stored with the rates. *)
From Coq Require Import List Arith NArith Bool.
From Verif Require Import MeterModel.
Import ListNotations.

Section Spec.
Context {RT : Type}.
Variables (acc : RT -> N -> N) (gt : RT -> RT -> bool) (bytes : bool) (nrates : nat).

(** [acc r t]: what rate [r] accrues in [t] microseconds. *)
Record bucket := mkB { b_rate : RT; b_burst : N; b_level : N }.

(** Buckets, lowest rate first.  [SUnknown]: a refused reconfiguration left the meter configured
    with an undefined mixture (finding). *)
Inductive mst := SOff | SOn (bs : list bucket) | SUnknown.

Definition refill (t t' : N) (b : bucket) : bucket :=
  mkB (b_rate b) (b_burst b) (N.min (b_burst b) (b_level b + (acc (b_rate b) t' - acc (b_rate b) t))).
Definition spend (n : N) (b : bucket) : bucket := mkB (b_rate b) (b_burst b) (b_level b - n).

(** The colour of a packet of size [n]: one more than the index of the highest-rate bucket that
    lacks tokens, 0 when none does. *)
Definition verdict (bs : list bucket) (n : N) (c : nat) : Prop :=
  (c = 0 /\ Forall (fun b => (n <= b_level b)%N) bs) \/
  (exists k b, c = S k /\ nth_error bs k = Some b /\ (b_level b < n)%N /\
     forall j b', k < j -> nth_error bs j = Some b' -> (n <= b_level b')%N).

Definition sorted_rates (cfgs : list (RT * N)) : Prop :=
  forall i a b, nth_error cfgs i = Some a -> nth_error cfgs (S i) = Some b -> gt (fst a) (fst b) = false.

Definition size_of (len : N) : N := if bytes then len else 1%N.

(** State: configuration and time of the last packet. *)
Inductive mtspec (s : mst) (t : N) : mtop RT -> mtout RT -> mst -> N -> Prop :=
| ss_list : forall cfgs, length cfgs <> nrates -> mtspec s t (MtSet cfgs) (MtCode MtBadList) s t
| ss_rate : forall cfgs, length cfgs = nrates -> ~ sorted_rates cfgs ->
    mtspec s t (MtSet cfgs) (MtCode MtBadRate) (match s with SOff => SOff | _ => SUnknown end) t
| ss_set : forall cfgs, length cfgs = nrates -> sorted_rates cfgs ->
    mtspec s t (MtSet cfgs) (MtCode MtOk) (SOn (map (fun c => mkB (fst c) (snd c) (snd c)) cfgs)) t
| ss_reset : mtspec s t MtReset (MtCode MtOk) SOff t
| ss_off : forall len pre t', s = SOff -> mtspec s t (MtExec len pre t') (MtColor 0) s t'
| ss_exec : forall len pre t' bs c, s = SOn bs ->
    verdict (map (refill t t') bs) (size_of len) c ->
    mtspec s t (MtExec len pre t') (MtColor (Nat.max pre c))
      (SOn (firstn c (map (refill t t') bs) ++ map (spend (size_of len)) (skipn c (map (refill t t') bs)))) t'
| ss_exec_unknown : forall len pre t' c, s = SUnknown -> pre <= c ->
    mtspec s t (MtExec len pre t') (MtColor c) SUnknown t'
| ss_get_off : s = SOff -> mtspec s t MtGet (MtRates []) s t
| ss_get : forall bs, s = SOn bs ->
    mtspec s t MtGet (MtRates (map (fun b => (Some (b_rate b), b_burst b)) bs)) s t
| ss_get_unknown : forall l, s = SUnknown -> mtspec s t MtGet (MtRates l) s t.

Inductive mtspec_run : mst -> N -> list (mtop RT) -> list (mtout RT) -> mst -> N -> Prop :=
| mtr_nil : forall s t, mtspec_run s t [] [] s t
| mtr_cons : forall s t o x s' t' os xs s'' t'', mtspec s t o x s' t' ->
    mtspec_run s' t' os xs s'' t'' -> mtspec_run s t (o :: os) (x :: xs) s'' t''.

(** Well-formed calls up to time [horizon]: the clock does not go back between packets and token
    counts stay below 2^63. *)
Variable horizon : N.
Fixpoint mtops_ok (t : N) (ops : list (mtop RT)) : Prop :=
  match ops with
  | [] => True
  | o :: r =>
      match o with
      | MtExec _ _ t' => (t <= t' <= horizon)%N /\ mtops_ok t' r
      | MtSet cfgs => Forall (fun c => (snd c < 2 ^ 63)%N /\ (acc (fst c) horizon < 2 ^ 63)%N) cfgs /\
                      mtops_ok t r
      | _ => mtops_ok t r
      end
  end.
(** A rate accrues more in more time. *)
Definition monotone : Prop := forall r t t', (t <= t')%N -> (acc r t <= acc r t')%N.

(** Traffic let through by rate [k]: total size of the packets coloured [k] or lower. *)
Fixpoint passed (k : nat) (ops : list (mtop RT)) (outs : list (mtout RT)) : N :=
  match ops, outs with
  | MtExec len _ _ :: r, MtColor c :: xs => ((if (c <=? k)%nat then size_of len else 0) + passed k r xs)%N
  | _ :: r, _ :: xs => passed k r xs
  | _, _ => 0%N
  end.
(** Calls that do not configure the meter, and the time of the last packet among them. *)
Definition traffic (o : mtop RT) : Prop := match o with MtExec _ _ _ | MtGet => True | _ => False end.
Fixpoint last_time (t : N) (ops : list (mtop RT)) : N :=
  match ops with [] => t | MtExec _ _ t' :: r => last_time t' r | _ :: r => last_time t r end.
End Spec.
Arguments bucket : clear implicits.
Arguments mst : clear implicits.
