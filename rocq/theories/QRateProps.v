(** C71: the rate of a queue in packets per second. *)
From Coq Require Import List Arith NArith ZArith Bool Lia.
From Flocq Require Import Core BinarySingleNaN.
From Verif Require Import Base QueueingModel QueueingSpec QueueingProps PiRateModel QRateModel QRateProofs.
Import ListNotations.
Close Scope R_scope.
Close Scope Z_scope.

(** For every 64-bit rate the delay that the code computes in doubles is exactly 10^9 / pps
    nanoseconds, rounded down: no rounding error ever shows. *)
Theorem C71_delay_exact : forall pps, (pps < 2 ^ 64)%N ->
  rate_to_ticks pps = Some (if (pps =? 0)%N then 0 else 1000000000 / pps)%N.
Proof.
  intros pps H. destruct (N.eqb_spec pps 0) as [->|N]; [reflexivity|]. apply ticks_floor; auto. lia.
Qed.

(** From the moment the rate of a (queue, priority) is set to [pps] packets per second until it is set
    again, whatever the other calls: between the push of its packet number [i] and the delivery of its
    packet number [j] at least [j - i] delays pass; so in [t] nanoseconds at most [t * pps / 10^9] packets
    leave, up to the rounding of the delay to whole nanoseconds.  A rate that divides 10^9 is met exactly. *)
Theorem C71_rate : forall (T : Type) wmap nw np cap (before window : list (qlop T)) q p pps t0 s outs1 outs2,
  np <= 32 -> p < np -> (0 < pps)%N -> (pps < 2 ^ 64)%N -> Forall (keeps_rate q p) window ->
  l_run ticks_tot wmap np (l_new nw cap) (before ++ ORatePri q p pps t0 :: window) = Some (s, outs1 ++ QDone :: outs2) ->
  length outs1 = length before ->
  let n0 := length (accepted q p before outs1) - length (delivered q p before outs1) in
  forall i j ei ti ej tj, i <= j ->
    nth_error (accepted q p window outs2) i = Some (ei, ti) ->
    nth_error (delivered q p window outs2) (n0 + j) = Some (ej, tj) ->
    (ti <= tj)%N /\
    (N.of_nat (j - i) * 1000000000 <= pps * (tj - ti) + N.of_nat (j - i) * (pps - 1))%N /\
    ((1000000000 mod pps = 0)%N -> (N.of_nat (j - i) * 1000000000 <= pps * (tj - ti))%N).
Proof.
  intros T wmap nw np cap bf win q p pps t0 s outs1 outs2 NP Hp P H F E L n0 i j ei ti ej tj IJ Hi Hj.
  pose proof (C16_rate_respected ticks_tot wmap nw np NP cap bf win q p pps t0 s outs1 outs2 Hp F E L i j ei ti ej tj IJ Hi Hj) as X.
  assert (TK : ticks_tot pps = (1000000000 / pps)%N) by (unfold ticks_tot; rewrite ticks_floor; auto).
  rewrite TK in X. pose proof (N.div_mod 1000000000 pps ltac:(lia)) as DM. pose proof (N.mod_lt 1000000000 pps ltac:(lia)) as ML.
  set (k := (1000000000 / pps)%N) in *. set (md := (1000000000 mod pps)%N) in *. set (n := N.of_nat (j - i)) in *.
  clearbody k md n. clear -X DM ML P.
  assert (Y : (pps * (n * k) <= pps * (tj - ti))%N) by (apply N.mul_le_mono_l; lia).
  assert (Z : (n * 1000000000 = pps * (n * k) + n * md)%N) by (rewrite DM; ring).
  assert (W : (n * md <= n * (pps - 1))%N) by (apply N.mul_le_mono_l; lia).
  split; [lia|]. split; [lia|]. intros ->. lia.
Qed.

(** A rate that does not divide 10^9 is exceeded: at 600 million packets per second, the delay is one
    nanosecond, and 1000 million leave. *)
Theorem C71_rate_exceeded_refuted :
  ~ (forall (window : list (qlop nat)) pps s outs i j ei ti ej tj, (0 < pps)%N -> (pps < 2 ^ 64)%N -> Forall (keeps_rate 0 0) window ->
       l_run ticks_tot (fun _ => 0) 1 (l_new 1 64) (ORatePri 0 0 pps 0 :: window) = Some (s, QDone :: outs) -> i <= j ->
       nth_error (accepted 0 0 window outs) i = Some (ei, ti) -> nth_error (delivered 0 0 window outs) j = Some (ej, tj) ->
       (N.of_nat (j - i) * 1000000000 <= pps * (tj - ti))%N).
Proof.
  intros H.
  destruct (l_run ticks_tot (fun _ => 0) 1 (l_new 1 64)
    (ORatePri 0 0 600000000%N 0%N :: [OPush 0 0 1 1%N 1%N; OPush 0 0 2 1%N 1%N; OPush 0 0 3 1%N 1%N; OPop 0 1%N; OPop 0 2%N; OPop 0 3%N])) as [[s outs]|] eqn:E.
  2:{ vm_compute in E. discriminate. }
  assert (O : outs = [QDone; QPushed true; QPushed true; QPushed true; QPopped 0 0 1; QPopped 0 0 2; QPopped 0 0 3]).
  { apply (f_equal (option_map snd)) in E. vm_compute in E. injection E as <-. reflexivity. }
  subst outs. specialize (H [OPush 0 0 1 1%N 1%N; OPush 0 0 2 1%N 1%N; OPush 0 0 3 1%N 1%N; OPop 0 1%N; OPop 0 2%N; OPop 0 3%N] 600000000%N s _ 0 2 1 1%N 3 3%N eq_refl eq_refl ltac:(repeat (apply Forall_cons; [exact I|]); apply Forall_nil) E ltac:(lia) eq_refl eq_refl).
  vm_compute in H. apply H. reflexivity.
Qed.
(** A rate above 10^9 packets per second sets no limit at all. *)
Theorem C71_high_rate_refuted :
  ~ (forall pps, (0 < pps)%N -> (pps < 2 ^ 64)%N -> exists d, rate_to_ticks pps = Some d /\ (0 < d)%N).
Proof.
  intros H. destruct (H 1000000001%N eq_refl eq_refl) as (d & E & D). vm_compute in E. injection E as <-. discriminate.
Qed.

(** ** Non-vacuity: 250 packets per second are 4 ms apart *)
Example ex_rate : exists s outs, l_run ticks_tot (fun _ => 0) 1 (l_new 1 8)
    ([OPush 0 0 1 0%N 0%N] ++ ORatePri 0 0 250%N 0%N ::
     [OPush 0 0 2 0%N 1%N; OPush 0 0 3 0%N 2%N; OPop 0 5%N; OPop 0 3999999%N; OPop 0 4000001%N; OPop 0 7999999%N; OPop 0 8000001%N])
     = Some (s, [QPushed true] ++ QDone :: outs) /\
  outs = [QPushed true; QPushed true; QPopped 0 0 1; QBlock; QPopped 0 0 2; QBlock; QPopped 0 0 3].
Proof. do 2 eexists. vm_compute. auto. Qed.

Print Assumptions C71_delay_exact.
Print Assumptions C71_rate.
Print Assumptions C71_rate_exceeded_refuted.
Print Assumptions C71_high_rate_refuted.
