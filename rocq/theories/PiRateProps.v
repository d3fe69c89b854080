(** C70: rates of meters set through the PI. *)
From Coq Require Import List Arith NArith ZArith Bool Lia.
From Flocq Require Import Core BinarySingleNaN.
From Verif Require Import Base MeterModel MeterSpec MeterProofs MeterProps PiResModel PiRateModel PiRateSpec PiRateProofs PiRateProofs2.
Import ListNotations.
Close Scope R_scope.
Close Scope Z_scope.

(** Every sequence of configuration calls, reads and packets on an array of meters, with the doubles
    of the code: which calls are refused, that what is read back is what was written up to one unit
    per second, and that no cast is undefined and no assertion fails. *)
Theorem C70_history : forall bytes nrates size horizon ops, (horizon < 2 ^ 63)%N ->
  pops_ok size horizon 0 ops ->
  exists ms outs w, pm_run (pm_new bytes nrates size) ops = Some (ms, outs) /\
    pspec_run nrates size (fun _ => POff) ops outs w.
Proof.
  intros bytes nrates size horizon ops H OK.
  apply (PiRateProofs2.run_ok bytes nrates size horizon H ops _ _ 0%N); auto. apply MIs_new; auto.
Qed.

(** The bound that the configured rates promise, in integers: from an accepted configuration on, and
    until the meter is configured again, the packets coloured green in any window total at most the
    committed burst, plus the committed rate times the length of the window, plus three; those
    coloured green or yellow likewise for the peak rate. *)
Theorem C70_rate_bound : forall bytes size horizon p0 i s p1 len pre t1 win ms outs,
  let ops := p0 ++ PSet i s :: p1 ++ PPkt i len pre t1 :: win in
  (horizon < 2 ^ 63)%N -> pops_ok size horizon 0 ops -> s <> all_ones ->
  pm_run (pm_new bytes 2 size) ops = Some (ms, outs) ->
  nth_error outs (length p0) = Some (PCode POk) ->
  Forall (not_set i) p1 -> Forall (not_set i) win ->
  let after := skipn (length p0 + S (length p1)) outs in
  let time := (p_last i t1 win - t1)%N in
  (1000000 * p_passed bytes i 0 (PPkt i len pre t1 :: win) after <= 1000000 * (ms_cb s + 3) + ms_cir s * time)%N /\
  (1000000 * p_passed bytes i 1 (PPkt i len pre t1 :: win) after <= 1000000 * (ms_pb s + 3) + ms_pir s * time)%N.
Proof.
  intros bytes size horizon p0 i s p1 len pre t1 win ms outs ops H OK NA RUN SET F1 F2 after time.
  assert (LT : i < size).
  { destruct (pops_app size horizon H p0 _ 0 OK) as (t' & _ & O1). cbn [pops_ok] in O1. destruct O1 as [_ O1].
    destruct (pops_app size horizon H p1 _ t' O1) as (t2 & _ & O2). cbn [pops_ok] in O2. tauto. }
  assert (EM : nth_error (pm_new bytes 2 size) i = Some (mt_new bytes 2)).
  { unfold pm_new. rewrite (nth_error_nth' _ (mt_new bytes 2)) by (rewrite repeat_length; auto). f_equal. apply nth_repeat. }
  destruct (run_proj i ops _ _ _ _ RUN EM) as (m' & ys & _ & R & OO).
  assert (D : is_default s = false).
  { destruct (is_default s) eqn:D; auto. apply default_ones in D. contradiction. }
  assert (W : Forall (not_set i) (PPkt i len pre t1 :: win)) by (constructor; [exact I|auto]).
  assert (PJ : projs i ops = projs i p0 ++ MtSet (cfg_of s) :: projs i p1 ++ MtExec len pre t1 :: projs i win).
  { unfold ops, projs. rewrite flat_map_app. cbn [flat_map proj]. rewrite Nat.eqb_refl, D, flat_map_app. cbn [flat_map proj app].
    rewrite Nat.eqb_refl. reflexivity. }
  unfold ops in OO. destruct (outs_app horizon H i p0 _ _ _ OO) as (o1 & o2 & y1 & y2 & -> & -> & L1 & L2 & A1 & A2).
  inversion A2 as [|? ? ? ? ? P|? c ? xs zs A3|]; subst; [cbn [proj] in P; rewrite Nat.eqb_refl, D in P; discriminate|].
  destruct (outs_app horizon H i p1 _ _ _ A3) as (o3 & o4 & y3 & y4 & -> & -> & L3 & L4 & A4 & A5).
  rewrite nth_error_app2, L1, Nat.sub_diag in SET by lia. cbn [nth_error] in SET. injection SET as SET.
  assert (C : c = MtOk) by (destruct c; auto; discriminate). subst c.
  assert (AF : after = o4).
  { unfold after. rewrite <- L1, <- L3. rewrite skipn_app, skipn_all2 by lia. cbn [app].
    replace (length o1 + S (length o3) - length o1) with (S (length o3)) by lia. cbn [skipn]. rewrite skipn_app, skipn_all, Nat.sub_diag. reflexivity. }
  assert (YF : skipn (length (projs i p0) + S (length (projs i p1))) (y1 ++ MtCode MtOk :: y3 ++ y4) = y4).
  { rewrite <- L2, <- L4. rewrite skipn_app, skipn_all2 by lia. cbn [app].
    replace (length y1 + S (length y3) - length y1) with (S (length y3)) by lia. cbn [skipn]. rewrite skipn_app, skipn_all, Nat.sub_diag. reflexivity. }
  assert (OKP : mtops_ok tokens_tot horizon 0 (projs i ops)) by (eapply ops_proj; eauto; lia).
  rewrite PJ in R, OKP.
  assert (YS : nth_error (y1 ++ MtCode MtOk :: y3 ++ y4) (length (projs i p0)) = Some (@MtCode dbl MtOk)).
  { rewrite nth_error_app2, L2, Nat.sub_diag by lia. reflexivity. }
  pose proof (C13_token_bound dbl tokens_tot d_gt bytes 2 horizon _ _ _ _ _ _ _ _ _ tokens_mono OKP R YS (traffic_proj i p1 F1) (traffic_proj i win F2)) as TB.
  rewrite YF in TB. rewrite (last_proj i win F2) in TB.
  assert (PW : MtExec len pre t1 :: projs i win = projs i (PPkt i len pre t1 :: win)).
  { unfold projs. cbn [flat_map proj]. rewrite Nat.eqb_refl. reflexivity. }
  rewrite PW in TB. rewrite AF.
  destruct (pops_app size horizon H p0 _ 0 OK) as (t' & _ & O1). cbn [pops_ok] in O1. destruct O1 as [SO O1].
  destruct (pops_app size horizon H p1 _ t' O1) as (t2 & _ & O2). cbn [pops_ok] in O2. destruct O2 as (_ & TT & O3).
  destruct SO as [|(R1 & R2 & B1 & B2)]; [contradiction|].
  pose proof (last_ge size horizon H i win t1 t1 O3 ltac:(lia) ltac:(lia)) as TL.
  assert (ARITH : forall r b k, rate_ok horizon r -> nth_error (cfg_of s) k = Some (rate_of r, b) ->
    (1000000 * p_passed bytes i k (PPkt i len pre t1 :: win) o4 <= 1000000 * (b + 3) + r * time)%N).
  { intros r b k RO NE. specialize (TB k _ _ NE). rewrite (passed_proj bytes i k _ _ _ W A5) in TB.
    destruct (tot_h horizon H r t1 RO ltac:(lia)) as (_ & X1 & X2).
    destruct (tot_h horizon H r (p_last i t1 win) RO ltac:(lia)) as (_ & Y1 & Y2).
    unfold time. rewrite N.mul_sub_distr_l. assert (r * t1 <= r * p_last i t1 win)%N by (apply N.mul_le_mono_l; lia). lia. }
  split; apply ARITH; auto.
Qed.

(** A committed rate that is at most the peak rate is never refused, for all 64-bit rates: on any
    meter with two rates. *)
Theorem C70_sorted_accepted : forall (ms : list (meter dbl)) i m s,
  nth_error ms i = Some m -> length (mt_rates m) = 2 -> (ms_cir s <= ms_pir s)%N -> (ms_pir s < 2 ^ 64)%N ->
  exists ms', pm_step ms (PSet i s) = Some (ms', PCode POk).
Proof.
  intros ms i m s E L LE B. cbn [pm_step]. rewrite E. unfold from_spec. destruct (is_default s); [eauto|].
  unfold mt_set_rates. cbn [length]. rewrite L. cbn [Nat.eqb negb].
  destruct (mt_rates m) as [|x [|y [|z l]]]; try discriminate L.
  cbn [set_loop set_rate list_set fst snd nth_error]. rewrite rate_le by auto. eauto.
Qed.

(** Every rate up to 2^63 reads back with a relative error of at most 2^-51, rounded down. *)
Theorem C70_read_back : forall r, (r <= 2 ^ 63)%N -> exists n, rate_back (Some (rate_of r)) = Some n /\
  (2 ^ 51 * n <= 2 ^ 51 * r + r)%N /\ (2 ^ 51 * r < 2 ^ 51 * n + r + 2 ^ 51)%N.
Proof. intros r H. destruct (back_ok r H) as (n & A & B & C). exists n. auto. Qed.

(** The tokens that a rate accrues are its exact share, up to two. *)
Theorem C70_accrual : forall r t, (r < 2 ^ 64)%N -> (t < 2 ^ 63)%N -> (r * t <= 2 ^ 50 * 1000000)%N ->
  exists n, tokens (rate_of r) t = Some n /\ (1000000 * n <= r * t + 625000)%N /\ (r * t < 1000000 * n + 1625000)%N.
Proof. intros r t A B C. destruct (tokens_ok r t A B C) as (n & X & _ & Y). exists n. auto. Qed.

(** What is read back is not always what was written: a rate of 249 per second reads back as 248. *)
Theorem C70_read_back_refuted :
  ~ (forall r ms ms' b, (r < 2 ^ 51)%N ->
       pm_step (pm_new true 2 1) (PSet 0 (mkMS r b r b)) = Some (ms, PCode POk) ->
       pm_step ms (PRead 0) = Some (ms', PSpec (mkMS r b r b))).
Proof.
  intros H. specialize (H 249%N _ (pm_new true 2 1) 1%N eq_refl eq_refl).
  apply (f_equal (fun o => match o with Some (_, PSpec s) => ms_cir s | _ => 0%N end)) in H. vm_compute in H. discriminate.
Qed.
(** Writing back what was read can lose rate again: 3919 reads back as 3918, which reads back as 3917. *)
Theorem C70_drift_refuted :
  ~ (forall r n m, (r < 2 ^ 51)%N -> rate_back (Some (rate_of r)) = Some n -> rate_back (Some (rate_of n)) = Some m -> m = n).
Proof.
  intros H. specialize (H 3919%N 3918%N 3917%N eq_refl). vm_compute in H. specialize (H eq_refl eq_refl). discriminate.
Qed.
(** The largest rate is accepted, but reading it back casts 2^64 to a 64-bit integer. *)
Theorem C70_largest_rate_refuted :
  ~ (forall ms s, pm_step (pm_new true 2 1) (PSet 0 s) = Some (ms, PCode POk) -> (ms_cir s < 2 ^ 64)%N -> (ms_pir s < 2 ^ 64)%N ->
       exists ms' s', pm_step ms (PRead 0) = Some (ms', PSpec s')).
Proof.
  intros H. destruct (H _ (mkMS (2 ^ 64 - 1) 1000 (2 ^ 64 - 1) 1000) eq_refl eq_refl eq_refl) as (ms' & s' & E).
  apply (f_equal (fun o => match o with Some _ => true | None => false end)) in E. vm_compute in E. discriminate.
Qed.
(** A meter with the largest rate works for one second only: at the first packet after that, the cast of
    the accrued tokens is undefined. *)
Theorem C70_unlimited_refuted :
  ~ (forall ms s t, pm_step (pm_new true 2 1) (PSet 0 s) = Some (ms, PCode POk) -> (ms_cir s < 2 ^ 64)%N -> (ms_pir s < 2 ^ 64)%N ->
       (t < 2 ^ 63)%N -> exists ms' c, pm_step ms (PPkt 0 64 0 t) = Some (ms', PColor c)).
Proof.
  intros H. destruct (H _ (mkMS (2 ^ 64 - 1) 1000 (2 ^ 64 - 1) 1000) 1000001%N eq_refl eq_refl eq_refl eq_refl) as (ms' & s' & E).
  apply (f_equal (fun o => match o with Some _ => true | None => false end)) in E. vm_compute in E. discriminate.
Qed.
(** Above 2^51 a committed rate that exceeds the peak rate can be accepted. *)
Theorem C70_order_unseen_refuted :
  ~ (forall ms s, pm_step (pm_new true 2 1) (PSet 0 s) = Some (ms, PCode POk) -> (ms_cir s < 2 ^ 63)%N -> (ms_pir s < 2 ^ 63)%N ->
       (ms_cir s <= ms_pir s)%N).
Proof.
  intros H. specialize (H _ (mkMS (2 ^ 60 + 1) 1 (2 ^ 60) 1) eq_refl eq_refl eq_refl). vm_compute in H. apply H. reflexivity.
Qed.

(** ** A concrete history: the hypotheses of the theorems hold *)
Definition ex_ops : list pop :=
  [PSet 1 (mkMS 1000000 100 2000000 150); PRead 1; PPkt 1 90 0 10; PPkt 1 50 0 12; PPkt 1 50 0 13; PPkt 0 1 2 20;
   PSet 0 (mkMS 7 1 5 1); PRead 0; PSet 1 (mkMS 7 1 5 1); PSet 1 all_ones; PRead 1; PRead 5; PSet 1 (mkMS 249 1 999983 1); PRead 1].
Example ex_outs : option_map snd (pm_run (pm_new true 2 2) ex_ops) =
  Some [PCode POk; PSpec (mkMS 1000000 100 2000000 150); PColor 0; PColor 1; PColor 2; PColor 0; PCode PBadRate; PSpec all_ones;
        PCode PBadRate; PCode POk; PSpec all_ones; PCode PBadIndex; PCode POk; PSpec (mkMS 248 1 999983 1)].
Proof. vm_compute. reflexivity. Qed.
Example ex_ok : pops_ok 2 (10 ^ 9) 0 ex_ops.
Proof.
  unfold ex_ops. cbn [pops_ok].
  repeat match goal with
         | |- _ /\ _ => split | |- True => exact I | |- pspec_ok _ all_ones => left; reflexivity
         | |- pspec_ok _ _ => right | |- rate_ok _ _ => split; cbn [ms_cir ms_pir]
         | |- (_ <= _)%N => vm_compute; discriminate | |- (_ < _)%N => reflexivity | |- _ < _ => lia end.
Qed.

Print Assumptions C70_history.
Print Assumptions C70_rate_bound.
Print Assumptions C70_sorted_accepted.
Print Assumptions C70_read_back.
Print Assumptions C70_accrual.
Print Assumptions C70_read_back_refuted.
Print Assumptions C70_drift_refuted.
Print Assumptions C70_largest_rate_refuted.
Print Assumptions C70_unlimited_refuted.
Print Assumptions C70_order_unseen_refuted.
