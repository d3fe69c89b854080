(** C13: meters. *)
From Coq Require Import List Arith NArith Bool Lia.
From Verif Require Import Base MeterModel MeterSpec MeterProofs.
Import ListNotations.

(** Every sequence of configuration calls, resets, reads and packets has exactly the colours of one
    token bucket per rate: for every number and kind of rates and every non-decreasing clock.  In
    particular no assertion fails. *)
Theorem C13_meter_history : forall (RT : Type) (acc : RT -> N -> N) gt bytes nrates horizon ops,
  monotone acc -> mtops_ok acc horizon 0 ops ->
  exists m outs s t, mt_run acc gt (mt_new bytes nrates) ops = Some (m, outs) /\
    mtspec_run acc gt bytes nrates SOff 0 ops outs s t.
Proof.
  intros RT acc gt bytes nrates horizon ops MONO OK.
  destruct (run_ok acc gt bytes nrates horizon MONO ops _ _ _ (MR_new acc bytes nrates horizon) OK) as (m & outs & s & t & A & B & _).
  exists m, outs, s, t. auto.
Qed.

(** The bound a user configures: whatever happened before the configuration was accepted, in any
    window of traffic the packets coloured [k] or lower total at most the burst of rate [k] plus
    what the rate accrues between the first and the last packet of the window. *)
Theorem C13_token_bound : forall (RT : Type) (acc : RT -> N -> N) gt bytes nrates horizon p0 cfgs p1 len pre t1 win m outs,
  monotone acc -> mtops_ok acc horizon 0 (p0 ++ MtSet cfgs :: p1 ++ MtExec len pre t1 :: win) ->
  mt_run acc gt (mt_new bytes nrates) (p0 ++ MtSet cfgs :: p1 ++ MtExec len pre t1 :: win) = Some (m, outs) ->
  nth_error outs (length p0) = Some (MtCode MtOk) ->
  Forall traffic p1 -> Forall traffic win ->
  forall k rate burst, nth_error cfgs k = Some (rate, burst) ->
  (passed bytes k (MtExec len pre t1 :: win) (skipn (length p0 + S (length p1)) outs)
     <= burst + (acc rate (last_time t1 win) - acc rate t1))%N.
Proof.
  intros RT acc gt bytes nrates horizon p0 cfgs p1 len pre t1 win m outs MONO OK RUN SET T1 T2 k rate burst K.
  destruct (run_ok acc gt bytes nrates horizon MONO _ _ _ _ (MR_new acc bytes nrates horizon) OK) as (m' & outs' & s & t & A & B & _).
  rewrite RUN in A. injection A as <- <-.
  pose proof (spec_run_len _ _ _ _ _ _ _ _ _ _ B) as LEN.
  apply spec_run_app in B as (s1 & u1 & B1 & B2).
  destruct (ops_ok_app _ _ _ _ horizon _ _ _ _ _ _ _ B1 OK) as [_ OK2].
  destruct (skipn (length p0) outs) as [|x xs] eqn:X3; inversion B2 as [|? ? ? ? s2 u2 ? ? ? ? S2 R2]; subst.
  assert (X : x = MtCode MtOk).
  { rewrite <- (firstn_skipn (length p0) outs), X3 in SET. rewrite nth_error_app2 in SET; rewrite firstn_length, Nat.min_l in * by (rewrite app_length in LEN; lia); auto.
    rewrite Nat.sub_diag in SET. cbn in SET. congruence. }
  subst x. inversion S2; subst.
  assert (NB : nth_error (map (fun c : RT * N => mkB (fst c) (snd c) (snd c)) cfgs) k = Some (mkB rate burst burst)).
  { rewrite nth_error_map, K. reflexivity. }
  apply spec_run_app in R2 as (s3 & u3 & R3 & R4). cbn [mtops_ok] in OK2. destruct OK2 as [_ OK3].
  destruct (ops_ok_app _ _ _ _ horizon _ _ _ _ _ _ _ R3 OK3) as [OK4 OK5].
  destruct (window_bound acc gt bytes _ horizon MONO _ _ _ _ _ _ _ _ R3 T1 OK4 NB) as (_ & bs3 & b3 & -> & E3 & RR & BB & _).
  assert (SK : skipn (length p0 + S (length p1)) outs = skipn (length p1) xs).
  { assert (SP : forall i j (l : list (mtout RT)), skipn (i + j) l = skipn j (skipn i l)).
    { induction i; intros j [|y l]; cbn; auto. destruct j; auto. }
    rewrite SP, X3. reflexivity. }
  rewrite SK. inversion R4 as [|? ? ? y s5 u5 ? ys ? ? S5 R5]; subst. cbn [mtops_ok] in OK5. destruct OK5 as [[O1 O2] O3].
  assert (Y : u5 = t1 /\ exists c, y = MtColor c) by (inversion S5; subst; eauto). destruct Y as [-> [c ->]].
  destruct (exec_bound _ _ _ _ _ _ _ _ _ _ _ _ _ S5 E3) as (bs5 & b5 & -> & E5 & R6 & B6 & L6).
  destruct (window_bound acc gt bytes _ horizon MONO _ _ _ _ _ _ _ _ R5 T2 O3 E5) as (T & bs' & b' & _ & E7 & R7 & B7 & L7).
  cbn [passed]. rewrite R6, RR in L7. cbn [b_rate b_burst refill b_level] in *. lia.
Qed.

(** A configured meter never lowers the colour a packet arrives with. *)
Theorem C13_never_below_precolor : forall (RT : Type) (acc : RT -> N -> N) m len pre t m' c,
  mt_conf m = true -> mt_execute acc m len pre t = Some (m', c) -> pre <= c.
Proof.
  intros RT acc m len pre t m' c C E. unfold mt_execute in E. rewrite C in E. cbn [negb] in E.
  destruct (ex_loop _ _ _ _) as [[rs c0]|]; [|discriminate]. injection E as <- <-. lia.
Qed.

(** Finding: an unconfigured meter does. *)
Theorem C13_precolor_unconfigured_refuted :
  ~ (forall ops (m m' : meter N) len pre t c outs,
       mt_run N.mul (fun a b => b <? a)%N (mt_new true 2) ops = Some (m, outs) ->
       mt_execute N.mul m len pre t = Some (m', c) -> pre <= c).
Proof.
  intros H. specialize (H [] _ (mt_new true 2) 100%N 2 5%N 0 [] eq_refl eq_refl). lia.
Qed.

(** Finding: a refused [set_rates] changes a configured meter: the rates read back are not those that
    were in force (meters.h:117-121 writes before it checks). *)
Theorem C13_refused_set_changes_rates_refuted :
  ~ (forall ops cfgs (m m1 m2 : meter N) outs,
       mt_run N.mul (fun a b => b <? a)%N (mt_new true 2) ops = Some (m, outs) ->
       mt_set_rates (fun a b => b <? a)%N m cfgs = (m1, MtBadRate) ->
       mt_get_rates m1 = mt_get_rates m).
Proof.
  intros H. specialize (H [MtSet [(1, 10); (2, 20)]] [(9, 90); (3, 30)] _ _ (mt_new true 2) _ eq_refl eq_refl)%N.
  vm_compute in H. discriminate.
Qed.

(** Finding: saving a freshly configured meter and loading it into an identical new meter changes the
    colours: a packet that exceeds the lower rate only gets the colour of the higher rate
    (meters.cpp:96-117: written in the stored, reversed order, and numbered in that order when read
    back). *)
Definition strip (l : list (option N * N)) : list (N * N) :=
  map (fun p => (match fst p with Some r => r | None => 0%N end, snd p)) l.
Theorem C13_save_load_recolours_refuted :
  ~ (forall cfgs (m : meter N) d len pre t,
       mt_set_rates (fun a b => b <? a)%N (mt_new true 2) cfgs = (m, MtOk) -> mt_dump m = Some d ->
       option_map snd (mt_execute N.mul (mt_load (fun a b => b <? a)%N (mt_new true 2) (Some (strip d))) len pre t) =
       option_map snd (mt_execute N.mul m len pre t)).
Proof.
  intros H. specialize (H [(1, 10); (2, 20)]%N _ _ 15%N 0 1%N eq_refl eq_refl).
  vm_compute in H. discriminate.
Qed.

(** Finding: the clock is read before the lock is taken, so two packets of two threads can reach a
    meter in the order opposite to their clock readings: the assertion of line 78 then fails. *)
Theorem C13_clock_order_refuted :
  ~ (forall (ops : list (mtop N)), exists m outs,
       mt_run N.mul (fun a b => b <? a)%N (mt_new true 1) ops = Some (m, outs)).
Proof.
  intros H. destruct (H [MtSet [(1, 10)]; MtExec 1 0 7; MtExec 1 0 6]%N) as (m & outs & E). vm_compute in E. discriminate.
Qed.

(** ** A concrete history: two rates, bytes; the hypotheses of the theorems hold. *)
Definition ex_ops : list (mtop N) :=
  [MtSet [(1, 100); (2, 150)]; MtExec 90 0 10; MtExec 50 0 12; MtExec 50 0 13; MtExec 60 0 200; MtExec 10 2 201;
   MtSet [(3, 1); (2, 1)]; MtReset; MtExec 1 2 300; MtSet [(1, 5)]; MtGet]%N.
Example ex_outs : option_map snd (mt_run N.mul (fun a b => b <? a)%N (mt_new true 2) ex_ops) =
  Some [MtCode MtOk; MtColor 0; MtColor 1; MtColor 2; MtColor 0; MtColor 2; MtCode MtBadRate; MtCode MtOk; MtColor 0;
        MtCode MtBadList; MtRates []].
Proof. vm_compute. reflexivity. Qed.
Example ex_ok : monotone N.mul /\ mtops_ok N.mul 1000%N 0%N ex_ops.
Proof.
  split; [intros r t t' H; apply N.mul_le_mono_l; auto|]. unfold ex_ops. cbn [mtops_ok].
  repeat match goal with |- _ /\ _ => split | |- Forall _ _ => constructor | |- True => exact I | |- (_ <= _)%N => discriminate
     | |- (_ < _)%N => reflexivity end.
Qed.

Print Assumptions C13_meter_history.
Print Assumptions C13_token_bound.
Print Assumptions C13_never_below_precolor.
Print Assumptions C13_precolor_unconfigured_refuted.
Print Assumptions C13_refused_set_changes_rates_refuted.
Print Assumptions C13_save_load_recolours_refuted.
Print Assumptions C13_clock_order_refuted.
