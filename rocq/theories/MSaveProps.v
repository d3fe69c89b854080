(** C72: the rates of meters in a saved state. *)
From Coq Require Import List Arith NArith ZArith Bool Lia Reals.
From Flocq Require Import Core BinarySingleNaN.
From Verif Require Import Base MeterModel PiResModel PiRateModel PiRateSpec MSaveModel MSaveSpec MSaveProofs MSaveProofs2 MSaveProofs3.
Import ListNotations.
Close Scope R_scope.
Close Scope Z_scope.

(** Rates of at most six significant digits: after saving and restoring, every meter has exactly the
    configuration it had.  The text is read to its end and no further. *)
Theorem C72_six_digits : forall ms ms0, Forall (all_rates six_digits) ms -> same_shape ms ms0 ->
  exists t ms', ma_save ms = Some t /\ (forall rest, ma_load ms0 (t ++ rest) = Some (ms', rest)) /\
    map mt_get_rates ms' = map mt_get_rates ms /\ map mt_conf ms' = map mt_conf ms.
Proof.
  intros ms ms0 F S. destruct (array_ok (fun f g => g = f) ms ms0) as (t & ms' & A & B & C & _); auto.
  { eapply Forall_impl; [|exact F]. intros m. apply all_rates_imp. apply six_survives. }
  exists t, ms'. split; auto. split; auto. clear -C.
  induction C as [|m m' ms ms' [D E] _ [IH1 IH2]]; auto. cbn. rewrite (prel_eq _ _ E), D, IH1, IH2. auto.
Qed.

(** Other rates: the restored ones differ by at most one part in 199999, and do not change any more when
    they are saved and restored again. *)
Theorem C72_close : forall ms ms0, Forall (all_rates usual) ms -> same_shape ms ms0 ->
  exists t ms', ma_save ms = Some t /\ (forall rest, ma_load ms0 (t ++ rest) = Some (ms', rest)) /\
    map mt_conf ms' = map mt_conf ms /\ Forall2 close_config (map mt_get_rates ms) (map mt_get_rates ms') /\
    ma_save ms' = Some t.
Proof.
  intros ms ms0 F S. destruct (array_ok rel_any ms ms0) as (t & ms' & A & B & C & _); auto.
  { eapply Forall_impl; [|exact F]. intros m. apply all_rates_imp. apply usual_survives. }
  exists t, ms'. split; auto. split; auto. split; [|split].
  - clear -C. induction C as [|m m' ms ms' [D E] _ IH]; auto. cbn. rewrite D, IH. auto.
  - clear -C. induction C as [|m m' ms ms' [D E] _ IH]; cbn; constructor; auto. eapply Forall2_imp; [|exact E].
    intros p p' (X & f & g & Y & Z & _ & _ & W). split; auto. exists f, g. auto.
  - rewrite <- A. apply saves_eq. eapply Forall2_imp; [|exact C]. intros m m' [D E]. split; auto. eapply Forall2_imp; [|exact E].
    intros p p'. apply prel_imp. intros f g (X & _). auto.
Qed.

(** Meters set through the PI, with any sequence of calls and packets before the state is saved: with integer
    rates of at most six significant digits every meter reads back the same after the restart; ... *)
Theorem C72_pi_six_digits : forall bytes nrates size ops ms outs,
  pm_run (pm_new bytes nrates size) ops = Some (ms, outs) ->
  Forall (rates_in (fun r => (r < 2 ^ 53)%N /\ six_digits_int r)) ops ->
  exists t ms', ma_save ms = Some t /\ ma_load (pm_new bytes nrates size) t = Some (ms', []) /\
    forall i, option_map snd (pm_step ms' (PRead i)) = option_map snd (pm_step ms (PRead i)).
Proof.
  intros bytes nrates size ops ms outs R F.
  destruct (run_inv nrates (fun r => (r < 2 ^ 53)%N /\ six_digits_int r) ops _ _ _ F (new_inv _ _ _ _) R) as [I L].
  unfold pm_new in L. rewrite repeat_length in L.
  destruct (C72_six_digits ms (pm_new bytes nrates size)) as (t & ms' & A & B & C & _).
  { eapply Forall_impl; [|exact I]. intros m. apply minv_rates. intros n [X Y]. apply six_rate; auto. }
  { eapply minv_shape; eauto. }
  exists t, ms'. split; auto. split. { rewrite <- (app_nil_r t). apply B. }
  intros i. cbn [pm_step]. pose proof (f_equal (fun l => nth_error l i) C) as E. cbn beta in E. rewrite !nth_error_map in E.
  destruct (nth_error ms' i), (nth_error ms i); cbn in E; try discriminate; auto. injection E as ->. destruct (spec_back _); reflexivity.
Qed.
(** ... with any rates below 2^51 units per second, the same up to one part in 199990 and one unit. *)
Theorem C72_pi_close : forall bytes nrates size ops ms outs,
  pm_run (pm_new bytes nrates size) ops = Some (ms, outs) -> Forall (rates_in (fun r => r < 2 ^ 51)%N) ops ->
  exists t ms', ma_save ms = Some t /\ ma_load (pm_new bytes nrates size) t = Some (ms', []) /\
    forall i x s, pm_step ms (PRead i) = Some (x, PSpec s) ->
      exists x' s', pm_step ms' (PRead i) = Some (x', PSpec s') /\ close_spec s s'.
Proof.
  intros bytes nrates size ops ms outs R F.
  destruct (run_inv nrates (fun r => r < 2 ^ 51)%N ops _ _ _ F (new_inv _ _ _ _) R) as [I L].
  unfold pm_new in L. rewrite repeat_length in L.
  destruct (array_ok rel_any ms (pm_new bytes nrates size)) as (t & ms' & A & B & C & _).
  { eapply Forall_impl; [|exact I]. intros m M. apply (all_rates_imp usual); [apply usual_survives|]. eapply minv_rates; [|exact M]. apply usual_rate. }
  { eapply minv_shape; eauto. }
  exists t, ms'. split; auto. split. { rewrite <- (app_nil_r t). apply B. }
  intros i x s. cbn [pm_step]. pose proof (F2_nth _ _ _ C i) as N. destruct (nth_error ms i) as [m|] eqn:E; [|discriminate].
  destruct (nth_error ms' i) as [m'|]; [|contradiction]. destruct N as [_ N].
  destruct (spec_back (mt_get_rates m)) eqn:S; [|discriminate]. intros [= <- <-].
  destruct (spec_close m m' _ ltac:(exists nrates; rewrite Forall_forall in I; eapply I, nth_error_In; eauto) N S) as (s' & X & Y).
  rewrite X. eauto.
Qed.

(** A rate with more digits is not restored: 1234567 units per second become 1234570. *)
Theorem C72_all_digits_refuted :
  ~ (forall bytes size ops ms outs, pm_run (pm_new bytes 2 size) ops = Some (ms, outs) ->
       exists t ms', ma_save ms = Some t /\ ma_load (pm_new bytes 2 size) t = Some (ms', []) /\
         forall i, option_map snd (pm_step ms' (PRead i)) = option_map snd (pm_step ms (PRead i))).
Proof.
  intros H.
  set (ops := [PSet 0 (mkMS 1234567 10 2000000 20)]).
  assert (Y : match pm_run (pm_new true 2 1) ops with Some _ => true | None => false end = true) by (vm_compute; reflexivity).
  destruct (pm_run (pm_new true 2 1) ops) as [[ms outs]|] eqn:R; [|discriminate]. clear Y.
  destruct (H _ _ _ _ _ R) as (t & ms' & A & B & C). specialize (C 0).
  assert (X : (match pm_run (pm_new true 2 1) ops with
               | Some (ms, _) =>
                   match ma_save ms with
                   | Some t =>
                       match ma_load (pm_new true 2 1) t with
                       | Some (ms', _) => Some (option_map snd (pm_step ms (PRead 0)), option_map snd (pm_step ms' (PRead 0)))
                       | None => None
                       end
                   | None => None
                   end
               | None => None
               end) = Some (Some (PSpec (mkMS 1234567 10 2000000 20)), Some (PSpec (mkMS 1234570 10 2000000 20)))) by (vm_compute; reflexivity).
  rewrite R, A, B, C in X. injection X as X Y. rewrite X in Y. discriminate.
Qed.

(** ** The hypotheses hold of a concrete history *)
Definition ex_ops : list pop :=
  [PSet 0 (mkMS 123456000 1000 999999000000 2000); PPkt 0 400 0 7; PSet 1 (mkMS 5 0 2000001 20); PSet 2 all_ones]%N.
Example ex_save : option_map (fun p => ma_save (fst p)) (pm_run (pm_new true 2 3) ex_ops) =
  Some (Some [KConf true; KRate (DNum 999999 5); KBurst 2000; KRate (DNum 123456 2); KBurst 1000;
              KConf true; KRate (DNum 200000 0); KBurst 20; KRate (DNum 500000 (-6)); KBurst 0; KConf false]).
Proof. vm_compute. reflexivity. Qed.
Example ex_six : Forall (rates_in (fun r => (r < 2 ^ 53)%N /\ six_digits_int r)) (firstn 2 ex_ops).
Proof.
  constructor; [right|constructor; [exact I|constructor]]. split; (split; [reflexivity|]).
  - exists 123456%N, 3%N. split; reflexivity.
  - exists 999999%N, 6%N. split; reflexivity.
Qed.
Example ex_any : Forall (rates_in (fun r => r < 2 ^ 51)%N) ex_ops.
Proof. repeat (apply Forall_cons; [first [exact I|left; reflexivity|right; split; reflexivity]|]). constructor. Qed.

Print Assumptions C72_six_digits.
Print Assumptions C72_close.
Print Assumptions C72_pi_six_digits.
Print Assumptions C72_pi_close.
Print Assumptions C72_all_digits_refuted.
