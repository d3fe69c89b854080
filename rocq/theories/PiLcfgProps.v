(** * C76: the configuration of digests *)
From Coq Require Import List Arith NArith ZArith Bool Lia.
From Verif Require Import Base PiRateModel LearnModel LearnSpec LearnProps LWakeModel LWakeSpec LWakeProofs LWakeProps PiLcfgModel PiLcfgSpec PiLcfgProofs.
Import ListNotations.

(** ** When the call is defined, and what it sets: the timeout in whole milliseconds, exactly; the maximum number of samples, 1024 for 0 *)
Theorem C76_configured : forall t size ns, (ns < 2 ^ 32 * 1000000)%N ->
  exists es, config t size ns = Some es /\
  forall s s' xs, l_run s es = Some (s', xs) ->
    (l_timeout s' * 1000000 <= ns < (l_timeout s' + 1) * 1000000)%N /\ (size <> 0 -> l_max s' = size) /\ (size = 0 -> l_max s' = 1024).
Proof.
  intros t size ns H. unfold config, config_set. cbn [c_max_timeout_ns c_max_size]. rewrite (ms_ok ns H). eexists. split; [reflexivity|]. intros s s' xs R.
  cbn [l_run l_step] in R. destruct (negb _); [|discriminate]. destruct (set_max s t _) as [s1 b] eqn:E. injection R as <- _. cbn [set_timeout l_timeout l_max].
  assert (M : l_max s1 = if size =? 0 then 1024 else size).
  { unfold set_max in E. destruct (_ && _); [|injection E as <- <-; reflexivity]. unfold process_full in E. cbn [l_tmp] in E. destruct (l_tmp s); injection E as <- <-; reflexivity. }
  rewrite M. pose proof (N.div_mod ns 1000000 ltac:(lia)) as D. pose proof (N.mod_lt ns 1000000 ltac:(lia)) as Lt.
  split; [set (k := (ns / 1000000)%N) in *; set (r := (ns mod 1000000)%N) in *; clearbody k r; lia|]. destruct size; split; intros; try reflexivity; try lia.
Qed.
Print Assumptions C76_configured.
Theorem C76_defined : forall t size ns, (ns < 2 ^ 64)%N -> (exists es, config t size ns = Some es) <-> (ns < 2 ^ 32 * 1000000)%N.
Proof.
  intros t size ns H64. split.
  - intros [es E]. destruct (N.lt_ge_cases ns (2 ^ 32 * 1000000)) as [|G]; [assumption|]. unfold config, config_set in E. cbn [c_max_timeout_ns] in E. rewrite (ms_big ns G H64) in E. discriminate.
  - intros H. destruct (C76_configured t size ns H) as (es & E & _). eauto.
Qed.
Print Assumptions C76_defined.

(** ** Nothing is sent late: once the nanoseconds asked for have elapsed, pending samples are taken *)
Lemma keep_next q e x : match e with ETimeout _ => False | _ => True end -> s_timeout (s_next q e x) = s_timeout q.
Proof. destruct e; cbn [s_next]; intros H; try contradiction; destruct x as [| | | |[[[? ?] ?] ?]|]; reflexivity. Qed.
Lemma keep_after vs : forall q xs, Forall keeps_timeout vs -> s_timeout (s_after q (evs vs) xs) = s_timeout q.
Proof.
  induction vs as [|v vs IH]; intros q xs F; cbn [evs map s_after]; [destruct xs; reflexivity|]. destruct xs as [|x xs]; [reflexivity|]. inversion F; subst. change (map snd vs) with (evs vs). rewrite IH by assumption. apply keep_next. assumption.
Qed.
Lemma evs_app a b : evs (a ++ b) = evs a ++ evs b. Proof. apply map_app. Qed.
Lemma w_run_len vs : forall w w' xs, w_run w vs = Some (w', xs) -> length xs = length vs.
Proof. intros w w' xs R. apply w_run_proj in R. apply run_len in R. rewrite R. apply map_length. Qed.

Theorem C76_sent_in_time : sent_in_time config (fun ns => (1000000 <= ns)%N /\ (ns < 2 ^ 64)%N).
Proof.
  intros max timeout vs1 t size ns es vs2 w xs now Ec [Ok1 Ok2] h R F C K L q P Np El.
  assert (Hn : (ns < 2 ^ 32 * 1000000)%N) by (apply (C76_defined t size ns Ok2); eauto).
  unfold config, config_set in Ec. cbn [c_max_timeout_ns c_max_size] in Ec. rewrite (ms_ok ns Hn) in Ec. injection Ec as <-.
  assert (T : s_timeout q = (ns / 1000000)%N).
  { pose proof (w_run_len _ _ _ _ R) as Lx. unfold q, h. clear - K Lx. unfold h in Lx. rewrite !app_length in Lx. cbn [at_once map length] in Lx.
    assert (Ex : xs = firstn (length vs1) xs ++ skipn (length vs1) xs) by (symmetry; apply firstn_skipn).
    assert (La : length (firstn (length vs1) xs) = length vs1) by (rewrite firstn_length; lia). assert (Lb : length (skipn (length vs1) xs) = 2 + length vs2) by (rewrite skipn_length; lia).
    set (a := firstn (length vs1) xs) in *. set (b := skipn (length vs1) xs) in *. clearbody a b. subst xs. rewrite evs_app, s_after_app by (unfold evs; rewrite map_length; exact La).
    destruct b as [|x1 [|x2 b]]; [discriminate|discriminate|]. cbn [at_once map app evs snd s_after]. change (map snd vs2) with (evs vs2). rewrite keep_after by exact K. reflexivity. }
  pose proof (N.div_mod ns 1000000 ltac:(lia)) as D. unfold elapsed in El.
  assert (G : (1 <= ns / 1000000)%N) by (apply N.div_le_lower_bound; lia).
  apply (C75_on_time max timeout h w xs now R F C L P Np); [change (0 < s_timeout q)%N; rewrite T; lia|]. change (s_latest q + s_timeout q <= now)%N. rewrite T. set (k := (ns / 1000000)%N) in *. set (r := (ns mod 1000000)%N) in *. clearbody k r. lia.
Qed.
Print Assumptions C76_sent_in_time.

(** ** Findings *)
(** A positive timeout below one millisecond becomes none at all: the samples wait until the buffer is full. *)
Theorem C76_short_timeout_refuted : ~ sent_in_time config (fun ns => (0 < ns)%N /\ (ns < 2 ^ 64)%N).
Proof.
  intros H. assert (Hc : config 9 0 999999 = Some [EMax 9 1024; ETimeout 0]).
  { unfold config, config_set. cbn [c_max_timeout_ns c_max_size]. rewrite ms_ok by reflexivity. reflexivity. }
  set (h := [(false, EMax 9 1024); (false, ETimeout 0); (false, EAdd 1 5%N [7%N]); (false, ETake 6%N)]).
  destruct (w_run (w_new 1 0) h) as [[w xs]|] eqn:R; [|vm_compute in R; discriminate].
  assert (Hx : xs = [OBlocked false; ONone; OAdd true false; OTook false]) by (vm_compute in R; injection R as _ <-; reflexivity).
  assert (Hw : w_step w (false, ETake 5000) = None) by (vm_compute in R; injection R as <- _; vm_compute; reflexivity).
  destruct (H 1 0%N [] 9 0 999999%N _ [(false, EAdd 1 5%N [7%N]); (false, ETake 6%N)] w xs 5000%N Hc ltac:(split; reflexivity) R) as [w' K]; [| | | | | | |rewrite Hw in K; discriminate]; subst xs; clear; cbn.
  - repeat split; auto; discriminate.
  - repeat split; auto.
  - repeat constructor.
  - reflexivity.
  - reflexivity.
  - discriminate.
  - unfold elapsed. lia.
Qed.
Print Assumptions C76_short_timeout_refuted.
(** A timeout of 2^32 milliseconds or more is undefined behaviour. *)
Theorem C76_long_timeout_refuted : ~ (forall t size ns, (ns < 2 ^ 64)%N -> exists es, config t size ns = Some es).
Proof. intros H. specialize (H 0 0 4294967296000000%N eq_refl). apply C76_defined in H; [discriminate|reflexivity]. Qed.
Print Assumptions C76_long_timeout_refuted.
(** A null configuration, meant to disable the digest, does not: samples are accepted and sent as before. *)
Theorem C76_disabled_refuted :
  ~ (forall max timeout t es more s xs m, config_set t None = Some es -> l_run (l_new max timeout) (es ++ more) = Some (s, xs) -> ~ In (OMsg m) xs).
Proof.
  intros H. refine (H 1 0%N 9 [] [EDest 3; EAdd 1 5%N [7%N]; ETake 6%N; ESend] _ _ (Some 3%N, 0%N, 1, [7%N]) eq_refl eq_refl _). cbn. auto 10.
Qed.
Print Assumptions C76_disabled_refuted.

(** The hypotheses of C76_sent_in_time are met: 2.5 ms, one sample at 5, asleep until 7; at 8 it is due *)
Example C76_meets : exists w xs, config 9 0 2500000 = Some [EMax 9 1024; ETimeout 2] /\
  (let h := [(false, ETake 1%N)] ++ at_once [EMax 9 1024; ETimeout 2] ++ [(false, EAdd 1 5%N [7%N]); (false, ETake 6%N)] in
   w_run (w_new 1 0) h = Some (w, xs) /\ all_fit (s_init 0) (evs h) xs /\ calm (s_init 0) (evs h) xs /\ s_pend (s_after (s_init 0) (evs h) xs) = [[7%N]] /\
   w_sleep w = Some (Some 7%N) /\ w_note w = false) /\ elapsed 5 2500000 8.
Proof.
  set (h := [(false, ETake 1%N)] ++ at_once [EMax 9 1024; ETimeout 2] ++ [(false, EAdd 1 5%N [7%N]); (false, ETake 6%N)]).
  destruct (w_run (w_new 1 0) h) as [[w xs]|] eqn:R; [|vm_compute in R; discriminate]. exists w, xs.
  assert (Hx : xs = [OTook false; OBlocked false; ONone; OAdd true false; OTook false]) by (vm_compute in R; injection R as _ <-; reflexivity).
  assert (Hw : w_sleep w = Some (Some 7%N) /\ w_note w = false) by (vm_compute in R; injection R as <- _; split; reflexivity).
  split; [unfold config, config_set; cbn [c_max_timeout_ns c_max_size]; rewrite ms_ok by reflexivity; reflexivity|]. split; [|unfold elapsed; lia].
  cbv zeta. split; [exact R|]. destruct Hw as [-> ->]. subst xs. clear. cbn. repeat split; auto; discriminate.
Qed.
