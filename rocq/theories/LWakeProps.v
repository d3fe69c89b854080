(** * C75: digests are sent on time *)
From Coq Require Import List Arith NArith ZArith Bool Lia.
From Verif Require Import Base LearnModel LearnSpec LearnProofs LearnProofs2 LearnProps LWakeModel LWakeSpec LWakeProofs.
Import ListNotations.

(** ** The histories are those of C39: what is proved there holds with the waits *)
Theorem C75_histories : forall max timeout vs w xs, w_run (w_new max timeout) vs = Some (w, xs) ->
  l_run (l_new max timeout) (evs vs) = Some (w_l w, xs).
Proof. intros. exact (w_run_proj vs (w_new max timeout) w xs H). Qed.
Print Assumptions C75_histories.

Section History.
Context (max : nat) (timeout : N) (vs : list wev) (w : wst) (xs : list lout).
Context (R : w_run (w_new max timeout) vs = Some (w, xs)) (F : all_fit (s_init timeout) (evs vs) xs) (C : calm (s_init timeout) (evs vs) xs).
Lemma hist : (2 * N.of_nat (length vs) < 2 ^ 64)%N -> Iw w /\ Good (2 * N.of_nat (length vs)) (w_l w) (s_after (s_init timeout) (evs vs) xs).
Proof.
  intros L. assert (G0 : Good 0 (l_new max timeout) (s_init timeout)) by (exists [], []; apply Inv_new). split.
  - exact (w_run_ok vs 0 (w_new max timeout) _ _ _ G0 (Iw_new _ _) R F C L).
  - pose proof (w_run_proj _ _ _ _ R) as P. assert (El : length (evs vs) = length vs) by apply map_length.
    destruct (run_ok (evs vs) 0 _ _ _ _ G0 P F ltac:(lia)) as [_ G]. rewrite El in G. exact G.
Qed.
End History.

(** ** On time.  Whatever happened before, once the timeout has elapsed since the last sample, the transmit thread, unless it is sending, takes samples, without having to wake for no reason. *)
Theorem C75_on_time : forall max timeout vs w xs now, w_run (w_new max timeout) vs = Some (w, xs) ->
  all_fit (s_init timeout) (evs vs) xs -> calm (s_init timeout) (evs vs) xs -> (2 * N.of_nat (length vs) + 2 < 2 ^ 64)%N ->
  let q := s_after (s_init timeout) (evs vs) xs in
  s_ph q = SIdle -> s_pend q <> [] -> (0 < s_timeout q)%N -> (s_latest q + s_timeout q <= now)%N ->
  exists w', w_step w (false, ETake now) = Some (w', OTook true).
Proof.
  intros max timeout vs w xs now R F C L q P Np T La. destruct (hist _ _ _ _ _ R F C ltac:(lia)) as [I G]. fold q in G.
  destruct (step_ok _ _ _ (ETake now) G P ltac:(lia)) as (s' & x & E & (b & -> & _ & B) & _). rewrite (B Np T La) in E. eexists. apply take_w; eauto.
Qed.
Print Assumptions C75_on_time.

(** ** No notification is missing.  Full buffers and expired timeouts alike: what the thread would take if it ran now, it takes without waking for no reason. *)
Theorem C75_no_wake_up_lost : forall max timeout vs w xs now w', w_run (w_new max timeout) vs = Some (w, xs) ->
  all_fit (s_init timeout) (evs vs) xs -> calm (s_init timeout) (evs vs) xs -> (2 * N.of_nat (length vs) < 2 ^ 64)%N ->
  w_step w (true, ETake now) = Some (w', OTook true) -> w_step w (false, ETake now) = Some (w', OTook true).
Proof. intros max timeout vs w xs now w' R F C L H. destruct (hist _ _ _ _ _ R F C L) as [I _]. exact (Iw_take _ _ _ _ I H). Qed.
Print Assumptions C75_no_wake_up_lost.

(** ** A full buffer is taken at once: after the sample which makes the buffer full, at any time, if nobody is sending and the producer is not blocked *)
Theorem C75_full_at_once : forall max timeout vs w xs now, w_run (w_new max timeout) vs = Some (w, xs) ->
  all_fit (s_init timeout) (evs vs) xs -> calm (s_init timeout) (evs vs) xs -> (2 * N.of_nat (length vs) + 2 < 2 ^ 64)%N ->
  Forall (fun v => match snd v with EMax _ _ => False | _ => True end) vs ->
  let q := s_after (s_init timeout) (evs vs) xs in
  s_ph q = SIdle -> s_wait q = [] -> max <= length (s_pend q) -> s_pend q <> [] ->
  exists w', w_step w (false, ETake now) = Some (w', OTook true).
Proof.
  intros max timeout vs w xs now R F C L Fm q P W Lm Np. destruct (hist _ _ _ _ _ R F C ltac:(lia)) as [I G]. fold q in G.
  assert (K : Kf max (w_l w)).
  { eapply (Kf_run max (evs vs) (l_new max timeout)); [split; [reflexivity|left; reflexivity]| |exact (C75_histories _ _ _ _ _ R)].
    apply Forall_forall. intros e J. apply in_map_iff in J. destruct J as (v & <- & J). exact (proj1 (Forall_forall _ _) Fm v J). }
  destruct (full_take _ _ _ _ now G K P W Lm Np) as [s' E]. eexists. apply take_w; eauto.
Qed.
Print Assumptions C75_full_at_once.

(** ** All of it.  The thread by itself delivers every pending sample once the timeout has elapsed. *)
Theorem C75_all_delivered : forall max timeout vs w xs now, w_run (w_new max timeout) vs = Some (w, xs) ->
  all_fit (s_init timeout) (evs vs) xs -> calm (s_init timeout) (evs vs) xs -> (20 * N.of_nat (length vs) + 16 < 2 ^ 64)%N ->
  let q := s_after (s_init timeout) (evs vs) xs in
  (0 < s_timeout q)%N -> (s_latest q + s_timeout q <= now)%N ->
  exists more w' ys, Forall (own now) more /\ w_run w more = Some (w', ys) /\ s_pend (s_after q (evs more) ys) = [].
Proof.
  intros max timeout vs w xs now R F C L q T La. destruct (hist _ _ _ _ _ R F C ltac:(lia)) as [I _].
  assert (El : length (evs vs) = length vs) by apply map_length.
  destruct (C39_all_delivered max timeout (evs vs) (w_l w) xs now (C75_histories _ _ _ _ _ R) F ltac:(lia) T La) as (more & s' & ys & Fm & Rm & Pm). fold q in Pm.
  destruct (lift more now w s' ys q I Fm Rm) as (vs' & w' & zs & A & B & _ & D). exists vs', w', zs. split; [exact A|]. split; [exact B|]. rewrite D. exact Pm.
Qed.
Print Assumptions C75_all_delivered.

(** ** The condition on the timeout is needed *)
(** Setting a timeout never wakes the thread: without a deadline it sleeps on, at all times, whatever the new timeout. *)
Theorem C75_setting_does_not_wake : forall w b x w' y now, w_sleep w = Some None -> w_note w = false ->
  w_step w (b, ETimeout x) = Some (w', y) -> l_timeout (w_l w') = x /\ w_step w' (false, ETake now) = None.
Proof.
  intros w b x w' y now S Nn H. unfold w_step, l_step in H. injection H as <- <-. split; [reflexivity|]. unfold w_step, may_run. cbn [w_sleep w_note]. rewrite S, Nn. reflexivity.
Qed.
Print Assumptions C75_setting_does_not_wake.

(** A timeout switched on, or made shorter, while samples are pending does not apply to them: the sleeping thread is not notified. *)
Theorem C75_timeout_while_pending_refuted :
  ~ (forall max timeout vs w xs now, w_run (w_new max timeout) vs = Some (w, xs) -> all_fit (s_init timeout) (evs vs) xs -> (2 * N.of_nat (length vs) + 2 < 2 ^ 64)%N ->
     let q := s_after (s_init timeout) (evs vs) xs in
     s_ph q = SIdle -> s_pend q <> [] -> (0 < s_timeout q)%N -> (s_latest q + s_timeout q <= now)%N ->
     exists w', w_step w (false, ETake now) = Some (w', OTook true)).
Proof.
  intros H.
  assert (K := H 4 1000%N [(false, EAdd 1 5%N [7%N]); (false, ETake 6%N); (false, ETimeout 10%N)]).
  cbn in K. specialize (K _ _ 500%N eq_refl). cbn in K. destruct K as [w' K]; try discriminate; try lia; auto.
  repeat split; auto. discriminate.
Qed.
Print Assumptions C75_timeout_while_pending_refuted.

(** The hypotheses are met: a sample, the thread goes to sleep until 15, an acknowledgement, a longer timeout; at 30 it takes the sample; the second sample fills a buffer of two *)
Example C75_meets : exists w xs, w_run (w_new 4 10) [(false, EAdd 1 5%N [7%N]); (false, ETake 6%N); (false, ETimeout 20%N)] = Some (w, xs) /\
  all_fit (s_init 10) [EAdd 1 5%N [7%N]; ETake 6%N; ETimeout 20%N] xs /\ calm (s_init 10) [EAdd 1 5%N [7%N]; ETake 6%N; ETimeout 20%N] xs /\
  s_pend (s_after (s_init 10) [EAdd 1 5%N [7%N]; ETake 6%N; ETimeout 20%N] xs) = [[7%N]] /\ w_sleep w = Some (Some 15%N) /\ w_note w = false.
Proof. do 2 eexists. split; [reflexivity|]. cbn. repeat split; try discriminate; auto. right. right. lia. Qed.
Example C75_meets_full : exists w xs, w_run (w_new 2 0) [(false, ETake 1%N); (false, EAdd 1 5%N [7%N]); (false, ETake 6%N); (false, EAdd 1 7%N [8%N])] = Some (w, xs) /\
  xs = [OTook false; OAdd true false; OTook false; OAdd true false] /\ w_sleep w = Some None /\ w_note w = true.
Proof. do 2 eexists. split; [reflexivity|]. repeat split. Qed.
