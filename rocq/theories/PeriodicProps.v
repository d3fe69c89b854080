(** C60: periodic tasks. *)
From Coq Require Import List Arith NArith Bool Lia.
From Verif Require Import PeriodicModel PeriodicSpec PeriodicProofs.
Import ListNotations.
Local Open Scope N_scope.

(** register_task and unregister_task say whether they changed anything. *)
Theorem C60_calls iv s : reachable iv s -> forall post pre k ok,
  (s_log s = post ++ Reg k ok :: pre -> ok = negb (registered pre k)) /\ (s_log s = post ++ Unreg k ok :: pre -> ok = registered pre k).
Proof. intros R post pre k ok. destruct (reach_INV iv s R) as [G _]. split; intros E; apply (G _ _ _ E). Qed.
Print Assumptions C60_calls.

(** A task runs only while it is registered: never before, and never once it has been unregistered or destroyed. *)
Theorem C60_only_registered iv s : reachable iv s -> forall post pre k t, s_log s = post ++ Begins k t :: pre -> registered pre k = true.
Proof. intros R post pre k t E. destruct (reach_INV iv s R) as [G _]. apply (G _ _ _ E). Qed.
Print Assumptions C60_only_registered.

(** A run follows a wait for some task, and if that task was not taken off the list during the wait, the task that runs is due. *)
Theorem C60_not_early iv s : reachable iv s -> forall post pre k t, s_log s = post ++ Begins k t :: pre ->
  exists w mid pre', pre = mid ++ Waits w :: pre' /\ Forall plain mid /\ (undisturbed w mid -> exists d, due iv pre k = Some d /\ d <= t).
Proof. intros R post pre k t E. destruct (reach_INV iv s R) as [G _]. apply (G _ _ _ E). Qed.
Print Assumptions C60_not_early.

(** If a task is taken off the list just as its time comes, another one is run in its place although it is not due. *)
Theorem C60_early_refuted : ~ (forall iv s, reachable iv s -> forall post pre k t, s_log s = post ++ Begins k t :: pre -> exists d, due iv pre k = Some d /\ d <= t).
Proof.
  intros H. pose (iv := fun k : nat => match k with O => 10 | _ => 1000 end).
  specialize (H iv). destruct (run iv init [Make 0; Register 0; Make 1; Register 1; Start; Loop 1; Tick 10; Free 0; Timeout 0]) as [s|] eqn:E; [|vm_compute in E; discriminate E].
  assert (R : reachable iv s) by (eexists; exact E).
  assert (L : s_log s = [] ++ Begins 1 10 :: [Freed 0; Waits 0; Reg 1 true; Made 1 0; Reg 0 true; Made 0 0]) by (vm_compute in E; inversion E; reflexivity).
  destruct (H s R _ _ _ _ L) as (d & D & LE). vm_compute in D. inversion D; subst. apply LE. reflexivity.
Qed.
Print Assumptions C60_early_refuted.

Lemma running_on iv ls : forall s s', (s_running s = true -> s_loop s <> Off) -> run iv s ls = Some s' -> s_running s' = true -> s_loop s' <> Off.
Proof.
  induction ls as [|a ls IH]; intros s s' H R; cbn [run] in R; [inversion R; subst; exact H|]. destruct (step iv s a) as [s1|] eqn:S; [|discriminate]. apply (IH s1 s'); auto. clear IH R.
  destruct s as [now alive nxt q running lp told log]. cbn [s_running s_loop] in H. destruct a; cbn [step] in S;
    repeat match type of S with
           | context [match ?x with _ => _ end] => destruct x eqn:?; try discriminate S
           | Some _ = Some _ => inversion S; subst; clear S
           end; cbn [s_running s_loop]; try discriminate; try (intros; discriminate); auto.
  all: destruct running; cbn in *; try discriminate; intros; try discriminate; auto.
Qed.
(** While a registered task is due the loop does not sleep: it holds the mutex or can take it, has been notified, or its wait is over. *)
Theorem C60_awake iv s k d : reachable iv s -> s_running s = true -> s_loop s <> Stuck -> registered (s_log s) k = true -> due iv (s_log s) k = Some d -> d <= s_now s ->
  exists a s', step iv s a = Some s' /\ (a = Finish \/ (exists i, a = Loop i) \/ (exists i, a = Timeout i) \/ a = Wake /\ s_told s = true).
Proof.
  intros R RU NS RG DU DN. destruct (reach_INV iv s R) as [_ [L|[A B C D]]]; [contradiction|]. destruct R as [ls R]. assert (NO : s_loop s <> Off) by (apply (running_on iv ls init s); auto; discriminate).
  rewrite A in RG. pose proof (C k (B k RG)) as DK. rewrite DU in DK. inversion DK; subst d; clear DK. clear R DU A B C.
  destruct s as [now alive nxt q running lp told log]. cbn [s_running s_loop s_q s_told s_next s_now] in *. subst running. unfold waiting in D. cbn [s_running s_loop s_q s_told s_next s_now] in D.
  destruct lp as [| | |w t|m|]; try contradiction; cbn [exec] in RG; rewrite ?orb_false_r in RG.
  - destruct q as [|x q]; [discriminate RG|]. destruct (top_exists nxt (x :: q)) as (i & m & T); [discriminate|]. exists (Loop i). eexists. cbn [step negb]. rewrite T. split; [reflexivity|]. right; left. exists i. reflexivity.
  - destruct told; [exists Wake; eexists; split; [reflexivity|auto 6]|]. rewrite (D eq_refl) in RG. discriminate RG.
  - destruct told; [exists Wake; eexists; split; [reflexivity|auto 6]|]. destruct D as [_ D]. destruct (D eq_refl) as [_ D1]. specialize (D1 k RG).
    destruct q as [|x q]; [discriminate RG|]. destruct (top_exists nxt (x :: q)) as (i & m & T); [discriminate|]. exists (Timeout i). eexists. cbn [step]. destruct (N.ltb_spec now t); [lia|]. rewrite T. split; [reflexivity|]. right; right; left. exists i. reflexivity.
  - exists Finish. eexists. split; [reflexivity|auto].
Qed.
Print Assumptions C60_awake.

(** No task is starved: from the moment a registered task is due until it runs or leaves the list, every other task runs at most once. *)
Theorem C60_fair iv s k d ls s' part : (forall j, 0 < iv j) -> reachable iv s -> registered (s_log s) k = true -> due iv (s_log s) k = Some d -> d <= s_now s ->
  run iv s ls = Some s' -> s_log s' = part ++ s_log s -> Forall (calm k) part -> forall j, (runs j part <= 1)%nat.
Proof.
  intros IV R RG DU DN RU EL CA j. pose proof (reach_INV iv s R) as I.
  assert (F : fair k d [] s).
  { constructor; auto. destruct I as [_ [L|[A B C D]]]; auto. right. rewrite A in RG. pose proof (B k RG) as AL. rewrite (C k AL) in DU. inversion DU; subst. apply orb_true_iff in RG. destruct RG; auto. }
  pose proof (fair_run iv ls k d [] s s' part IV I RU EL CA F) as [_ _ FR]. rewrite app_nil_r in FR. destruct (FR j) as [->|[-> _]]; lia.
Qed.
Print Assumptions C60_fair.

(** A task whose function constructs or destroys a task stops everything: no task ever runs again, and no call on the list returns. *)
Theorem C60_nested_deadlocks iv s s' ls : run iv s (Nested :: ls) = Some s' -> exists part, s_log s' = part ++ s_log s /\ Forall (fun e => exists j t, e = Made j t) part.
Proof.
  cbn [run]. intros R. destruct (step iv s Nested) as [s1|] eqn:E; [|discriminate].
  assert (S1 : s_loop s1 = Stuck /\ s_log s1 = s_log s). { destruct s as [now alive nxt q running lp told log]. cbn [step] in E. destruct lp; try discriminate. inversion E; subst. auto. }
  destruct S1 as [S1 <-]. clear E s. revert s1 S1 R. induction ls as [|a ls IH]; intros s S1 R; cbn [run] in R; [inversion R; exists []; split; [reflexivity|constructor]|].
  destruct (step iv s a) as [s1|] eqn:E; [|discriminate].
  assert (X : s_loop s1 = Stuck /\ exists new, s_log s1 = new ++ s_log s /\ Forall (fun e => exists j t, e = Made j t) new).
  { destruct s as [now alive nxt q running lp told log]. cbn [s_loop] in S1. subst lp. destruct a; cbn [step free_mutex negb] in E; rewrite ?andb_false_r in E; cbn [negb] in E; try discriminate E.
    - inversion E; subst. split; auto. exists []. split; auto.
    - destruct (alive k); [discriminate|]. inversion E; subst. split; auto. exists [Made k now]. split; auto. repeat constructor. eauto. }
  destruct X as (S2 & new & E1 & F1). destruct (IH s1 S2 R) as (p & E2 & F2). exists (p ++ new). rewrite E2, E1, app_assoc. split; auto. apply Forall_app; auto.
Qed.
Print Assumptions C60_nested_deadlocks.

(** The loop waits with a reference to the time of a task, and the task may be destroyed during the wait. *)
Theorem C60_freed_reference_refuted : ~ (forall iv s k t, reachable iv s -> s_loop s = WaitFor k t -> s_alive s k = true).
Proof.
  intros H. destruct (run (fun _ => 10) init [Make 0; Register 0; Start; Loop 0; Free 0]) as [s|] eqn:E; [|vm_compute in E; discriminate E].
  assert (A : s_loop s = WaitFor 0 10 /\ s_alive s 0%nat = false) by (vm_compute in E; inversion E; split; reflexivity). destruct A as [A1 A2].
  rewrite (H (fun _ => 10) s 0%nat 10) in A2; [discriminate|eexists; exact E|exact A1].
Qed.
Print Assumptions C60_freed_reference_refuted.

(** Two tasks, every 10 and every 15 *)
Example C60_run : option_map (fun s => rev (s_log s)) (run (fun k => match k with O => 10 | _ => 15 end) init
    [Make 0; Register 0; Register 0; Start; Loop 0; Make 1; Register 1; Wake; Loop 1; Tick 10; Timeout 1; Tick 2; Finish; Loop 1; Tick 3; Timeout 1; Finish; Unregister 0; Unregister 0]) =
  Some [Made 0 0; Reg 0 true; Reg 0 false; Waits 0; Made 1 0; Reg 1 true; Waits 0; Begins 0 10; Ends 0 12; Waits 1; Begins 1 15; Ends 1 15; Unreg 0 true; Unreg 0 false].
Proof. vm_compute. reflexivity. Qed.
(** A state that meets the hypotheses of [C60_awake] and [C60_fair]: task 0 is due while the loop waits *)
Example C60_due : exists s, reachable (fun _ => 10) s /\ s_running s = true /\ s_loop s <> Stuck /\ registered (s_log s) 0 = true /\ due (fun _ => 10) (s_log s) 0 = Some 10 /\ 10 <= s_now s.
Proof.
  destruct (run (fun _ => 10) init [Make 0; Register 0; Start; Loop 0; Tick 12]) as [s|] eqn:E; [|vm_compute in E; discriminate E]. exists s. split; [eexists; exact E|].
  vm_compute in E. inversion E. cbn. repeat split; try discriminate; lia.
Qed.
