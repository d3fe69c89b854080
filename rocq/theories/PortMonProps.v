(** C46: the port monitor. *)
From Coq Require Import List Arith NArith Bool Lia Sorted.
From Verif Require Import PortMonModel PortMonSpec PortMonProofs.
Import ListNotations.

Definition idle (m : pmon) (t : nat) : Prop := pm_todo m t = [].
Definition delivered (m : pmon) : list change := map fst (pm_log m).

(** Any number of threads notify, poll and register callbacks, in any interleaving.  There is a
    sequence of status changes [h], determined by the calls: a notification that fits the last
    event of its port is a change and any other is ignored; a poll changes exactly the ports present
    whose status differs.  In [h] every port is added, goes up and down in turn, and is removed.
    The changes made by a thread are given to the callbacks by that thread, each exactly once, in
    order, and all of them before its call returns; the same for messages, of which none is empty
    and none precedes the callback. *)
Theorem C46_port_monitor : forall w acts m, pm_run w pm_new acts = Some m ->
  exists h, changes acts h /\
    (forall p, protocol None (of_port p (map snd h))) /\
    (forall t, prefix (by_thread t (delivered m)) (by_thread t h)) /\
    (forall t, idle m t -> by_thread t (delivered m) = by_thread t h) /\
    (w = true -> forall t, prefix (concat (by_thread t (pm_sent m))) (reports (by_thread t (delivered m))) /\
                           (idle m t -> concat (by_thread t (pm_sent m)) = reports (by_thread t h))) /\
    (w = false -> forall t, by_thread t (pm_sent m) = []) /\
    Forall (fun x => snd x <> []) (pm_sent m).
Proof.
  intros w acts m E. destruct (PI_run w acts pm_new [] [] m (PI_new w) ch_nil E) as (h & C & I). cbn [app] in C.
  exists h. split; [exact C|]. split; [apply (changes_protocol acts h C)|]. destruct I as [_ _ _ D S F G]. unfold delivered, idle.
  split. { intros t. exists (dels (pm_todo m t)). apply D. }
  split. { intros t T. rewrite D, T. cbn. rewrite app_nil_r. reflexivity. }
  split; [|split; [|exact F]].
  - intros -> t. specialize (S t). specialize (D t). destruct (G t) as [pre Gp]. split.
    + rewrite Gp, D, reports_app, app_assoc in S. apply app_inv_tail in S. exists pre. symmetry. exact S.
    + intros T. rewrite T in S. cbn in S. rewrite app_nil_r in S. exact S.
  - intros -> t. specialize (S t). apply app_eq_nil in S as [S _].
    clear - S F. unfold by_thread in *. induction (pm_sent m) as [|[u v] l IH]; [reflexivity|].
    inversion F as [|? ? F1 F2]; subst. cbn in *. destruct (u =? t); cbn in *; [|auto].
    apply app_eq_nil in S as [S _]. contradiction.
Qed.
Print Assumptions C46_port_monitor.

(** When a callback is invoked, so is every callback registered for that event before, once per
    registration, and no other. *)
Theorem C46_callbacks : forall w acts t m m', pm_run w pm_new acts = Some m -> pm_run w pm_new (acts ++ [ARun t]) = Some m' ->
  pm_log m' = pm_log m \/
  exists p e, pm_log m' = pm_log m ++ [(t, (p, e), registered acts e)].
Proof.
  intros w acts t m m' E E'. rewrite run_app, E in E'. cbn in E'.
  destruct (pm_todo m t) as [|[p e|v] r]; [discriminate| |]; injection E' as <-; [right|left; reflexivity].
  exists p, e. cbn. rewrite (cbs_run w acts _ _ E e). reflexivity.
Qed.
Print Assumptions C46_callbacks.
Theorem C46_only_steps_deliver : forall w acts a m m', pm_run w pm_new acts = Some m ->
  pm_run w pm_new (acts ++ [a]) = Some m' -> (forall t, a <> ARun t) -> pm_log m' = pm_log m.
Proof.
  intros w acts a m m' E E' N. rewrite run_app, E in E'. cbn [pm_run] in E'.
  destruct (pm_step w m a) as [m1|] eqn:S; [|discriminate]. injection E' as <-.
  destruct a as [t p x|t f|x cb|t]; cbn [pm_step] in S.
  - destruct (pm_todo m t); [|discriminate]. destruct (pm_accept _ p x); injection S as <-; reflexivity.
  - destruct (pm_todo m t); [|discriminate]. destruct (pm_poll f _ _); injection S as <-; reflexivity.
  - injection S as <-. reflexivity.
  - destruct (N t eq_refl).
Qed.
Print Assumptions C46_only_steps_deliver.

(** The callbacks of one port, in the order they are made. *)
Definition seen (m : pmon) (p : N) : list pevt := of_port p (map snd (delivered m)).
(** The changes of the port are all made by the thread [t]. *)
Definition one_thread (acts : list paction) (p : N) (t : nat) : Prop :=
  Forall (fun a => match a with ANotify u q _ => q = p -> u = t | APoll u _ => u = t | _ => True end) acts.

Lemma of_port_by_thread p t (h : list change) : Forall (fun x => fst (snd x) = p -> fst x = t) h ->
  of_port p (map snd h) = of_port p (by_thread t h).
Proof.
  unfold of_port, by_thread. induction 1 as [|[u [q e]] l H _ IH]; [reflexivity|]. cbn in *.
  destruct (N.eqb_spec q p) as [->|D].
  - rewrite (H eq_refl), Nat.eqb_refl. cbn. rewrite N.eqb_refl. cbn. f_equal. exact IH.
  - destruct (u =? t); cbn; [|exact IH]. destruct (N.eqb_spec q p); [contradiction|exact IH].
Qed.
Lemma one_thread_changes acts h p t : changes acts h -> one_thread acts p t ->
  Forall (fun x : change => fst (snd x) = p -> fst x = t) h.
Proof.
  unfold one_thread. induction 1 as [|acts h u q e l H IH M|acts h u f l H IH M|acts h e cb H IH|acts h u H IH]; intros F;
    [constructor|..]; apply Forall_app in F as [F1 F2]; auto; apply Forall_app; (split; [auto|]).
  - apply Forall_inv in F2. destruct M as [[_ ->]|[_ ->]]; cbn; repeat constructor; auto.
  - apply Forall_inv in F2. apply Forall_forall. intros x I. apply in_map_iff in I as (y & <- & _). cbn. auto.
Qed.
Lemma by_thread_in {A} t (x : A) l : In x (by_thread t l) <-> In (t, x) l.
Proof.
  unfold by_thread. rewrite in_map_iff. split.
  - intros ([u y] & E & I). apply filter_In in I as [I U]. cbn in *. subst. apply Nat.eqb_eq in U. subst. exact I.
  - intros I. exists (t, x). split; auto. apply filter_In. split; auto. apply Nat.eqb_refl.
Qed.

(** If one thread makes all the changes of a port, its callbacks follow the protocol: they are an
    initial part of the changes of that port, and all of them when that thread is idle. *)
Theorem C46_one_thread : forall w acts m p t, pm_run w pm_new acts = Some m -> one_thread acts p t ->
  exists h, changes acts h /\ protocol None (seen m p) /\ prefix (seen m p) (of_port p (map snd h)) /\
    (idle m t -> seen m p = of_port p (map snd h)).
Proof.
  intros w acts m p t E O. destruct (C46_port_monitor w acts m E) as (h & C & Pr & Pf & Id & _). exists h. split; [exact C|].
  assert (Oh := one_thread_changes acts h p t C O).
  assert (Od : Forall (fun x : change => fst (snd x) = p -> fst x = t) (delivered m)).
  { apply Forall_forall. intros [u x] I Q. apply by_thread_in in I. destruct (Pf u) as [r R].
    assert (J : In x (by_thread u h)) by (rewrite R; apply in_app_iff; auto). apply by_thread_in in J.
    rewrite Forall_forall in Oh. apply (Oh _ J Q). }
  unfold seen. rewrite (of_port_by_thread p t _ Od), (of_port_by_thread p t _ Oh).
  assert (P : prefix (of_port p (by_thread t (delivered m))) (of_port p (by_thread t h))).
  { destruct (Pf t) as [r R]. rewrite R, of_port_app. eexists. reflexivity. }
  split; [|split; [exact P|]].
  - specialize (Pr p). rewrite (of_port_by_thread p t _ Oh) in Pr. destruct P as [r R]. rewrite R in Pr.
    clear - Pr. revert Pr. generalize (None : option pevt). induction (of_port p (by_thread t (delivered m))) as [|e l IH]; intros d; cbn; auto.
    intros [A B]. eauto.
  - intros T. rewrite (Id t T). reflexivity.
Qed.
Print Assumptions C46_one_thread.

(** With two threads, as soon as the switch polls its ports, callbacks can contradict the protocol:
    here a port is reported up before it is reported added, and then down after it is removed. *)
Theorem C46_concurrent_order_refuted :
  ~ (forall w acts m p, pm_run w pm_new acts = Some m -> (forall t, idle m t) -> protocol None (seen m p)).
Proof.
  intros H.
  destruct (pm_run true pm_new [ANotify 0 7 Added; APoll 1 (fun _ => true); ARun 1; ARun 0; ARun 1]) as [m|] eqn:E; [|vm_compute in E; discriminate].
  specialize (H true _ m 7%N E). cbn in E. injection E as <-. cbn in H.
  assert (X : Up = Added); [|discriminate]. apply H. intros t. unfold idle. cbn. unfold tset.
  destruct (t =? 1) eqn:E1; [reflexivity|]. destruct (t =? 0) eqn:E0; reflexivity.
Qed.
Print Assumptions C46_concurrent_order_refuted.
Example late_events :
  option_map (fun m => seen m 7)
    (pm_run true pm_new [ANotify 0 7 Added; APoll 1 (fun _ => true); ARun 1; ARun 0; ARun 1;
                         APoll 1 (fun _ => false); ANotify 0 7 Removed; ARun 0; ARun 1; ARun 1])
  = Some [Up; Added; Removed; Down].
Proof. vm_compute. reflexivity. Qed.

(** ** Non-vacuity *)
Definition ex_acts : list paction :=
  [ARegister Up 1; ARegister Up 2; ANotify 0 7 Up; ANotify 0 7 Added; ARun 0; ANotify 0 3 Added; ARun 0; ARegister Down 3;
   APoll 0 (fun p => true); ARun 0; ARun 0; ARun 0; ANotify 0 3 Up; ANotify 0 3 Down; ARun 0; ARun 0; ANotify 0 7 Removed; ARun 0;
   APoll 0 (fun p => true); ARun 0; ARun 0].
Example C46_nonvacuous :
  one_thread ex_acts 3 0 /\
  match pm_run true pm_new ex_acts with
  | Some m => idle m 0 /\ seen m 3 = [Added; Up; Down; Up] /\ seen m 7 = [Added; Up; Removed] /\
      pm_log m = [(0, (7%N, Added), []); (0, (3%N, Added), []); (0, (3%N, Up), [1; 2]); (0, (7%N, Up), [1; 2]);
                  (0, (3%N, Down), [3]); (0, (7%N, Removed), []); (0, (3%N, Up), [1; 2])] /\
      pm_sent m = [(0, [(3%N, true); (7%N, true)]); (0, [(3%N, false)]); (0, [(3%N, true)])]
  | None => False
  end.
Proof. split; [repeat constructor|]. vm_compute. repeat split; reflexivity. Qed.
