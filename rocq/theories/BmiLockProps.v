(** C65: the receiving thread and the calls of the BMI port manager. *)
From Coq Require Import List Arith NArith Bool Lia.
From Verif Require Import BmiLockModel BmiLockSpec BmiLockProofs.
Import ListNotations.

(** Whatever the order of the steps of the receiving thread and of any number of calling threads: a packet is handled only for a port that is there, for a descriptor select reported last, and no port is removed or added and no descriptor closed while a packet is being handled. *)
Theorem C65_handled : forall sock acts s, l_run sock (l_new sock) acts = Some s -> handled_well (l_log s).
Proof. intros sock acts s R. apply (g_well _ _ (v_log _ _ (l_run_ok _ _ _ _ (LI_new sock) R))). Qed.
Print Assumptions C65_handled.

(** No descriptor is closed while the receiving thread waits for it in select. *)
Theorem C65_closed : forall sock acts s, l_run sock (l_new sock) acts = Some s -> closed_well (l_log s).
Proof. intros sock acts s R. apply (g_closed _ _ (v_log _ _ (l_run_ok _ _ _ _ (LI_new sock) R))). Qed.
Print Assumptions C65_closed.

(** A remove that waits for the answer of the receiving thread can still return exactly when that thread waits in select with the socket among the descriptors it was given, or has been told of it there; otherwise neither this call nor any other ever returns again. *)
Theorem C65_remove : forall sock acts s t, l_run sock (l_new sock) acts = Some s -> waits s t ->
  (can_return sock s t <-> attentive sock s) /\
  (~ attentive sock s -> forall u, ~ can_return sock s u).
Proof.
  intros sock acts s t R WT. assert (I := l_run_ok _ _ _ _ (LI_new sock) R).
  assert (D : ~ attentive sock s -> forall u, ~ can_return sock s u).
  { intros NA u (acts' & s' & new & R' & L & IN). destruct (deaf_run _ _ _ _ _ I WT NA R') as (_ & new' & L' & X). rewrite L in L'. apply app_inv_head in L'. subst new'. apply (X u IN). }
  split; auto. split; [|apply attentive_returns; auto]. intros CR.
  assert (DEC : attentive sock s \/ ~ attentive sock s).
  { unfold attentive. destruct (l_sel s) as [| |fds mx|ready| | | |]; try (destruct (Nat.eq_dec (l_back s) 0); auto; fail); auto.
    - destruct (in_dec N.eq_dec sock fds); [|tauto]. destruct (N.le_gt_cases sock mx); [tauto|]. right. intros [_ X]. lia.
    - destruct (in_dec N.eq_dec sock ready); auto. }
  destruct DEC as [|NA]; auto. exfalso. apply (D NA t CR).
Qed.
Print Assumptions C65_remove.

(** The socket is 5.  Port 1 with descriptor 10 is added and the thread started. *)
Definition ex_before : list laction := [LCall 0 (KAdd 1 10); LStep 0; LStart].
(** The remove takes the lock before the receiving thread takes it to copy the fd_set. *)
Definition ex_dead : list laction := ex_before ++ [LCall 0 (KRemove 1); LStep 0; LStep 0].
(** The remove finds the receiving thread in select. *)
Definition ex_select : list laction := ex_before ++ [LSel; LCall 0 (KRemove 1); LStep 0; LStep 0].

Lemma ex_dead_run : match l_run 5 (l_new 5) ex_dead with Some s => l_call s 0 = CRead 1 10 /\ l_sel s = TTop /\ l_back s = 0 /\ l_writer s = Some 0 | None => False end.
Proof. vm_compute. auto. Qed.
Example C65_not_attentive : exists s, l_run 5 (l_new 5) ex_dead = Some s /\ waits s 0 /\ ~ attentive 5 s.
Proof. assert (H := ex_dead_run). destruct (l_run 5 (l_new 5) ex_dead) as [s|]; [|contradiction]. destruct H as (A & B & C & D). exists s. split; auto. split; [exists 1%N, 10%N; auto|]. unfold attentive. rewrite B, C. auto. Qed.
Example C65_attentive : exists s, l_run 5 (l_new 5) ex_select = Some s /\ waits s 0 /\ attentive 5 s.
Proof.
  assert (H : match l_run 5 (l_new 5) ex_select with Some s => l_call s 0 = CRead 1 10 /\ l_sel s = TSelect [10; 5]%N 10 | None => False end) by (vm_compute; auto).
  destruct (l_run 5 (l_new 5) ex_select) as [s|]; [|contradiction]. destruct H as (A & B). exists s. split; auto. split; [exists 1%N, 10%N; auto|]. unfold attentive. rewrite B. cbn. split; [auto|]. intros X. discriminate X.
Qed.
(** A whole run: the port receives, is removed while the thread is in select, and its descriptor is closed. *)
Example C65_run : option_map l_log (l_run 5 (l_new 5) (ex_before ++ [LSel; LSelected [10%N]; LSel; LSel; LSel; LSel; LSel; LSel; LCall 3 (KRemove 1); LStep 3; LStep 3; LSelected [5%N]; LSel; LSel; LStep 3; LStep 3])) =
  Some [EAdded 1 10; EReturned 0; ESelect [10; 5]%N; ESelected [10%N]; EBegin 1 10; EEnd 1; ESelect [10; 5]%N; ESelected [5%N]; EClosed 10; ERemoved 1; EReturned 3].
Proof. vm_compute. reflexivity. Qed.

(** A remove holds the lock for writing while it waits for the answer; when the receiving thread is about to take that lock to copy the fd_set, both wait for ever. *)
Theorem C65_deadlock_refuted : ~ (forall sock acts s t, l_run sock (l_new sock) acts = Some s -> l_sel s <> TNone -> waits s t -> can_return sock s t).
Proof.
  intros H. assert (R := ex_dead_run). destruct (l_run 5 (l_new 5) ex_dead) as [s|] eqn:E; [|contradiction]. destruct R as (A & B & C & D).
  assert (WT : waits s 0) by (exists 1%N, 10%N; auto). assert (CR : can_return 5 s 0) by (eapply H; eauto; rewrite B; discriminate). apply (proj1 (C65_remove _ _ _ _ E WT)) in CR. unfold attentive in CR. rewrite B, C in CR. auto.
Qed.
Print Assumptions C65_deadlock_refuted.

(** Before bmi_start_mgr a remove of an existing port never returns. *)
Theorem C65_not_started_refuted : ~ (forall sock acts s t, l_run sock (l_new sock) acts = Some s -> waits s t -> l_sel s = TNone -> exists acts' s' new, ~ In LStart acts' /\ l_run sock s acts' = Some s' /\ l_log s' = l_log s ++ new /\ In (EReturned t) new).
Proof.
  intros H. assert (R : match l_run 5 (l_new 5) [LCall 0 (KAdd 1 10); LStep 0; LCall 0 (KRemove 1); LStep 0; LStep 0] with Some s => l_call s 0 = CRead 1 10 /\ l_sel s = TNone /\ l_back s = 0 | None => False end) by (vm_compute; auto).
  destruct (l_run 5 (l_new 5) _) as [s|] eqn:E; [|contradiction]. destruct R as (A & B & C). assert (WT : waits s 0) by (exists 1%N, 10%N; auto).
  destruct (H _ _ _ _ E WT B) as (acts' & s' & new & _ & R' & L & IN). assert (CR : can_return 5 s 0) by (exists acts', s', new; auto). apply (proj1 (C65_remove _ _ _ _ E WT)) in CR. unfold attentive in CR. rewrite B, C in CR. auto.
Qed.
Print Assumptions C65_not_started_refuted.

(** The socket is not counted in the highest descriptor given to select: when every port has a lower one, a remove never returns although the receiving thread waits in select. *)
Theorem C65_low_refuted : ~ (forall sock acts s t fds maxfd, l_run sock (l_new sock) acts = Some s -> l_sel s = TSelect fds maxfd -> waits s t -> can_return sock s t).
Proof.
  intros H. assert (R : match l_run 5 (l_new 5) [LCall 0 (KAdd 1 3); LStep 0; LStart; LSel; LCall 0 (KRemove 1); LStep 0; LStep 0] with Some s => l_call s 0 = CRead 1 3 /\ l_sel s = TSelect [3; 5]%N 3 | None => False end) by (vm_compute; auto).
  destruct (l_run 5 (l_new 5) _) as [s|] eqn:E; [|contradiction]. destruct R as (A & B). assert (WT : waits s 0) by (exists 1%N, 3%N; auto).
  assert (CR := H _ _ _ _ _ _ E B WT). apply (proj1 (C65_remove _ _ _ _ E WT)) in CR. unfold attentive in CR. rewrite B in CR. destruct CR as [_ CR]. apply CR. reflexivity.
Qed.
Print Assumptions C65_low_refuted.

(** A port added after select returned can be received from although select has never reported it: it has the descriptor of a port removed in between. *)
Theorem C65_reuse_refuted : ~ (forall sock acts s, l_run sock (l_new sock) acts = Some s -> forall l0 ready l0' p fd l2, l_log s = l0 ++ ESelected ready :: l0' ++ EBegin p fd :: l2 -> (forall r, ~ In (ESelected r) l0') -> there l0 p false = true).
Proof.
  intros H.
  assert (R : match l_run 5 (l_new 5) (ex_select ++ [LSelected [10; 5]%N; LSel; LSel; LStep 0; LStep 0; LCall 0 (KAdd 2 10); LStep 0; LSel; LSel]) with
              | Some s => l_log s = [EAdded 1 10; EReturned 0; ESelect [10; 5]%N] ++ ESelected [10; 5]%N :: [EClosed 10; ERemoved 1; EReturned 0; EAdded 2 10; EReturned 0] ++ EBegin 2 10 :: [] | None => False end) by (vm_compute; reflexivity).
  destruct (l_run 5 (l_new 5) _) as [s|] eqn:E; [|contradiction]. specialize (H _ _ _ E _ _ _ _ _ _ R). cbn in H. assert (X : false = true) by (apply H; intros r X; intuition discriminate). discriminate X.
Qed.
Print Assumptions C65_reuse_refuted.
