(** Theorems about the blocking egress queueing logic (C15). *)
From Coq Require Import List Arith Bool Lia.
From Verif Require Import Base BlockQModel.
Import ListNotations.

Section P.
Context {T : Type}.
Variables (wmap : nat -> nat) (nw : nat).

Definition R (s : bst T) (p : bsp T) : Prop :=
  length (b_w s) = nw /\ (forall w l, nth_error (b_w s) w = Some l -> p_l p w = l /\ Forall (fun x => wmap (snd x) = w /\ b_q s (snd x) <> None) l) /\
  (forall w, nw <= w -> p_l p w = []) /\
  forall q, match b_q s q with
            | None => p_cap p q = b_cap s /\ in_queue q (p_l p (wmap q)) = 0
            | Some (n, c) => p_cap p q = c /\ n = in_queue q (p_l p (wmap q)) end.

Lemma iq_app q (l : list (T * nat)) x : in_queue q (l ++ [x]) = in_queue q l + (if snd x =? q then 1 else 0).
Proof. unfold in_queue. rewrite filter_app, app_length. cbn. destruct (snd x =? q); auto. Qed.
Lemma iq_cons q (l : list (T * nat)) x : in_queue q (x :: l) = (if snd x =? q then 1 else 0) + in_queue q l.
Proof. unfold in_queue. cbn. destruct (snd x =? q); auto. Qed.

Lemma get_ok s p q s1 n c : R s p -> b_get s q = (s1, (n, c)) ->
  R s1 p /\ b_q s1 q = Some (n, c) /\ b_w s1 = b_w s.
Proof.
  intros HR G. pose proof HR as (L & W & O & Q). unfold b_get in G. destruct (b_q s q) as [[n' c']|] eqn:E; injection G as <- <- <-; auto.
  cbn. rewrite Nat.eqb_refl. split; auto. split; auto. split; [|split; auto].
  - intros w l H. destruct (W w l H) as [A B]. split; auto. eapply Forall_impl; [|exact B]. cbn. intros x [X Y]. split; auto. destruct (snd x =? q); congruence.
  - intros q'. cbn [b_q b_setq p_l p_cap b_w b_cap]. destruct (Nat.eqb_spec q' q) as [->|N].
    + specialize (Q q). rewrite E in Q. intuition.
    + apply Q.
Qed.

Lemma step_ok s p o : R s p -> exists s' x p', b_step wmap s o = Some (s', x) /\ bspec wmap nw p o x p' /\ R s' p'.
Proof.
  intros HR. destruct o as [q item|w|q|q c|c]; cbn [b_step].
  - destruct (b_get s q) as [s1 [n c]] eqn:G. destruct (get_ok _ _ _ _ _ _ HR G) as (R1 & E & Ew). pose proof R1 as (L & W & O & Q).
    pose proof (Q q) as QQ. rewrite E in QQ. destruct QQ as [QC QN].
    destruct (nth_error (b_w s1) (wmap q)) as [l|] eqn:El.
    2:{ do 3 eexists. split; [reflexivity|]. split; [apply bs_throw; apply nth_error_None in El; lia|auto]. }
    assert (WL : wmap q < nw) by (rewrite <- L; apply nth_error_Some; congruence). destruct (W _ _ El) as [WA WB].
    destruct (Nat.leb_spec c n).
    { do 3 eexists. split; [reflexivity|]. split; [apply bs_wait; auto; lia|auto]. }
    do 3 eexists. split; [reflexivity|]. split; [apply bs_push; auto; lia|]. split; [cbn; rewrite list_set_length; auto|]. split; [|split].
    + intros w l' H'. cbn in H' |- *. destruct (Nat.eqb_spec w (wmap q)) as [->|N].
      * rewrite nth_error_list_set_eq in H' by lia. injection H' as <-. rewrite WA. split; auto. apply Forall_app. split.
        -- eapply Forall_impl; [|exact WB]. cbn. intros x [X Y]. split; auto. destruct (snd x =? q); congruence.
        -- constructor; [|constructor]. cbn. rewrite Nat.eqb_refl. split; congruence.
      * rewrite nth_error_list_set_neq in H' by auto. destruct (W _ _ H') as [A B]. split; auto.
        eapply Forall_impl; [|exact B]. cbn. intros x [X Y]. split; auto. destruct (snd x =? q); congruence.
    + intros w Hw. cbn. destruct (Nat.eqb_spec w (wmap q)); [lia|auto].
    + intros q'. cbn [b_q b_setq p_l p_cap b_w b_cap]. destruct (Nat.eqb_spec q' q) as [->|N].
      * rewrite Nat.eqb_refl, iq_app. cbn [snd]. rewrite Nat.eqb_refl. split; auto. lia.
      * specialize (Q q'). assert (EE : in_queue q' (if wmap q' =? wmap q then p_l p (wmap q') ++ [(item, q)] else p_l p (wmap q')) = in_queue q' (p_l p (wmap q'))).
        { destruct (wmap q' =? wmap q); auto. rewrite iq_app. cbn [snd]. destruct (Nat.eqb_spec q q'); [congruence|lia]. }
        rewrite EE. exact Q.
  - pose proof HR as (L & W & O & Q). destruct (nth_error (b_w s) w) as [l|] eqn:El.
    2:{ do 3 eexists. split; [reflexivity|]. split; [apply bs_popthrow; apply nth_error_None in El; lia|auto]. }
    assert (WL : w < nw) by (rewrite <- L; apply nth_error_Some; congruence). destruct (W _ _ El) as [WA WB].
    destruct l as [|[item q] l].
    { do 3 eexists. split; [reflexivity|]. split; [apply bs_popwait; auto|auto]. }
    inversion WB as [|? ? [B1 B2] B3]; subst x l0. cbn [snd] in B1, B2. subst w. destruct (b_q s q) as [[n c]|] eqn:E; [|congruence].
    pose proof (Q q) as QQ. rewrite E in QQ. destruct QQ as [QC QN].
    do 3 eexists. split; [reflexivity|]. split; [eapply bs_pop; eauto|]. split; [cbn; rewrite list_set_length; auto|]. split; [|split].
    + intros w l' H'. cbn in H' |- *. destruct (Nat.eqb_spec w (wmap q)) as [->|N].
      * rewrite nth_error_list_set_eq in H' by lia. injection H' as <-. split; auto.
        eapply Forall_impl; [|exact B3]. cbn. intros x [X Y]. split; auto. destruct (snd x =? q); congruence.
      * rewrite nth_error_list_set_neq in H' by auto. destruct (W _ _ H') as [A B]. split; auto.
        eapply Forall_impl; [|exact B]. cbn. intros x [X Y]. split; auto. destruct (snd x =? q); congruence.
    + intros w Hw. cbn. destruct (Nat.eqb_spec w (wmap q)); [lia|auto].
    + intros q'. cbn [b_q b_setq p_l p_cap b_w b_cap]. destruct (Nat.eqb_spec q' q) as [->|N].
      * rewrite Nat.eqb_refl. rewrite WA in QN. rewrite iq_cons in QN. cbn [snd] in QN. rewrite Nat.eqb_refl in QN. split; auto. lia.
      * specialize (Q q'). assert (EE : in_queue q' (if wmap q' =? wmap q then l else p_l p (wmap q')) = in_queue q' (p_l p (wmap q'))).
        { destruct (Nat.eqb_spec (wmap q') (wmap q)) as [->|]; auto. rewrite WA, iq_cons. cbn [snd]. destruct (Nat.eqb_spec q q'); [congruence|lia]. }
        rewrite EE. exact Q.
  - do 3 eexists. split; [reflexivity|]. split; [|exact HR]. destruct HR as (L & W & O & Q). specialize (Q q). destruct (b_q s q) as [[n c]|].
    + destruct Q as [_ ->]. apply bs_size.
    + destruct Q as [_ Q]. rewrite <- Q. apply bs_size.
  - destruct (b_get s q) as [s1 [n c0]] eqn:G. destruct (get_ok _ _ _ _ _ _ HR G) as ((L & W & O & Q) & E & Ew).
    do 3 eexists. split; [reflexivity|]. split; [apply bs_cap|]. split; auto. split; [|split; auto].
    + intros w l H. destruct (W w l H) as [A B]. split; auto. eapply Forall_impl; [|exact B]. cbn. intros x [X Y]. split; auto. destruct (snd x =? q); congruence.
    + intros q'. cbn [b_q b_setq p_l p_cap b_w b_cap]. destruct (Nat.eqb_spec q' q) as [->|N]; [|apply Q]. specialize (Q q). rewrite E in Q. split; auto. apply Q.
  - pose proof HR as (L & W & O & Q). do 3 eexists. split; [reflexivity|]. split; [apply bs_all|]. split; auto. split; [|split; auto].
    + intros w l H. destruct (W w l H) as [A B]. split; auto. eapply Forall_impl; [|exact B]. cbn. intros x [X Y]. split; auto. destruct (b_q s (snd x)); cbn; congruence.
    + intros q. cbn. specialize (Q q). destruct (b_q s q) as [[n c0]|]; cbn; intuition.
Qed.

Lemma run_ok ops : forall s p, R s p -> exists s' outs p', b_run wmap s ops = Some (s', outs) /\ bspec_run wmap nw p ops outs p' /\ R s' p'.
Proof.
  induction ops as [|o ops IH]; intros s p HR; [exists s, [], p; split; [reflexivity|split; [constructor|auto]]|].
  destruct (step_ok s p o HR) as (s1 & x & p1 & E & S & R1). destruct (IH _ _ R1) as (s2 & xs & p2 & E2 & S2 & R2).
  exists s2, (x :: xs), p2. cbn [b_run]. rewrite E, E2. split; [reflexivity|]. split; [econstructor; eauto|auto].
Qed.

Lemma R_new cap : R (b_new nw cap) (mkBsp (fun _ => []) (fun _ => cap)).
Proof.
  split; [apply repeat_length|]. split; [|split; auto; intros q; cbn; auto].
  intros w l H. cbn in H. apply nth_error_In in H. apply repeat_spec in H. subst. auto.
Qed.

(** Every history of calls behaves like one FIFO list per worker with a capacity per queue. *)
Theorem C15_blocking_history : forall cap (ops : list (bop T)), exists s outs p,
  b_run wmap (b_new nw cap) ops = Some (s, outs) /\ bspec_run wmap nw (mkBsp (fun _ => []) (fun _ => cap)) ops outs p.
Proof. intros cap ops. destruct (run_ok ops _ _ (R_new cap)) as (s & outs & p & A & B & _). eauto. Qed.

Lemma fifo_run p ops outs p' w : bspec_run wmap nw p ops outs p' ->
  p_l p w ++ b_accepted wmap w ops outs = b_delivered w ops outs ++ @p_l T p' w.
Proof.
  induction 1 as [|s o x s' os xs s'' H1 H2 IH]; [cbn; rewrite app_nil_r; auto|].
  destruct H1; cbn [b_accepted b_delivered p_l] in *; auto.
  - rewrite (Nat.eqb_sym w (wmap q)) in IH. destruct (wmap q =? w); auto. rewrite <- IH, <- app_assoc. auto.
  - rewrite (Nat.eqb_sym w w0) in IH. destruct (Nat.eqb_spec w0 w) as [->|]; auto. cbn. rewrite <- IH, H0. auto.
Qed.

(** A worker receives exactly the elements accepted for it, in the order of acceptance over all its
    queues ("the oldest element for the worker"), each with the queue it was pushed to. *)
Theorem C15_blocking_fifo : forall cap (ops : list (bop T)) s outs, b_run wmap (b_new nw cap) ops = Some (s, outs) ->
  forall w, exists waiting, b_accepted wmap w ops outs = b_delivered w ops outs ++ waiting.
Proof.
  intros cap ops s outs E w. destruct (C15_blocking_history cap ops) as (s' & outs' & p & E' & S). rewrite E in E'. injection E' as <- <-.
  exists (p_l p w). apply (fifo_run _ _ _ _ w S).
Qed.
End P.

Example ex_block : option_map snd (b_run (fun q => q mod 2) (b_new 2 1)
   [BPush 0 5; BPush 2 6; BPush 0 7; BSize 0; BPop 0; BPush 0 7; BPop 1; BSetCap 2 3; BPush 2 8; BPop 0; BPop 0; BPop 0; BPop 0; BPop 4]) =
  Some [BPushed; BPushed; BWait; BIs 1; BPopped 0 5; BPushed; BWait; BOk; BPushed; BPopped 2 6; BPopped 0 7; BPopped 2 8; BWait; BThrow].
Proof. reflexivity. Qed.
Print Assumptions C15_blocking_history.
Print Assumptions C15_blocking_fifo.
