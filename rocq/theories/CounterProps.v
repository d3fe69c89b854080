(** C14: counters. *)
From Coq Require Import List Arith NArith Bool Lia Permutation.
From Verif Require Import Base CounterModel CounterSpec CounterProofs.
Import ListNotations.

(** For every set of concurrent calls, every interleaving of their atomic operations, and each count
    (bytes or packets) of each counter, the history is linearizable: every value returned, and the value
    in memory, is what was added since the last reset or write, in one order of the calls that respects
    real time. *)
Theorem C14_each_count_linearizable : forall calls sched a, Forall call_ok calls ->
  exists l, linearization calls (cs_hist (crun calls sched)) a l /\
    value_after calls a l (cs_cells (crun calls sched) a).
Proof.
  intros calls sched a OK. destruct (run_ok calls OK a sched) as [l J].
  exists l. split; [apply INV_lin; auto|]. apply (i_val _ _ _ _ J).
Qed.

(** In particular no increment is ever lost or counted twice: a query that starts after all increments
    have returned gets their exact number and the exact sum of their lengths, modulo 2^64. *)
Definition inc_len (i : nat) (c : call) : N := match c with CInc j len => if j =? i then len else 0 | _ => 0%N end.
Definition inc_one (i : nat) (c : call) : N := match c with CInc j _ => if j =? i then 1 else 0 | _ => 0%N end.
Definition sum (l : list N) : N := fold_right N.add 0%N l.

Lemma before_two {A} (l : list A) x y : NoDup l -> before l x y -> forall l1 l2, l = l1 ++ y :: l2 -> In x l1.
Proof.
  intros ND (h1 & h2 & h3 & E) l1 l2 E2. assert (Ey : h1 ++ x :: h2 ++ y :: h3 = (h1 ++ x :: h2) ++ y :: h3) by (rewrite <- app_assoc; auto).
  rewrite Ey in E. clear Ey. assert (U : forall (u1 u2 v1 v2 : list A), NoDup (u1 ++ y :: u2) -> u1 ++ y :: u2 = v1 ++ y :: v2 -> u1 = v1).
  { induction u1 as [|z u1 IH]; intros u2 v1 v2 N H; destruct v1 as [|w v1]; cbn in H; auto.
    - injection H as -> ->. exfalso. cbn in N. inversion N as [|? ? N1 _]. apply N1. apply in_or_app; right; left; auto.
    - injection H as -> <-. exfalso. cbn in N. inversion N as [|? ? N1 _]. apply N1. apply in_or_app; right; left; auto.
    - injection H as -> H. f_equal. inversion N; subst. eapply IH; eauto. }
  subst l. apply U in E2; auto. subst l1. apply in_or_app. right. left. auto.
Qed.

Lemma total_perm calls a l l' : Permutation l l' -> total calls a l = total calls a l'.
Proof. unfold total. induction 1; cbn; lia. Qed.
Lemma total_zero calls a l : (forall i, In i l -> adds_of calls a i = 0%N) -> total calls a l = 0%N.
Proof. unfold total. induction l; cbn; intros H; auto. rewrite IHl, (H a0) by auto. auto. Qed.
(** The sum over all calls, by position. *)
Lemma total_all calls a : total calls a (seq 0 (length calls)) = sum (map (fun c => adds c a) calls).
Proof.
  assert (G : forall pre suf, calls = pre ++ suf -> total calls a (seq (length pre) (length suf)) = sum (map (fun c => adds c a) suf)).
  { intros pre suf; revert pre. induction suf as [|c suf IH]; intros pre E; cbn; auto.
    unfold total in *. cbn. f_equal.
    - unfold adds_of. rewrite E, nth_error_app2, Nat.sub_diag by lia. auto.
    - specialize (IH (pre ++ [c])). rewrite app_length in IH. cbn in IH. rewrite Nat.add_1_r in IH. apply IH. rewrite E, <- app_assoc. auto. }
  apply (G [] calls). auto.
Qed.
(** Total over any duplicate-free list that contains every call with a non-zero contribution. *)
Lemma total_support calls a l : NoDup l -> (forall i, i < length calls -> adds_of calls a i <> 0%N -> In i l) ->
  (forall i, In i l -> i < length calls) -> total calls a l = sum (map (fun c => adds c a) calls).
Proof.
  intros ND H1 H2. rewrite <- total_all.
  set (f := fun i => if in_dec Nat.eq_dec i l then true else false).
  assert (P : Permutation l (filter f (seq 0 (length calls)))).
  { apply NoDup_Permutation; auto. { apply NoDup_filter. apply seq_NoDup. }
    intros x. rewrite filter_In, in_seq. unfold f. destruct (in_dec Nat.eq_dec x l); intuition. all: try (apply H2 in H; lia); try discriminate. }
  rewrite (total_perm _ _ _ _ P). clear P.
  assert (G : forall s, (forall i, In i s -> f i = false -> adds_of calls a i = 0%N) -> total calls a (filter f s) = total calls a s).
  { unfold total. induction s as [|x s IH]; intros Z; cbn; auto. destruct (f x) eqn:F; cbn.
    - rewrite IH; auto. intros; apply Z; auto. right; auto.
    - rewrite IH; [rewrite (Z x); cbn; auto|]. intros; apply Z; auto. right; auto. }
  apply G. intros i Hi F. unfold f in F. destruct (in_dec Nat.eq_dec i l) as [|N]; [discriminate|].
  destruct (N.eq_dec (adds_of calls a i) 0) as [|Z]; auto. exfalso. apply N. apply H1; auto. apply in_seq in Hi. lia.
Qed.

Theorem C14_no_increment_lost : forall calls sched i q b p,
  (forall j c, nth_error calls j = Some c -> match c with CInc _ _ | CQuery _ => True | _ => False end) ->
  nth_error calls q = Some (CQuery i) ->
  let h := cs_hist (crun calls sched) in
  In (ERes q [b; p]) h ->
  (forall j len, nth_error calls j = Some (CInc i len) -> before h (ERes j []) (EInv q)) ->
  b = (sum (map (inc_len i) calls) mod 2 ^ 64)%N /\ p = (sum (map (inc_one i) calls) mod 2 ^ 64)%N.
Proof.
  intros calls sched i q b p ONLY Q h RES PREC.
  assert (OK : Forall call_ok calls).
  { apply Forall_forall. intros c H. apply In_nth_error in H as [j H]. apply ONLY in H. destruct c; cbn; auto; contradiction. }
  assert (G : forall x, (if x : bool then b else p) = (sum (map (fun c => adds c (i, x)) calls) mod 2 ^ 64)%N).
  { intros x. destruct (C14_each_count_linearizable calls sched (i, x) OK) as (l & L & _). fold h in L.
    destruct (ln_reads _ _ _ _ L q _ Q RES) as (b' & p' & l1 & l2 & E & EL & V). injection E as <- <-. cbn [snd] in V.
    assert (NS : forall j, sets_of calls (i, x) j = None).
    { intros j. unfold sets_of. destruct (nth_error calls j) as [c|] eqn:E; auto. apply ONLY in E. destruct c; auto; contradiction. }
    assert (VT : (if x then b else p) = (total calls (i, x) l1 mod 2 ^ 64)%N).
    { destruct V as [_ V|? k w ? _ S _ _]; auto. rewrite NS in S. discriminate. }
    rewrite VT. f_equal. pose proof (ln_nodup _ _ _ _ L) as ND. rewrite EL in ND.
    apply total_support.
    - clear -ND. induction l1 as [|z l1 IH]; [constructor|]. cbn in ND. inversion ND as [|? ? N1 N2]; subst. constructor; auto. intros H; apply N1; apply in_or_app; auto.
    - intros j Hj A. unfold adds_of in A. destruct (nth_error calls j) as [c|] eqn:E; [|congruence].
      destruct c as [k len|k|k|k ? ?|k]; cbn in A; try congruence. destruct (Nat.eqb_spec i k) as [<-|]; [|congruence].
      specialize (PREC j len E). assert (IJ : In j l).
      { eapply (ln_done _ _ _ _ L); [eapply before_in_l; eauto|exact E|]. reflexivity. }
      assert (IQ : In q l) by (rewrite EL; apply in_or_app; right; left; auto).
      rewrite EL in IJ, IQ. eapply (before_two l j q); [rewrite EL; auto| |exact EL].
      eapply (ln_realtime _ _ _ _ L); [exact PREC| |]; rewrite EL; auto.
    - intros j Hj. destruct (ln_started _ _ _ _ L j) as [_ (c & E & _)]; [rewrite EL; apply in_or_app; auto|]. apply nth_error_Some. congruence. }
  assert (EX : forall f g, (forall c, In c calls -> f c = g c) -> sum (map f calls) = sum (map g calls)).
  { intros f g E. f_equal. apply map_ext_in. auto. }
  split.
  - rewrite (G true). f_equal. apply EX. intros c _. destruct c; cbn; auto. rewrite Nat.eqb_sym. auto.
  - rewrite (G false). f_equal. apply EX. intros c _. destruct c; cbn; auto. rewrite Nat.eqb_sym. auto.
Qed.

(** Finding: the two counts are not updated or read together.  A query overlapping an increment can
    return bytes without a packet; and a reset overlapping an increment can leave a packet with no
    bytes for good, which no order of the two calls explains. *)
Theorem C14_joint_atomicity_refuted :
  ~ (forall sched b p, In (ERes 1 [b; p]) (cs_hist (crun [CInc 0 100; CQuery 0] sched)) ->
       (b = 0 /\ p = 0)%N \/ (b = 100 /\ p = 1)%N).
Proof.
  intros H. destruct (H [0; 0; 1; 1; 1; 1]%nat 100%N 0%N) as [[A B]|[A B]]; [|discriminate|discriminate].
  vm_compute. auto.
Qed.
Theorem C14_reset_is_torn_refuted :
  ~ (forall sched, (forall i, i < 2 -> exists g, In (ERes i g) (cs_hist (crun [CInc 0 100; CReset 0] sched))) ->
       let f := cs_cells (crun [CInc 0 100; CReset 0] sched) in
       (f (0%nat, true) = 0 /\ f (0%nat, false) = 0)%N \/ (f (0%nat, true) = 100 /\ f (0%nat, false) = 1)%N).
Proof.
  intros H. destruct (H [0; 1; 0; 1; 1; 0; 1; 0]%nat) as [[A B]|[A B]]; [|discriminate|discriminate].
  intros [|[|i]] L; [exists []; vm_compute; auto|exists []; vm_compute; auto|lia].
Qed.

(** Non-vacuity: three increments from two ports interleaved with each other, then a query. *)
Definition ex_calls := [CInc 3 100; CInc 3 60; CInc 5 7; CInc 3 1; CQuery 3].
Definition ex_sched := [0; 1; 0; 3; 1; 2; 1; 0; 2; 3; 2; 3; 0; 1; 3; 2; 4; 4; 4; 4]%nat.
Example ex_no_loss : In (ERes 4 [161; 3]%N) (cs_hist (crun ex_calls ex_sched)) /\
  (forall j len, nth_error ex_calls j = Some (CInc 3 len) -> before (cs_hist (crun ex_calls ex_sched)) (ERes j []) (EInv 4)).
Proof.
  assert (E : cs_hist (crun ex_calls ex_sched) = [EInv 0; EInv 1; EInv 3; EInv 2; ERes 0 []; ERes 1 []; ERes 3 []; ERes 2 []; EInv 4; ERes 4 [161; 3]%N]) by (vm_compute; reflexivity).
  rewrite E. split; [cbn; intuition|].
  intros [|[|[|[|[|j]]]]] len H; [| |discriminate H| |discriminate H|destruct j; discriminate H]; clear H.
  - exists [EInv 0; EInv 1; EInv 3; EInv 2], [ERes 1 []; ERes 3 []; ERes 2 []], [ERes 4 [161; 3]%N]. reflexivity.
  - exists [EInv 0; EInv 1; EInv 3; EInv 2; ERes 0 []], [ERes 3 []; ERes 2 []], [ERes 4 [161; 3]%N]. reflexivity.
  - exists [EInv 0; EInv 1; EInv 3; EInv 2; ERes 0 []; ERes 1 []], [ERes 2 []], [ERes 4 [161; 3]%N]. reflexivity.
Qed.

Print Assumptions C14_each_count_linearizable.
Print Assumptions C14_no_increment_lost.
Print Assumptions C14_joint_atomicity_refuted.
Print Assumptions C14_reset_is_torn_refuted.
