(** C18: the bounded queue between threads. *)
From Coq Require Import List Arith Bool Lia.
From Verif Require Import Base QueueModel.
Import ListNotations.

Section Q.
Context {T : Type}.
Variables (block : bool) (calls : list (qcall T)).

(** ** Waking threads *)
Lemma first_idx_some f (l : list (qthr T)) k : first_idx f l = Some k -> exists t, nth_error l k = Some t /\ f t = true.
Proof.
  revert k; induction l as [|t l IH]; intros k H; cbn in H; [discriminate|]. destruct (f t) eqn:E.
  - injection H as <-. exists t. auto.
  - destruct (first_idx f l) as [k'|]; [|discriminate]. injection H as <-. apply IH. auto.
Qed.
Lemma first_idx_none f (l : list (qthr T)) : first_idx f l = None -> forall t, In t l -> f t = false.
Proof.
  induction l as [|t l IH]; intros H u I; [destruct I|]. cbn in H. destruct (f t) eqn:E; [discriminate|].
  destruct (first_idx f l); [discriminate|]. destruct I as [<-|I]; auto.
Qed.
Lemma notify_cases f j (l : list (qthr T)) :
  (notify_one f j l = l /\ forall t, In t l -> f t = false) \/
  (exists k t, nth_error l k = Some t /\ f t = true /\ notify_one f j l = list_set l k (wake t)).
Proof.
  unfold notify_one. destruct (pick f j l) as [k|] eqn:P.
  - right. assert (H : exists t, nth_error l k = Some t /\ f t = true).
    { unfold pick in P. destruct (nth_error l j) as [t|] eqn:E; [|eapply first_idx_some; eauto].
      destruct (f t) eqn:F; [|eapply first_idx_some; eauto]. injection P as <-. eauto. }
    destruct H as (t & A & B). exists k, t. rewrite A. auto.
  - left. split; auto. apply first_idx_none. unfold pick in P. destruct (nth_error l j) as [t|]; auto. destruct (f t); auto. discriminate.
Qed.

(** ** Counting threads *)
Definition cnt (f : qthr T -> bool) (l : list (qthr T)) : nat := length (filter f l).
Definition b2n (b : bool) : nat := if b then 1 else 0.
Lemma cnt_set f l : forall i t u, nth_error l i = Some t -> cnt f (list_set l i u) + b2n (f t) = cnt f l + b2n (f u).
Proof.
  unfold cnt. induction l as [|x l IH]; intros [|i] t u H; cbn in H; try discriminate.
  - injection H as ->. cbn. destruct (f t), (f u); cbn; lia.
  - cbn. specialize (IH i t u H). destruct (f x); cbn; lia.
Qed.
Lemma cnt_zero f l : (forall t, In t l -> f t = false) -> cnt f l = 0.
Proof.
  unfold cnt. intros H. assert (E : filter f l = []); [|rewrite E; auto].
  destruct (filter f l) as [|x r] eqn:E; auto. exfalso. assert (I : In x (filter f l)) by (rewrite E; left; auto).
  apply filter_In in I as [A B]. rewrite H in B by auto. discriminate.
Qed.
Lemma cnt_pos f l t : In t l -> f t = true -> 0 < cnt f l.
Proof.
  unfold cnt. intros A B. assert (I : In t (filter f l)) by (apply filter_In; auto). destruct (filter f l); [destruct I|cbn; lia].
Qed.

(** ** What the calls return *)
(** Where call [c] of thread [i] can be, given the items recorded as pushed and popped. *)
Definition where_ok (enq deq : list (nat * T)) (i : nat) (c : qcall T) (t : qthr T) : Prop :=
  match c with
  | QPush v => ((t = PrStart v \/ t = PrWait v \/ t = PrDone v false) /\ ~ In i (map fst enq)) \/
               ((t = PrNotify v \/ t = PrDone v true) /\ In (i, v) enq)
  | QPop => ((t = CoStart \/ t = CoWait) /\ ~ In i (map fst deq)) \/
            (exists v, (t = CoNotify v \/ t = CoDone v) /\ In (i, v) deq)
  | QSetCap c => t = CapStart c \/ t = CapDone
  end.
Record INV (s : qstate T) : Prop := {
  v_len : length (q_thr s) = length calls;
  v_where : forall i c t, nth_error calls i = Some c -> nth_error (q_thr s) i = Some t -> where_ok (q_enq s) (q_deq s) i c t;
  v_nd1 : NoDup (map fst (q_enq s));
  v_nd2 : NoDup (map fst (q_deq s));
  v_push : forall i v, In (i, v) (q_enq s) -> nth_error calls i = Some (QPush v);
  v_pop : forall i v, In (i, v) (q_deq s) -> nth_error calls i = Some QPop;
  v_fifo : map snd (q_deq s) ++ q_items s = map snd (q_enq s) }.

Lemma init_ok cap : INV (qinit cap calls).
Proof.
  split; cbn.
  - apply map_length.
  - intros i c t C H. rewrite nth_error_map, C in H. cbn in H. injection H as <-. destruct c; cbn; auto.
  - constructor.
  - constructor.
  - intros i v [].
  - intros i v [].
  - auto.
Qed.

Lemma where_wake enq deq i c t : where_ok enq deq i c t -> where_ok enq deq i c (wake t).
Proof.
  destruct c; cbn.
  - intros [[[->|[->| ->]] H]|[[->| ->] H]]; cbn; auto 8.
  - intros [[[->| ->] H]|(v & [->| ->] & H)]; cbn; auto; right; eauto.
  - intros [->| ->]; cbn; auto.
Qed.
Lemma INV_thr s th : INV s -> length th = length calls ->
  (forall i c t, nth_error calls i = Some c -> nth_error th i = Some t -> where_ok (q_enq s) (q_deq s) i c t) ->
  forall cap, INV (mkQ (q_items s) cap th (q_enq s) (q_deq s)).
Proof. intros [A B C D E F G] L W cap. split; cbn; auto. Qed.

Lemma thr_set (th : list (qthr T)) i t u c enq deq : nth_error th i = Some t ->
  (forall k c' t', nth_error calls k = Some c' -> nth_error th k = Some t' -> where_ok enq deq k c' t') ->
  nth_error calls i = Some c -> where_ok enq deq i c u ->
  forall k c' t', nth_error calls k = Some c' -> nth_error (list_set th i u) k = Some t' -> where_ok enq deq k c' t'.
Proof.
  intros E W C U k c' t' A B. assert (i < length th) by (apply nth_error_Some; congruence).
  destruct (Nat.eq_dec k i) as [->|N].
  - rewrite nth_error_list_set_eq in B by auto. injection B as <-. rewrite C in A. injection A as <-. auto.
  - rewrite nth_error_list_set_neq in B by auto. eapply W; eauto.
Qed.

Lemma thr_notify f j (th : list (qthr T)) enq deq :
  (forall k c' t', nth_error calls k = Some c' -> nth_error th k = Some t' -> where_ok enq deq k c' t') -> length th = length calls ->
  forall k c' t', nth_error calls k = Some c' -> nth_error (notify_one f j th) k = Some t' -> where_ok enq deq k c' t'.
Proof.
  intros W L. destruct (notify_cases f j th) as [[-> _]|(k0 & t0 & A & B & ->)]; auto.
  assert (HC : exists c0, nth_error calls k0 = Some c0).
  { destruct (nth_error calls k0) eqn:E; eauto. apply nth_error_None in E. assert (k0 < length th) by (apply nth_error_Some; congruence). lia. }
  destruct HC as [c0 HC]. eapply thr_set; eauto. apply where_wake. eauto.
Qed.
Lemma notify_len f j (th : list (qthr T)) : length (notify_one f j th) = length th.
Proof. destruct (notify_cases f j th) as [[-> _]|(k0 & t0 & A & B & ->)]; auto. apply list_set_length. Qed.

Lemma nodup_snoc {A} (l : list A) x : NoDup l -> ~ In x l -> NoDup (l ++ [x]).
Proof.
  intros N H. apply NoDup_rev in N. rewrite <- (rev_involutive (l ++ [x])). apply NoDup_rev.
  rewrite rev_app_distr. cbn. constructor; auto. rewrite <- in_rev. auto.
Qed.

Lemma where_enq enq deq i c t k v : where_ok enq deq i c t -> i <> k -> where_ok (enq ++ [(k, v)]) deq i c t.
Proof.
  intros H N. destruct c; cbn in *; auto. destruct H as [[A B]|[A B]]; [left|right]; split; auto.
  - rewrite map_app, in_app_iff. cbn. intuition.
  - apply in_or_app. auto.
Qed.
Lemma where_deq enq deq i c t k v : where_ok enq deq i c t -> i <> k -> where_ok enq (deq ++ [(k, v)]) i c t.
Proof.
  intros H N. destruct c; cbn in *; auto. destruct H as [[A B]|(w & A & B)]; [left|right].
  - split; auto. rewrite map_app, in_app_iff. cbn. intuition.
  - exists w. split; auto. apply in_or_app. auto.
Qed.

Lemma step_ok s a : INV s -> INV (qdo block s a).
Proof.
  intros J. destruct a as [i j|i]; cbn [qdo].
  - unfold qstep. destruct (nth_error (q_thr s) i) as [t|] eqn:E; auto.
    assert (LI : i < length (q_thr s)) by (apply nth_error_Some; congruence).
    destruct (nth_error calls i) as [c|] eqn:C; [|apply nth_error_None in C; rewrite (v_len _ J) in LI; lia].
    pose proof (v_where _ J i c t C E) as W.
    destruct t as [v|v|v|v acc| | |v|v|cp|]; auto.
    + (* push *)
      assert (CQ : c = QPush v /\ ~ In i (map fst (q_enq s))).
      { destruct c; cbn in W; [|destruct W as [[[W|W] _]|(w & [W|W] & _)]; discriminate|destruct W; discriminate].
        destruct W as [[[W|[W|W]] H]|[[W|W] H]]; try discriminate. injection W as ->. auto. }
      destruct CQ as [-> NI].
      destruct (length (q_items s) <? q_cap s); [|destruct block; apply INV_thr; auto; try (rewrite list_set_length; apply (v_len _ J));
        (eapply thr_set with (c := QPush v); [exact E|apply (v_where _ J)|exact C|left; auto])].
      destruct J as [A B D F G H I]. split; cbn; auto.
      * rewrite list_set_length; auto.
      * intros k c' t' X Y. destruct (Nat.eq_dec k i) as [->|N].
        -- rewrite nth_error_list_set_eq in Y by auto. injection Y as <-. rewrite C in X. injection X as <-.
           right. split; auto. apply in_or_app. right. left. auto.
        -- rewrite nth_error_list_set_neq in Y by auto. apply where_enq; auto.
      * rewrite map_app. apply nodup_snoc; auto.
      * intros k w X. apply in_app_or in X as [X|[[= <- <-]|[]]]; auto.
      * rewrite map_app, <- I, app_assoc. auto.
    + assert (CQ : c = QPush v /\ In (i, v) (q_enq s)).
      { destruct c; cbn in W; [|destruct W as [[[W|W] _]|(w & [W|W] & _)]; discriminate|destruct W; discriminate].
        destruct W as [[[W|[W|W]] H]|[[W|W] H]]; try discriminate. injection W as ->. auto. }
      destruct CQ as [-> NI].
      apply INV_thr; auto; [rewrite notify_len, list_set_length; apply (v_len _ J)|].
      apply thr_notify; [|rewrite list_set_length; apply (v_len _ J)].
      eapply thr_set; [exact E|apply (v_where _ J)|exact C|]. right. auto.
    + (* pop *)
      assert (CQ : c = QPop /\ ~ In i (map fst (q_deq s))).
      { destruct c; cbn in W; [destruct W as [[[W|[W|W]] _]|[[W|W] _]]; discriminate| |destruct W; discriminate].
        destruct W as [[_ W]|(w & [W|W] & _)]; try discriminate. auto. }
      destruct CQ as [-> NI].
      destruct (q_items s) as [|v r] eqn:Q.
      * assert (X : INV (mkQ (q_items s) (q_cap s) (list_set (q_thr s) i CoWait) (q_enq s) (q_deq s))).
        { apply INV_thr; auto; [rewrite list_set_length; apply (v_len _ J)|]. eapply thr_set; [exact E|apply (v_where _ J)|exact C|]. left; auto. }
        rewrite Q in X. auto.
      * destruct J as [A B D F G H I]. split; cbn; auto.
        -- rewrite list_set_length; auto.
        -- intros k c' t' X Y. destruct (Nat.eq_dec k i) as [->|N].
           ++ rewrite nth_error_list_set_eq in Y by auto. injection Y as <-. rewrite C in X. injection X as <-.
              right. exists v. split; auto. apply in_or_app. right. left. auto.
           ++ rewrite nth_error_list_set_neq in Y by auto. apply where_deq; auto.
        -- rewrite map_app. apply nodup_snoc; auto.
        -- intros k w X. apply in_app_or in X as [X|[[= <- <-]|[]]]; eauto.
        -- rewrite <- I, Q, map_app, <- app_assoc. auto.
    + assert (CQ : c = QPop /\ In (i, v) (q_deq s)).
      { destruct c; cbn in W; [destruct W as [[[W|[W|W]] _]|[[W|W] _]]; discriminate| |destruct W; discriminate].
        destruct W as [[[W|W] _]|(w & [W|W] & H)]; try discriminate. injection W as ->. auto. }
      destruct CQ as [-> NI].
      apply INV_thr; auto; [rewrite notify_len, list_set_length; apply (v_len _ J)|].
      apply thr_notify; [|rewrite list_set_length; apply (v_len _ J)].
      eapply thr_set; [exact E|apply (v_where _ J)|exact C|]. right. eauto.
    + assert (CQ : c = QSetCap cp).
      { destruct c; cbn in W; [destruct W as [[[W|[W|W]] _]|[[W|W] _]]; discriminate|destruct W as [[[W|W] _]|(w & [W|W] & _)]; discriminate|].
        destruct W as [W|W]; try discriminate. congruence. }
      subst c. apply INV_thr; auto; [rewrite list_set_length; apply (v_len _ J)|]. eapply thr_set; [exact E|apply (v_where _ J)|exact C|]. right; auto.
  - unfold qwake. destruct (nth_error (q_thr s) i) as [t|] eqn:E; auto.
    assert (LI : i < length (q_thr s)) by (apply nth_error_Some; congruence).
    destruct (nth_error calls i) as [c|] eqn:C; [|apply nth_error_None in C; rewrite (v_len _ J) in LI; lia].
    apply INV_thr; auto; [rewrite list_set_length; apply (v_len _ J)|]. eapply thr_set; [exact E|apply (v_where _ J)|exact C|].
    apply where_wake. eapply v_where; eauto.
Qed.

Lemma run_ind (P : qstate T -> Prop) cap sched : P (qinit cap calls) -> (forall s a, P s -> P (qdo block s a)) ->
  P (qrun block cap calls sched).
Proof.
  intros I S. unfold qrun. generalize (qinit cap calls) I. induction sched as [|a l IH]; intros s H; cbn; auto.
Qed.
Lemma reach_ok cap sched : INV (qrun block cap calls sched).
Proof. apply run_ind; [apply init_ok|apply step_ok]. Qed.

(** ** Wake-ups *)
Definition is_costart (t : qthr T) : bool := match t with CoStart => true | _ => false end.
Definition is_prstart (t : qthr T) : bool := match t with PrStart _ => true | _ => false end.
Definition is_conotify (t : qthr T) : bool := match t with CoNotify _ => true | _ => false end.
Definition is_prnotify (t : qthr T) : bool := match t with PrNotify _ => true | _ => false end.

Definition LIVE (cap : nat) (s : qstate T) : Prop :=
  q_cap s = cap /\
  (forall c, True -> ~ In (CapStart c) (q_thr s)) /\
  (0 < cnt is_cowait (q_thr s) -> length (q_items s) <= cnt is_costart (q_thr s) + cnt is_prnotify (q_thr s)) /\
  (0 < cnt is_prwait (q_thr s) -> cap <= length (q_items s) + cnt is_prstart (q_thr s) + cnt is_conotify (q_thr s)).

Lemma in_set {A} (l : list A) i x y : In y (list_set l i x) -> y = x \/ In y l.
Proof. revert i; induction l as [|a l IH]; intros [|i]; cbn; auto. - intros [<-|H]; auto. - intros [<-|H]; auto. destruct (IH _ H); auto. Qed.

Ltac counts E u :=
  pose proof (cnt_set is_cowait _ _ _ u E); pose proof (cnt_set is_prwait _ _ _ u E); pose proof (cnt_set is_costart _ _ _ u E);
  pose proof (cnt_set is_prstart _ _ _ u E); pose proof (cnt_set is_conotify _ _ _ u E); pose proof (cnt_set is_prnotify _ _ _ u E);
  cbn [is_cowait is_prwait is_costart is_prstart is_conotify is_prnotify b2n wake] in *.

Lemma live_step cap s a : LIVE cap s -> LIVE cap (qdo block s a).
Proof.
  intros (K & NC & L1 & L2). destruct a as [i j|i]; cbn [qdo].
  - unfold qstep. destruct (nth_error (q_thr s) i) as [t|] eqn:E; [|unfold LIVE; auto].
    destruct t as [v|v|v|v acc| | |v|v|cp|]; try (unfold LIVE; auto; fail).
    + destruct (Nat.ltb_spec (length (q_items s)) (q_cap s)) as [LT|GE].
      * counts E (PrNotify v). unfold LIVE; cbn [q_items q_cap q_thr]. split; auto. split.
        { intros c _ HI. apply in_set in HI as [HI|HI]; [discriminate|]. eapply NC; eauto. }
        rewrite app_length. cbn [length]. split; intros; lia.
      * destruct block.
        -- counts E (PrWait v). unfold LIVE; cbn [q_items q_cap q_thr]. split; auto. split.
           { intros c _ HI. apply in_set in HI as [HI|HI]; [discriminate|]. eapply NC; eauto. }
           split; intros; lia.
        -- counts E (PrDone v false). unfold LIVE; cbn [q_items q_cap q_thr]. split; auto. split.
           { intros c _ HI. apply in_set in HI as [HI|HI]; [discriminate|]. eapply NC; eauto. }
           split; intros; lia.
    + counts E (PrDone v true). set (th := list_set (q_thr s) i (PrDone v true)) in *.
      assert (NC' : forall c, ~ In (CapStart c) th).
      { intros c H'. apply in_set in H' as [H'|H']; [discriminate|]. eapply NC; eauto. }
      unfold LIVE; cbn [q_items q_cap q_thr].
      destruct (notify_cases is_cowait j th) as [[-> Z]|(k & t & A & B & ->)].
      * pose proof (cnt_zero _ _ Z). split; auto. split; [intros; apply NC'|]. split; intros; lia.
      * destruct t; try discriminate B. counts A (wake (T := T) CoWait). split; auto. split.
        { intros c _ HI. apply in_set in HI as [HI|HI]; [discriminate|]. eapply NC'; eauto. }
        split; intros; lia.
    + destruct (q_items s) as [|v r] eqn:Q.
      * counts E (@CoWait T). unfold LIVE; cbn [q_items q_cap q_thr length] in *. split; auto. split.
        { intros c _ HI. apply in_set in HI as [HI|HI]; [discriminate|]. eapply NC; eauto. }
        split; intros; lia.
      * counts E (CoNotify v). unfold LIVE; cbn [q_items q_cap q_thr length] in *. split; auto. split.
        { intros c _ HI. apply in_set in HI as [HI|HI]; [discriminate|]. eapply NC; eauto. }
        split; intros; lia.
    + counts E (CoDone v). set (th := list_set (q_thr s) i (CoDone v)) in *.
      assert (NC' : forall c, ~ In (CapStart c) th).
      { intros c H'. apply in_set in H' as [H'|H']; [discriminate|]. eapply NC; eauto. }
      unfold LIVE; cbn [q_items q_cap q_thr].
      destruct (notify_cases is_prwait j th) as [[-> Z]|(k & t & A & B & ->)].
      * pose proof (cnt_zero _ _ Z). split; auto. split; [intros; apply NC'|]. split; intros; lia.
      * destruct t as [|w| | | | | | | |]; try discriminate B. counts A (PrStart w). split; auto. split.
        { intros c _ HI. apply in_set in HI as [HI|HI]; [discriminate|]. eapply NC'; eauto. }
        split; intros; lia.
    + exfalso. eapply NC; eauto. eapply nth_error_In; eauto.
  - unfold qwake. destruct (nth_error (q_thr s) i) as [t|] eqn:E; [|unfold LIVE; auto].
    counts E (wake t). unfold LIVE; cbn [q_items q_cap q_thr]. split; auto. split.
    { intros c _ H'. apply in_set in H' as [H'|H']; [|eapply NC; eauto].
      destruct t; try discriminate. cbn in H'. eapply NC; [auto|]. rewrite H'. eapply nth_error_In; eauto. }
    destruct t; cbn [is_cowait is_prwait is_costart is_prstart is_conotify is_prnotify b2n wake] in *; split; intros; lia.
Qed.
End Q.

(** ** Theorems *)
(** Elements come out in the order in which they went in, each exactly once, none invented and none
    lost: for every number of producers and consumers, every interleaving, every choice of woken threads
    and every spurious wake-up.  [q_enq]/[q_deq] list the pushes and pops in the order of their critical
    sections; the other clauses say they contain exactly the calls that took effect. *)
Theorem C18_fifo_exactly_once : forall T block cap (calls : list (qcall T)) sched,
  let s := qrun block cap calls sched in
  map snd (q_deq s) ++ q_items s = map snd (q_enq s) /\
  NoDup (map fst (q_enq s)) /\ NoDup (map fst (q_deq s)) /\
  (forall i v, nth_error calls i = Some (QPush v) ->
     (nth_error (q_thr s) i = Some (PrDone v true) -> In (i, v) (q_enq s)) /\
     (nth_error (q_thr s) i = Some (PrDone v false) -> ~ In i (map fst (q_enq s)))) /\
  (forall i v, nth_error (q_thr s) i = Some (CoDone v) -> In (i, v) (q_deq s)) /\
  (forall i v, In (i, v) (q_enq s) -> nth_error calls i = Some (QPush v)) /\
  (forall i v, In (i, v) (q_deq s) -> nth_error calls i = Some QPop).
Proof.
  intros T block cap calls sched s. pose proof (reach_ok block calls cap sched) as J. fold s in J.
  split; [apply (v_fifo _ _ J)|]. split; [apply (v_nd1 _ _ J)|]. split; [apply (v_nd2 _ _ J)|]. split; [|split; [|split; [apply (v_push _ _ J)|apply (v_pop _ _ J)]]].
  - intros i v C. split; intros E; pose proof (v_where _ _ J i _ _ C E) as W; cbn in W;
      destruct W as [[[W|[W|W]] H]|[[W|W] H]]; try discriminate; auto.
  - intros i v E. assert (LI : i < length (q_thr s)) by (apply nth_error_Some; congruence).
    destruct (nth_error calls i) as [c|] eqn:C; [|apply nth_error_None in C; rewrite (v_len _ _ J) in LI; lia].
    pose proof (v_where _ _ J i c _ C E) as W.
    destruct c; cbn in W; [destruct W as [[[W|[W|W]] _]|[[W|W] _]]; discriminate| |destruct W; discriminate].
    destruct W as [[[W|W] _]|(w & [W|W] & H)]; try discriminate. injection W as ->. auto.
Qed.

(** The queue never holds more than the largest capacity it was given. *)
Theorem C18_bounded : forall T block cap (calls : list (qcall T)) sched bound, cap <= bound ->
  (forall i c, nth_error calls i = Some (QSetCap c) -> c <= bound) ->
  length (q_items (qrun block cap calls sched)) <= bound.
Proof.
  intros T block cap calls sched bound LC HC.
  set (P := fun s : qstate T => INV calls s /\ q_cap s <= bound /\ length (q_items s) <= bound).
  assert (H : P (qrun block cap calls sched)).
  { apply run_ind.
    - split; [apply init_ok|]. cbn. split; auto. lia.
    - intros s a (J & A & B). split; [apply step_ok; auto|]. destruct a as [i j|i]; cbn [qdo].
      + unfold qstep. destruct (nth_error (q_thr s) i) as [t|] eqn:E; auto. destruct t as [v|v|v|v acc| | |v|v|cp|]; auto.
        * destruct (Nat.ltb_spec (length (q_items s)) (q_cap s)); [|destruct block; auto]. cbn. rewrite app_length. cbn. lia.
        * destruct (q_items s) as [|v r] eqn:Q; cbn in *; auto. lia.
        * cbn. split; auto. assert (LI : i < length (q_thr s)) by (apply nth_error_Some; congruence).
          destruct (nth_error calls i) as [c|] eqn:C; [|apply nth_error_None in C; rewrite (v_len _ _ J) in LI; lia].
          pose proof (v_where _ _ J i c _ C E) as W.
          destruct c; cbn in W; [destruct W as [[[W|[W|W]] _]|[[W|W] _]]; discriminate|destruct W as [[[W|W] _]|(w & [W|W] & _)]; discriminate|].
          destruct W as [W|W]; try discriminate. injection W as <-. eauto.
      + unfold qwake. destruct (nth_error (q_thr s) i); auto. }
  apply H.
Qed.

(** No wake-up is lost: when no thread can make progress on its own, a consumer is blocked only if the
    queue is empty and a producer only if it is full (capacity unchanged). *)
Definition stuck {T} (t : qthr T) : bool :=
  match t with PrWait _ | CoWait | PrDone _ _ | CoDone _ | CapDone => true | _ => false end.
Theorem C18_blocked_only_if_needed : forall T block cap (calls : list (qcall T)) sched,
  (forall c, ~ In (QSetCap c) calls) ->
  let s := qrun block cap calls sched in
  (forall t, In t (q_thr s) -> stuck t = true) ->
  (In CoWait (q_thr s) -> q_items s = []) /\
  (forall v, In (PrWait v) (q_thr s) -> length (q_items s) = cap).
Proof.
  intros T block cap calls sched NC s ST.
  assert (L : LIVE cap s).
  { apply run_ind; [|intros; apply live_step; auto]. unfold LIVE; cbn [q_cap q_thr q_items qinit length]. split; auto. split.
    - intros c _ H. apply in_map_iff in H as (x & E & H). destruct x; cbn in E; try discriminate. eapply NC; eauto.
    - assert (Z : forall f, (forall c, f (qthread c) = false) -> cnt f (map (@qthread T) calls) = 0).
      { intros f H. apply cnt_zero. intros t I. apply in_map_iff in I as (x & <- & _). auto. }
      rewrite (Z is_cowait), (Z is_prwait); try (intros []; reflexivity). split; intros; lia. }
  destruct L as (K & _ & L1 & L2).
  assert (Z : forall f, (forall t, stuck t = true -> f t = false) -> cnt f (q_thr s) = 0).
  { intros f H. apply cnt_zero. intros t I. auto. }
  split.
  - intros I. pose proof (cnt_pos (@is_cowait T) _ _ I eq_refl) as P. specialize (L1 P).
    rewrite !Z in L1 by (intros []; cbn; intros; try discriminate; auto). destruct (q_items s); auto. cbn in L1. lia.
  - intros v I. pose proof (cnt_pos (@is_prwait T) _ _ I eq_refl) as P. specialize (L2 P).
    rewrite !Z in L2 by (intros []; cbn; intros; try discriminate; auto).
    pose proof (C18_bounded T block cap calls sched cap (le_n _)) as B. fold s in B.
    assert (length (q_items s) <= cap); [|lia]. apply B. intros i c E. exfalso. eapply NC. eapply nth_error_In; eauto.
Qed.

(** Finding: raising the capacity does not wake a blocked producer (set_capacity notifies nobody): it
    stays blocked with room in the queue until somebody pops. *)
Theorem C18_raised_capacity_leaves_producer_blocked_refuted :
  ~ (forall cap (calls : list (qcall nat)) sched, let s := qrun true cap calls sched in
       (forall t, In t (q_thr s) -> stuck t = true) ->
       forall v, In (PrWait v) (q_thr s) -> q_cap s <= length (q_items s)).
Proof.
  intros H. specialize (H 1 [QPush 10; QPush 20; QSetCap 5] [Run 0 0; Run 0 0; Run 1 0; Run 2 0]).
  cbn in H. assert (5 <= 1); [|lia]. eapply H; [|right; left; reflexivity]. intros t [<-|[<-|[<-|[]]]]; reflexivity.
Qed.

(** Non-vacuity: capacity one, two producers and a consumer; the second producer blocks, is woken and
    both elements arrive in order. *)
Example ex_queue : let s := qrun true 1 [QPush 10; QPush 20; QPop; QPop] [Run 0 0; Run 1 0; Run 0 0; Run 2 0; Run 2 0; Run 1 0; Run 1 0; Run 3 0; Run 3 0] in
  q_thr s = [PrDone 10 true; PrDone 20 true; CoDone 10; CoDone 20] /\ q_items s = [].
Proof. vm_compute. auto. Qed.

Print Assumptions C18_fifo_exactly_once.
Print Assumptions C18_bounded.
Print Assumptions C18_blocked_only_if_needed.
Print Assumptions C18_raised_capacity_leaves_producer_blocked_refuted.
