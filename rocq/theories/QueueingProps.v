(** Theorems about egress queueing (C15, C16, C17). *)
From Coq Require Import List Arith NArith Bool Lia.
From Verif Require Import Base QueueingModel QueueingSpec QueueingProofs.
Import ListNotations.

Section P.
Context {T : Type}.
Variables (ticks : N -> N) (wmap : nat -> nat) (nw np : nat).

(** ** C15: every history of calls behaves like independent FIFO lists *)
Theorem C15_history : np <= 32 -> forall cap (ops : list (qlop T)),
  exists s outs sp, l_run ticks wmap np (l_new nw cap) ops = Some (s, outs) /\
    qspec_run ticks wmap nw np (s_new ticks cap) ops outs sp.
Proof.
  intros NP cap ops. destruct (run_ok ticks wmap nw np NP ops _ _ (R_new ticks wmap nw np cap)) as (s & outs & sp & A & B & _). eauto.
Qed.

Notation spec := (qspec ticks wmap nw np).
Notation spec_run := (qspec_run ticks wmap nw np).

Lemma pend_step s o x s' q p : spec s o x s' ->
  map w_item (s_pend (s_q s q p)) ++ map fst (@accepted T q p [o] [x]) =
  map fst (delivered q p [o] [x]) ++ map w_item (s_pend (s_q s' q p)).
Proof.
  intros H. destruct H; cbn [accepted delivered map app s_q]; rewrite ?app_nil_r;
    try (cbn [s_q]; rewrite mention_pend; reflexivity); try reflexivity.
  - destruct ((q0 =? q) && (pri =? p)) eqn:E.
    + apply andb_true_iff in E as [E1 E2]. apply Nat.eqb_eq in E1, E2. subst. rewrite upd_eq. cbn [s_pend].
      unfold x, f. rewrite mention_pend, map_app. reflexivity.
    + rewrite upd_neq. { unfold f. rewrite mention_pend. cbn. rewrite app_nil_r. reflexivity. }
      apply andb_false_iff in E as [E|E]; apply Nat.eqb_neq in E; auto.
  - destruct ((q0 =? q) && (pri =? p)) eqn:E.
    + apply andb_true_iff in E as [E1 E2]. apply Nat.eqb_eq in E1, E2. subst. rewrite upd_eq. rewrite H2. reflexivity.
    + rewrite upd_neq. { reflexivity. } apply andb_false_iff in E as [E|E]; apply Nat.eqb_neq in E; auto.
  - destruct (q =? q0); cbn; rewrite mention_pend; reflexivity.
  - unfold upd. destruct ((q =? q0) && (p =? pri)) eqn:E; [|rewrite mention_pend; reflexivity].
    apply andb_true_iff in E as [E1 E2]. apply Nat.eqb_eq in E1, E2. subst. cbn. rewrite mention_pend. reflexivity.
  - destruct (q =? q0); cbn; rewrite mention_pend; reflexivity.
  - unfold upd. destruct ((q =? q0) && (p =? pri)) eqn:E; [|rewrite mention_pend; reflexivity].
    apply andb_true_iff in E as [E1 E2]. apply Nat.eqb_eq in E1, E2. subst. cbn. rewrite mention_pend. reflexivity.
Qed.

Lemma accepted_cons q p o x os xs : accepted q p (o :: os) (x :: xs) = @accepted T q p [o] [x] ++ accepted q p os xs.
Proof. cbn [accepted]. destruct o, x; auto. destruct ok; auto. destruct ((q0 =? q) && (pri =? p)); auto. Qed.
Lemma delivered_cons q p o x os xs : delivered q p (o :: os) (x :: xs) = @delivered T q p [o] [x] ++ delivered q p os xs.
Proof. cbn [delivered]. destruct o, x; auto. destruct ((_ =? q) && (_ =? p)); auto. Qed.

Lemma pend_run s os xs s' q p : spec_run s os xs s' ->
  map w_item (s_pend (s_q s q p)) ++ map fst (@accepted T q p os xs) =
  map fst (delivered q p os xs) ++ map w_item (s_pend (s_q s' q p)).
Proof.
  induction 1 as [|s o x s' os xs s'' H1 H2 IH]; [cbn; rewrite app_nil_r; auto|].
  rewrite accepted_cons, delivered_cons, !map_app, app_assoc, (pend_step _ _ _ _ q p H1), <- !app_assoc. f_equal. exact IH.
Qed.

(** For every queue and priority, what came out is a prefix of what was accepted: same order, nothing
    lost in between, nothing twice, nothing that was never accepted; and the rest is what is waiting. *)
Theorem C15_fifo : np <= 32 -> forall cap (ops : list (qlop T)) s outs,
  l_run ticks wmap np (l_new nw cap) ops = Some (s, outs) ->
  forall q p, exists waiting, map fst (accepted q p ops outs) = map fst (delivered q p ops outs) ++ waiting.
Proof.
  intros NP cap ops s outs E q p. destruct (C15_history NP cap ops) as (s' & outs' & sp & E' & S).
  rewrite E in E'. injection E' as <- <-. exists (map w_item (s_pend (s_q sp q p))). rewrite <- (pend_run _ _ _ _ q p S). reflexivity.
Qed.

Lemma accepted_app q p os : forall xs os2 xs2, length os = length xs ->
  accepted q p (os ++ os2) (xs ++ xs2) = @accepted T q p os xs ++ accepted q p os2 xs2.
Proof.
  induction os as [|o os IH]; intros [|x xs] os2 xs2 L; try discriminate; auto.
  cbn [app]. rewrite accepted_cons, (accepted_cons q p o x os xs), IH by (cbn in L; lia). rewrite app_assoc. auto.
Qed.
Lemma spec_run_len s os xs s' : spec_run s os xs s' -> length os = length (xs : list (qlout T)).
Proof. induction 1; cbn; auto. Qed.
Lemma l_run_app os : forall (s : qlog T) os2 s' xs, l_run ticks wmap np s (os ++ os2) = Some (s', xs) ->
  exists s1 xs1 xs2, l_run ticks wmap np s os = Some (s1, xs1) /\ l_run ticks wmap np s1 os2 = Some (s', xs2) /\ xs = xs1 ++ xs2.
Proof.
  induction os as [|o os IH]; intros s os2 s' xs E; cbn [app l_run] in E.
  - exists s, [], xs. auto.
  - destruct (l_step ticks wmap np s o) as [[s1 x]|] eqn:E1; [|discriminate].
    destruct (l_run ticks wmap np s1 (os ++ os2)) as [[s2 ys]|] eqn:E2; [|discriminate]. injection E as <- <-.
    destruct (IH _ _ _ _ E2) as (s3 & x1 & x2 & A & B & ->). exists s3, (x :: x1), x2. cbn [l_run]. rewrite E1, A. auto.
Qed.

(** Capacity of one (queue, priority) as last configured by the calls. *)
Fixpoint configured_cap (q p cap : nat) (os : list (qlop T)) : nat :=
  match os with
  | [] => cap
  | OCap q' c _ :: r => configured_cap q p (if q' =? q then c else cap) r
  | OCapPri q' p' c _ :: r => configured_cap q p (if (q' =? q) && (p' =? p) then c else cap) r
  | OCapAll c :: r => configured_cap q p c r
  | _ :: r => configured_cap q p cap r
  end.

Lemma mention_cap q now f q' p : s_cap (@mention T q now f q' p) = s_cap (f q' p).
Proof. unfold mention. destruct (q' =? q); auto. destruct (s_last (f q' p)); auto. Qed.
Lemma cap_run s os xs s' q p : p < np -> spec_run s os xs s' -> s_cap (s_q s' q p) = configured_cap q p (s_cap (s_q s q p)) os.
Proof.
  intros P. induction 1 as [|s o x s' os xs s'' H1 H2 IH]; auto. rewrite IH. clear IH H2.
  destruct H1; cbn [configured_cap s_q]; try rewrite mention_cap; auto; try (f_equal; cbn; auto; fail).
  - unfold upd. destruct ((q =? q0) && (p =? pri)) eqn:E; [|unfold f; rewrite mention_cap; auto].
    apply andb_true_iff in E as [E1 E2]. apply Nat.eqb_eq in E1, E2. subst. cbn. unfold x, f; rewrite mention_cap; auto.
  - unfold upd. destruct ((q =? q0) && (p =? pri)) eqn:E; auto.
    apply andb_true_iff in E as [E1 E2]. apply Nat.eqb_eq in E1, E2. subst. auto.
  - rewrite (Nat.eqb_sym q0 q). destruct (q =? q0); cbn; rewrite ?mention_cap; auto.
  - unfold upd. rewrite (Nat.eqb_sym q0 q), (Nat.eqb_sym pri p). destruct ((q =? q0) && (p =? pri)); cbn; rewrite ?mention_cap; auto.
  - destruct ((q0 =? q) && (pri =? p)) eqn:E; auto. apply andb_true_iff in E as [E1 E2]. apply Nat.eqb_eq in E1, E2. subst. lia.
  - destruct (q =? q0); cbn; rewrite ?mention_cap; auto.
  - unfold upd. destruct ((q =? q0) && (p =? pri)) eqn:E; rewrite ?mention_cap; auto. cbn.
    apply andb_true_iff in E as [E1 E2]. apply Nat.eqb_eq in E1, E2. subst. rewrite mention_cap; auto.
Qed.

(** After any history, a push is accepted exactly when fewer elements are waiting (accepted and not yet
    delivered) than the capacity last configured. *)
Theorem C15_push_refused_exactly_when_full : np <= 32 -> forall cap (ops : list (qlop T)) q p item t0 t s outs y,
  wmap q < nw -> p < np ->
  l_run ticks wmap np (l_new nw cap) (ops ++ [OPush q p item t0 t]) = Some (s, outs ++ [y]) ->
  y = QPushed (length (accepted q p ops outs) - length (delivered q p ops outs) <? configured_cap q p cap ops).
Proof.
  intros NP cap ops q p item t0 t s outs y Hw Hp E.
  destruct (l_run_app _ _ _ _ _ E) as (s1 & x1 & x2 & A & B & C).
  destruct (run_ok ticks wmap nw np NP ops _ _ (R_new ticks wmap nw np cap)) as (s1' & x1' & sp & A' & S & R1). rewrite A in A'. injection A' as <- <-.
  destruct (step_ok ticks wmap nw np NP s1 sp (OPush q p item t0 t) R1) as (s2 & z & sp2 & E2 & S2 & _).
  cbn [l_run] in B. rewrite E2 in B. injection B as <- <-. apply app_inj_tail in C as [<- <-].
  pose proof (pend_run _ _ _ _ q p S) as PR. cbn [s_new s_q s_pend map app] in PR. apply (f_equal (@length _)) in PR.
  rewrite app_length, !map_length in PR. pose proof (cap_run _ _ _ _ q p Hp S) as CR. cbn [s_new s_q s_cap] in CR.
  rewrite PR. replace (length (delivered q p ops outs) + length (s_pend (s_q sp q p)) - length (delivered q p ops outs)) with (length (s_pend (s_q sp q p))) by lia.
  rewrite <- CR. inversion S2; subst; [lia| |].
  - f_equal. symmetry. apply Nat.ltb_ge. auto.
  - f_equal. symmetry. apply Nat.ltb_lt. auto.
Qed.

(** ** C16: the rate limit *)
Lemma mention_delay q now f q' p : s_delay (@mention T q now f q' p) = s_delay (f q' p).
Proof. unfold mention. destruct (q' =? q); auto. destruct (s_last (f q' p)); auto. Qed.

(** Invariant of one (queue, priority) since the rate was set: [old] elements were waiting, [acc] have been
    accepted and [dl] delivered since. *)
Record WI (d : N) (x : sq T) (old : list (T * N)) (acc : list (T * N)) (dl : list (T * N)) : Prop := {
  wi_delay : s_delay x = d;
  wi_len : length old + length acc = length dl + length (s_pend x);
  wi_pend : forall i j t y, nth_error acc i = Some t -> nth_error (s_pend x) j = Some y -> length old + i <= length dl + j ->
      (snd t + N.of_nat (length dl + j - (length old + i)) * d <= w_send y)%N;
  wi_dl : forall i j t y, nth_error acc i = Some t -> nth_error dl j = Some y -> length old + i <= j ->
      (snd t + N.of_nat (j - (length old + i)) * d <= snd y)%N;
  wi_last : forall i t, nth_error acc i = Some t -> exists l, s_last x = Some l /\ (snd t + N.of_nat (length acc - 1 - i) * d <= l)%N }.

Lemma WI_nochange d x x' old acc dl : WI d x old acc dl -> s_pend x' = s_pend x -> s_delay x' = s_delay x ->
  (s_last x <> None -> s_last x' = s_last x) -> WI d x' old acc dl.
Proof.
  intros [A B C D E] H1 H2 H3. constructor; rewrite ?H1, ?H2; auto.
  intros i t H. destruct (E i t H) as (l & X & Y). exists l. rewrite H3 by congruence. auto.
Qed.
Lemma nth_error_snoc {A} (l : list A) a i x : nth_error (l ++ [a]) i = Some x -> nth_error l i = Some x \/ (i = length l /\ x = a).
Proof.
  intros H. destruct (Nat.lt_ge_cases i (length l)) as [L|L].
  - rewrite nth_error_app1 in H by auto. auto.
  - rewrite nth_error_app2 in H by auto. destruct (i - length l) as [|k] eqn:E; cbn in H; [injection H as <-; right; split; auto; lia|destruct k; discriminate].
Qed.

Lemma mention_last q now f q' p : s_last (f q' p) <> None -> s_last (@mention T q now f q' p) = s_last (f q' p).
Proof. unfold mention. intros H. destruct (q' =? q); auto. destruct (s_last (f q' p)) eqn:E; auto. congruence. Qed.

Lemma WI_step d s o x s' q p old acc dl : spec s o x s' -> keeps_rate q p o -> WI d (s_q s q p) old acc dl ->
  WI d (s_q s' q p) old (acc ++ accepted q p [o] [x]) (dl ++ delivered q p [o] [x]).
Proof.
  assert (MN : forall q0 now, WI d (s_q s q p) old acc dl -> WI d (mention q0 now (s_q s) q p) old acc dl).
  { intros q0 now W. eapply WI_nochange; [exact W|apply mention_pend|apply mention_delay|apply mention_last]. }
  intros H K W. destruct H; cbn [accepted delivered s_q]; rewrite ?app_nil_r; auto.
  - (* push *) unfold upd. rewrite (Nat.eqb_sym q0 q), (Nat.eqb_sym pri p). destruct ((q =? q0) && (p =? pri)) eqn:E.
    2:{ rewrite app_nil_r. unfold f. auto. }
    apply andb_true_iff in E as [E1 E2]. apply Nat.eqb_eq in E1, E2. subst q0 pri.
    assert (W' : WI d x old acc dl) by (apply MN; auto). clearbody x. clear W MN.
    destruct W' as [A B C D E]. constructor; cbn [s_delay s_pend s_last]; auto.
    + rewrite !app_length. cbn. lia.
    + intros i j t y Hi Hj L. apply nth_error_snoc in Hi as [Hi|[-> ->]]; apply nth_error_snoc in Hj as [Hj|[-> ->]].
      * eapply C; eauto.
      * destruct (E i t Hi) as (l & X & Y). assert (i < length acc) by (apply nth_error_Some; congruence). unfold w_send; cbn [fst snd].
        unfold send, last_of. rewrite X, A.
        replace (length dl + length (s_pend x) - (length old + i)) with (S (length acc - 1 - i)) by lia. lia.
      * assert (j < length (s_pend x)) by (apply nth_error_Some; congruence). lia.
      * unfold w_send; cbn [fst snd]. replace (length dl + length (s_pend x) - (length old + length acc)) with 0 by lia. unfold send. lia.
    + intros i j t y Hi Hj L. apply nth_error_snoc in Hi as [Hi|[-> ->]]; [eapply D; eauto|].
      assert (j < length dl) by (apply nth_error_Some; congruence). lia.
    + intros i t Hi. exists send. split; auto. rewrite app_length; cbn. apply nth_error_snoc in Hi as [Hi|[-> ->]].
      * destruct (E i t Hi) as (l & X & Y). assert (i < length acc) by (apply nth_error_Some; congruence). unfold send, last_of. rewrite X, A.
        replace (length acc + 1 - 1 - i) with (S (length acc - 1 - i)) by lia. lia.
      * replace (length acc + 1 - 1 - length acc) with 0 by lia. unfold send; cbn [snd]. lia.
  - (* pop *) unfold upd. rewrite (Nat.eqb_sym q0 q), (Nat.eqb_sym pri p). destruct ((q =? q0) && (p =? pri)) eqn:E.
    2:{ rewrite app_nil_r. auto. }
    apply andb_true_iff in E as [E1 E2]. apply Nat.eqb_eq in E1, E2. subst q0 pri.
    destruct W as [A B C D E]. rewrite H2 in B, C. constructor; cbn [s_delay s_pend s_last]; auto.
    + rewrite app_length. cbn in *. lia.
    + intros i j t y Hi Hj L. rewrite app_length in *. cbn [length] in *. specialize (C i (S j) t y Hi Hj ltac:(lia)).
      replace (length dl + 1 + j) with (length dl + S j) by lia. auto.
    + intros i j t y Hi Hj L. apply nth_error_snoc in Hj as [Hj|[-> ->]]; [eapply D; eauto|]. cbn [snd].
      specialize (C i 0 t x Hi eq_refl ltac:(lia)). replace (length dl + 0) with (length dl) in C by lia. lia.
  - destruct (q =? q0); auto. eapply WI_nochange; [apply MN with (q0 := q0) (now := now); auto| | |]; auto.
  - unfold upd. destruct ((q =? q0) && (p =? pri)) eqn:E; auto. apply andb_true_iff in E as [E1 E2]. apply Nat.eqb_eq in E1, E2. subst.
    eapply WI_nochange; [apply MN with (q0 := q0) (now := now); auto| | |]; auto.
  - eapply WI_nochange; [eauto| | |]; auto.
  - cbn in K. destruct (Nat.eqb_spec q q0); [congruence|auto].
  - cbn in K. rewrite upd_neq by (destruct K; auto). auto.
  - destruct K.
Qed.
Lemma WI_run s os xs s' q p d old : spec_run s os xs s' -> Forall (keeps_rate q p) os -> forall acc dl, WI d (s_q s q p) old acc dl ->
  WI d (s_q s' q p) old (acc ++ accepted q p os xs) (dl ++ delivered q p os xs).
Proof.
  induction 1 as [|s o x s' os xs s'' H1 H2 IH]; intros F acc dl W; [cbn; rewrite !app_nil_r; auto|].
  inversion F; subst. rewrite accepted_cons, delivered_cons, !app_assoc. apply IH; auto. eapply WI_step; eauto.
Qed.

(** Once the rate of a (queue, priority) has been set to [pps], and until it is set again: number the
    elements accepted since then 0, 1, 2, ...  Element [j] never leaves before the clock reading at
    which element [i <= j] was pushed plus [j - i] delays; in particular never before its own push and
    never more than one element per delay.  [n0] elements were already waiting when the rate was set.
    The clock is arbitrary (it may even go back). *)
Theorem C16_rate_respected : np <= 32 -> forall cap (before window : list (qlop T)) q p pps t0 s outs1 outs2,
  p < np -> Forall (keeps_rate q p) window ->
  l_run ticks wmap np (l_new nw cap) (before ++ ORatePri q p pps t0 :: window) = Some (s, outs1 ++ QDone :: outs2) ->
  length outs1 = length before ->
  let n0 := length (accepted q p before outs1) - length (delivered q p before outs1) in
  forall i j ei ti ej tj, i <= j ->
    nth_error (accepted q p window outs2) i = Some (ei, ti) ->
    nth_error (delivered q p window outs2) (n0 + j) = Some (ej, tj) ->
    (ti + N.of_nat (j - i) * ticks pps <= tj)%N.
Proof.
  intros NP cap bf win q p pps t0 s outs1 outs2 Hp F E L n0 i j ei ti ej tj IJ Hi Hj.
  destruct (l_run_app _ _ _ _ _ E) as (s1 & x1 & x2 & A & B & C).
  destruct (run_ok ticks wmap nw np NP bf _ _ (R_new ticks wmap nw np cap)) as (s1' & x1' & sp & A' & S & R1). rewrite A in A'. injection A' as <- <-.
  pose proof (spec_run_len _ _ _ _ S) as L1.
  assert (Ex : x1 = outs1 /\ x2 = QDone :: outs2).
  { clear -C L L1. assert (LL : length x1 = length outs1) by lia. clear L L1. revert outs1 C LL. induction x1 as [|a x1 IH]; intros [|b o1] C LL; try discriminate; auto.
    injection C as -> C. destruct (IH o1 C ltac:(cbn in LL; lia)) as [-> ->]. auto. }
  destruct Ex as [-> ->]. cbn [l_run] in B.
  destruct (step_ok ticks wmap nw np NP s1 sp (ORatePri q p pps t0) R1) as (s2 & z & sp2 & E2 & S2 & R2). rewrite E2 in B.
  destruct (run_ok ticks wmap nw np NP win _ _ R2) as (s3 & x3 & sp3 & E3 & S3 & R3). rewrite E3 in B. injection B as -> -> ->.
  assert (W0 : WI (ticks pps) (s_q sp2 q p) (map (fun x => (w_item x, w_send x)) (s_pend (s_q sp2 q p))) [] []).
  { constructor.
    - inversion S2; subst. cbn [s_q]. rewrite upd_eq. auto.
    - rewrite map_length. cbn. lia.
    - intros [|k]; discriminate.
    - intros [|k]; discriminate.
    - intros [|k]; discriminate. }
  pose proof (WI_run _ _ _ _ q p _ _ S3 F _ _ W0) as W. cbn [app] in W.
  assert (N0 : n0 = length (s_pend (s_q sp2 q p))).
  { pose proof (pend_run _ _ _ _ q p S) as PR. cbn [s_new s_q s_pend map app] in PR. apply (f_equal (@length _)) in PR.
    rewrite app_length, !map_length in PR. unfold n0. rewrite PR. inversion S2; subst. cbn [s_q]. rewrite upd_eq. cbn [set_delay s_pend]. rewrite mention_pend. lia. }
  pose proof (wi_dl _ _ _ _ _ W i (n0 + j) _ _ Hi Hj) as X. rewrite map_length, <- N0 in X. cbn [snd] in X.
  replace (n0 + j - (n0 + i)) with (j - i) in X by lia. apply X. lia.
Qed.

(** ** C17: strict priority *)
(** Observable form.  [waits q p x ops outs]: element number [k] of (q, p) was accepted with item [x] and
    has not been delivered. *)
Definition first_waiting (q p : nat) (ops : list (qlop T)) (outs : list (qlout T)) : option T :=
  option_map fst (nth_error (accepted q p ops outs) (length (delivered q p ops outs))).

(** Elements eligible without reference to send times: no rate limit was ever set ([ticks 0 = 0]) and the
    clock does not go back, so every accepted element may be sent at once. *)
Definition op_clock (o : qlop T) : list N :=
  match o with OPush _ _ _ t0 t => [t0; t] | OPop _ t => [t] | OCap _ _ t => [t] | OCapPri _ _ _ t => [t]
             | ORate _ _ t => [t] | ORatePri _ _ _ t => [t] | _ => [] end.
Definition no_rate (o : qlop T) : Prop := match o with ORate _ _ _ | ORatePri _ _ _ _ | ORateAll _ => False | _ => True end.

Definition NI (s : sst T) (t : N) : Prop := forall q p, s_delay (s_q s q p) = 0%N /\
  (forall l, s_last (s_q s q p) = Some l -> (l <= t)%N) /\ forall x, In x (s_pend (s_q s q p)) -> (w_send x <= t)%N.

Lemma NI_weaken s t t' : NI s t -> (t <= t')%N -> NI s t'.
Proof.
  intros H L q p. destruct (H q p) as (A & B & C). split; auto. split; intros.
  - specialize (B _ H0). lia.
  - specialize (C _ H0). lia.
Qed.
Lemma NI_mention s t q now : NI s t -> (now <= t)%N -> NI (mkSst (mention q now (s_q s)) (s_arr s)) t.
Proof.
  intros H L q' p'. destruct (H q' p') as (A & B & C). cbn [s_q]. rewrite mention_delay, mention_pend. split; auto. split; auto.
  unfold mention. destruct (q' =? q); auto. destruct (s_last (s_q s q' p')) eqn:E; cbn; [rewrite E; auto|]. intros l X. injection X as <-. auto.
Qed.
Lemma NI_step s o x s' t : spec s o x s' -> no_rate o -> (forall c, In c (op_clock o) -> (c <= t)%N) -> NI s t -> NI s' t.
Proof.
  intros H K M W. destruct H; cbn [op_clock In] in M; auto; try (apply NI_mention; auto; fail); try (destruct K; fail).
  - assert (NI (mkSst f (s_arr s)) t) by (apply NI_mention; auto).
    intros q' p'. cbn [s_q]. destruct (H2 q' p') as (A & B & C). cbn [s_q] in *. unfold upd. destruct ((q' =? q) && (p' =? pri)) eqn:E; auto.
    apply andb_true_iff in E as [E1 E2]. apply Nat.eqb_eq in E1, E2. subst q' p'. change (f q pri) with x in A, B, C |- *. cbn [s_delay s_last s_pend].
    assert (send <= t)%N. { unfold send. rewrite A. unfold last_of. destruct (s_last x) as [l|]; [specialize (B _ eq_refl)|]; specialize (M now ltac:(auto)); lia. }
    split; auto. split; [intros l X; injection X as <-; auto|]. intros y Hy. apply in_app_or in Hy as [Hy|[<-|[]]]; auto.
  - intros q' p'. cbn [s_q]. destruct (W q' p') as (A & B & C). unfold upd. destruct ((q' =? q) && (p' =? pri)) eqn:E; auto.
    apply andb_true_iff in E as [E1 E2]. apply Nat.eqb_eq in E1, E2. subst q' p'. cbn [s_delay s_last s_pend]. split; auto. split; auto.
    intros y Hy. apply C. rewrite H2. right; auto.
  - intros q' p'. destruct (NI_mention _ _ q now W ltac:(auto) q' p') as (A & B & C). cbn [s_q] in *. destruct (q' =? q); auto.
  - intros q' p'. destruct (NI_mention _ _ q now W ltac:(auto) q' p') as (A & B & C). cbn [s_q] in *. unfold upd. destruct ((q' =? q) && (p' =? pri)) eqn:E; auto.
    apply andb_true_iff in E as [E1 E2]. apply Nat.eqb_eq in E1, E2. subst q' p'. auto.
Qed.
Lemma NI_run s os xs s' t : spec_run s os xs s' -> Forall no_rate os -> Forall (fun o => forall c, In c (op_clock o) -> (c <= t)%N) os -> NI s t -> NI s' t.
Proof. induction 1; intros F G W; auto. inversion F; inversion G; subst. apply IHqspec_run; auto. eapply NI_step; eauto. Qed.

Lemma nth_error_map_fst {A B} (l : list (A * B)) i : nth_error (map fst l) i = option_map fst (nth_error l i).
Proof. apply nth_error_map. Qed.

Lemma first_waiting_pend s os xs cap q p : spec_run (s_new ticks cap) os xs s ->
  first_waiting q p os xs = option_map w_item (hd_error (s_pend (s_q s q p))).
Proof.
  intros S. pose proof (pend_run _ _ _ _ q p S) as PR. cbn [s_new s_q s_pend map app] in PR.
  unfold first_waiting. rewrite <- nth_error_map, PR.
  rewrite nth_error_app2 by (rewrite map_length; auto). rewrite map_length, Nat.sub_diag.
  destruct (s_pend (s_q s q p)); reflexivity.
Qed.

(** General form (any rates, any clock): the popped element is the oldest of its (queue, priority), its
    send time has come, and every element of a higher priority still has to wait; among the same
    priority it has the earliest (send time, arrival).  A pop waits only if nothing may be sent. *)
Theorem C17_pop_choice : np <= 32 -> forall cap (ops : list (qlop T)) w t s outs y,
  w < nw -> l_run ticks wmap np (l_new nw cap) (ops ++ [OPop w t]) = Some (s, outs ++ [y]) ->
  exists sp, qspec_run ticks wmap nw np (s_new ticks cap) ops outs sp /\
    match y with
    | QPopped q p item => wmap q = w /\ p < np /\ first_waiting q p ops outs = Some item /\
        exists x rest, s_pend (s_q sp q p) = x :: rest /\ w_item x = item /\ (w_send x <= t)%N /\
        (forall q' p' z, wmap q' = w -> p < p' < np -> In z (s_pend (s_q sp q' p')) -> (t < w_send z)%N) /\
        (forall q' z, wmap q' = w -> In z (s_pend (s_q sp q' p)) -> goes_first x z)
    | QBlock => forall q p z, wmap q = w -> p < np -> In z (s_pend (s_q sp q p)) -> (t < w_send z)%N
    | _ => False
    end.
Proof.
  intros NP cap ops w t s outs y Hw E.
  destruct (l_run_app _ _ _ _ _ E) as (s1 & x1 & x2 & A & B & C).
  destruct (run_ok ticks wmap nw np NP ops _ _ (R_new ticks wmap nw np cap)) as (s1' & x1' & sp & A' & S & R1). rewrite A in A'. injection A' as <- <-.
  destruct (step_ok ticks wmap nw np NP s1 sp (OPop w t) R1) as (s2 & z & sp2 & E2 & S2 & _).
  cbn [l_run] in B. rewrite E2 in B. injection B as <- <-. apply app_inj_tail in C as [<- <-].
  exists sp. split; auto. inversion S2; subst; try lia; auto.
  split; auto. split; auto. split; [rewrite (first_waiting_pend _ _ _ _ _ _ S); match goal with X : s_pend _ = _ :: _ |- _ => rewrite X end; auto|]. do 2 eexists; split; [eassumption|].
  split; auto. split; auto. split; auto. intros q' p' z' Hq [L1 L2] I. match goal with X : forall _ _ _, _ -> _ < _ -> _ -> _ -> _ |- _ => eapply X; eauto end.
Qed.

(** Observable form for the default configuration: without rate limits and with a clock that does not go
    back, the popped element has the highest priority among all the elements waiting for this worker,
    and a pop only waits when there is none. *)
Theorem C17_strict_priority : np <= 32 -> ticks 0 = 0%N -> forall cap (ops : list (qlop T)) w t s outs y,
  w < nw -> Forall no_rate ops -> (forall o c, In o ops -> In c (op_clock o) -> (c <= t)%N) ->
  l_run ticks wmap np (l_new nw cap) (ops ++ [OPop w t]) = Some (s, outs ++ [y]) ->
  match y with
  | QPopped q p item => wmap q = w /\ p < np /\ first_waiting q p ops outs = Some item /\
      forall q' p', wmap q' = w -> p < p' < np -> first_waiting q' p' ops outs = None
  | QBlock => forall q p, wmap q = w -> p < np -> first_waiting q p ops outs = None
  | _ => False
  end.
Proof.
  intros NP T0 cap ops w t s outs y Hw NR M E.
  destruct (C17_pop_choice NP cap ops w t s outs y Hw E) as (sp & S & H).
  assert (W : NI sp t).
  { eapply NI_run; [exact S|auto| |].
    - apply Forall_forall. intros o I c Hc. eapply M; eauto.
    - intros q p. cbn. split; auto. split; [discriminate|intros ? []]. }
  assert (G : forall q p, (forall z, In z (s_pend (s_q sp q p)) -> (t < w_send z)%N) -> first_waiting q p ops outs = None).
  { intros q p X. rewrite (first_waiting_pend _ _ _ _ _ _ S). destruct (s_pend (s_q sp q p)) as [|z r] eqn:Ez; auto. exfalso.
    specialize (X z (or_introl eq_refl)). destruct (W q p) as (_ & _ & Y). rewrite Ez in Y. specialize (Y z (or_introl eq_refl)). lia. }
  destruct y; auto.
  - intros q p Hq Hp. apply G. intros z I. eapply H; eauto.
  - destruct H as (A & B & C & x & rest & D1 & D2 & D3 & D4 & D5). split; auto. split; auto. split; auto.
    intros q' p' Hq Hp. apply G. intros z I. eapply D4; eauto.
Qed.
End P.

(** More than 32 priorities: the constructor accepts any number, the array of queues has 32 entries. *)
Theorem C17_more_than_32_priorities_refuted :
  ~ (forall np cap (ops : list (qlop nat)), exists s outs,
      l_run (fun _ => 0%N) (fun _ => 0) np (l_new 1 cap) ops = Some (s, outs)).
Proof. intros H. destruct (H 33 4 [OPush 0 32 7 0%N 0%N]) as (s & outs & E). vm_compute in E. discriminate. Qed.

(** The first element of a rate-limited queue waits one delay even if the queue was never used: "the time
    of the last packet" starts at the creation of the queue. *)
Theorem C16_first_element_immediate_refuted :
  ~ (forall pps t item s outs, l_run (fun p => 1000 / p)%N (fun _ => 0) 1 (l_new 1 8)
        [ORatePri 0 0 pps t; OPush 0 0 item t t; OPop 0 t] = Some (s, outs) -> nth_error outs 2 = Some (QPopped 0 0 (item : nat))).
Proof.
  intros H. destruct (l_run (fun p => 1000 / p)%N (fun _ => 0) 1 (l_new 1 8) [ORatePri 0 0 10%N 5%N; OPush 0 0 3 5%N 5%N; OPop 0 5%N]) as [[s outs]|] eqn:E.
  - specialize (H _ _ _ _ _ E). vm_compute in E. injection E as _ <-. discriminate.
  - vm_compute in E. discriminate.
Qed.

(** ** Non-vacuity *)
Definition ex_ops : list (qlop nat) :=
  [OPush 0 0 10 1%N 1%N; OPush 0 1 11 2%N 2%N; OPush 2 1 12 2%N 2%N; OPush 0 0 13 3%N 3%N; OPush 0 0 14 3%N 3%N; OPush 1 0 15 3%N 3%N;
   OPop 0 4%N; OPop 0 4%N; OPop 1 4%N; OPop 1 5%N; OPop 0 4%N; OSize 0; OPush 9 7 1 5%N 5%N].
Example ex_run : option_map snd (l_run (fun _ => 0%N) (fun q => q mod 2) 2 (l_new 2 2) ex_ops) =
  Some [QPushed true; QPushed true; QPushed true; QPushed true; QPushed false; QPushed true;
        QPopped 0 1 11; QPopped 2 1 12; QPopped 1 0 15; QBlock; QPopped 0 0 10; QSize 1; QThrow].
Proof. vm_compute. reflexivity. Qed.
Example ex_fifo : exists s outs, l_run (fun _ => 0%N) (fun q => q mod 2) 2 (l_new 2 2) ex_ops = Some (s, outs) /\
  map fst (accepted 0 0 ex_ops outs) = [10; 13] /\ map fst (delivered 0 0 ex_ops outs) = [10] /\
  Forall no_rate ex_ops /\ first_waiting 0 0 ex_ops outs = Some 13.
Proof. do 2 eexists. split; [vm_compute; reflexivity|]. split; [reflexivity|]. split; [reflexivity|]. split; [repeat constructor|reflexivity]. Qed.
Example ex_rate : exists s outs, l_run (fun p => if p =? 0 then 0 else 1000 / p)%N (fun _ => 0) 1 (l_new 1 8)
    ([OPush 0 0 1 0%N 0%N] ++ ORatePri 0 0 10%N 0%N ::
     [OPush 0 0 2 0%N 1%N; OPush 0 0 3 0%N 2%N; OPop 0 5%N; OPop 0 99%N; OPop 0 100%N; OPop 0 199%N; OPop 0 210%N]) = Some (s, [QPushed true] ++ QDone :: outs) /\
  outs = [QPushed true; QPushed true; QPopped 0 0 1; QBlock; QPopped 0 0 2; QBlock; QPopped 0 0 3].
Proof. do 2 eexists. vm_compute. auto. Qed.

Print Assumptions C15_history.
Print Assumptions C15_fifo.
Print Assumptions C15_push_refused_exactly_when_full.
Print Assumptions C16_rate_respected.
Print Assumptions C16_first_element_immediate_refuted.
Print Assumptions C17_pop_choice.
Print Assumptions C17_strict_priority.
Print Assumptions C17_more_than_32_priorities_refuted.
