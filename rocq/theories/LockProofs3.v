(** C55: the specification of C11 and C12 under concurrency; no deadlock. *)
From Coq Require Import List Arith NArith ZArith Bool Lia.
From Verif Require Import Base HandleMgrModel EntryListModel MatchUnitModel TableModel ProfileModel
  ProfileSpec ProfileProofs3 ProfileProofs4 LockModel LockSpec LockProofs LockProofs2.
Import ListNotations.

Section Conc.
Variables (np : nat -> nat) (cs : list itcfg).
Hypothesis CO : cfg_ok cs.

Lemma spec_of_alone os p h : atomic (alone np cs) os p h -> forall w s, os = Some w -> WR cs w s ->
  calls_ok (pop_ok cs) h -> (forall t o r, p t = Some (o, r) -> pop_ok cs o) ->
  atomic (one_by_one np cs) (Some s) p h.
Proof.
  intros A. induction A as [os p|os p t o h Ep A IH|w0 p t o x r h Ep O A IH|os p t o x h Ep A IH|p h]; intros w s Es W C P.
  - constructor.
  - inversion C as [|? ? C1 C2]; subst. apply at_call; auto. apply (IH w s); auto.
    intros u o' r'. unfold pend_upd. destruct (u =? t); [|apply P]. intros E; injection E as <- <-. auto.
  - injection Es as ->. destruct (step_sim np cs CO w s o W (P _ _ _ Ep)) as (w1 & y & s1 & E & Sp & W1).
    unfold alone in O. rewrite E in O. destruct O as [-> ->].
    destruct (dirty_dec o x) as [D|D].
    + eapply (at_effect _ s p t o x None); auto; [exists s1; auto|apply at_any].
    + eapply (at_effect _ s p t o x (Some s1)); auto; [exists s1; auto|]. apply (IH w1 s1); auto.
      intros u o' r'. unfold pend_upd. destruct (u =? t); [|apply P]. intros E'; injection E' as <- <-. eauto.
  - inversion C as [|? ? C1 C2]; subst. eapply at_ret; eauto. apply (IH w s); auto.
    intros u o' r'. unfold pend_upd. destruct (u =? t); [discriminate|apply P].
  - discriminate.
Qed.
End Conc.

(** ** No deadlock *)
Section Live.
Variables (np : nat -> nat) (cs : list itcfg).
Local Notation locks := (locks np cs).
Local Notation acts := (acts np cs).
Local Notation mach := (mach pop).
Local Notation step := (mstep pop locks acts tab_of).
Local Notation run := (mrun pop locks acts tab_of).

Definition final (a : act) : Prop :=
  forall j w l w' l', act_run j a w l = Some (w', l') -> l_out l' <> None.
Definition ends (bs : list act) (l : loc) : Prop :=
  match bs with [] => l_out l <> None | _ => exists pre a, bs = pre ++ [a] /\ final a end.

Lemma final_of a : (forall j w l w' l', l_out l = None -> act_run j a w l = Some (w', l') -> l_out l' <> None) -> final a.
Proof.
  intros F j w l w' l' E. destruct (l_out l) as [x|] eqn:O; [|eauto].
  rewrite (act_skip _ _ _ _ _ O) in E. injection E as <- <-. congruence.
Qed.

Ltac fin_tac :=
  apply final_of; intros jj w l w' l' O E; unfold act_run in E; rewrite O in E;
  unfold upd_prof_done, done, upd_done in E;
  repeat match type of E with
  | option_map _ ?x = _ => destruct x eqn:?; cbn [option_map] in E
  | match ?x with _ => _ end = _ => destruct x eqn:?
  end; try discriminate; inversion E; subst; repeat match goal with
  | H : match ?x with _ => _ end = _ |- _ => destruct x eqn:?
  | H : Some _ = Some _ |- _ => inversion H; subst; clear H
  end; try discriminate; cbn; discriminate.

Lemma acts_end o : ends (acts o) l0.
Proof.
  destruct o; cbn [LockModel.acts];
    unfold c_add_member, c_del_member, c_mod_member, c_add_group, c_del_group, c_join, c_leave, c_reset, p_read,
      c_group, c_add, c_del, c_mod, c_get_value, c_set_default, c_reset_default, c_get, c_get_default, c_apply, c_clear, on_cfg;
    try destruct (bad_data _ _ _); try (destruct (nth_error cs j) as [c|]);
    try destruct (c_const_entry (ic_cfg c));
    cbn [ends];
    first [ exists []; eexists; split; [reflexivity|] | eexists [_]; eexists; split; [reflexivity|]
          | eexists [_;_]; eexists; split; [reflexivity|] | eexists [_;_;_]; eexists; split; [reflexivity|]
          | eexists [_;_;_;_]; eexists; split; [reflexivity|] ];
    fin_tac.
Qed.

(** Where a thread is in its call. *)
Inductive place : thread pop -> Prop :=
| pl_idle : place Idle
| pl_acq : forall o ls1 ls2 l code, locks o = ls1 ++ ls2 ->
    code = map Acq ls2 ++ map Act (acts o) ++ map Rel (rev (locks o)) -> place (Run o code l ls1)
| pl_act : forall o bs l code, ends bs l -> code = map Act bs ++ map Rel (rev (locks o)) ->
    place (Run o code l (locks o))
| pl_rel : forall o l ls ls' code, locks o = ls ++ ls' -> l_out l <> None -> code = map Rel (rev ls) ->
    place (Run o code l ls).

Lemma ends_tl a bs j w l w' l' : ends (a :: bs) l -> act_run j a w l = Some (w', l') -> ends bs l'.
Proof.
  intros (pre & b & E & F) R. destruct pre as [|a' pre]; cbn in E; injection E as -> ->.
  - cbn. eapply F; eauto.
  - destruct (pre ++ [b]) as [|c r] eqn:Q; [destruct pre; discriminate|]. cbn. rewrite <- Q. eauto.
Qed.

Definition Live (m : mach) : Prop :=
  (forall t, place (m_t _ m t)) /\
  forall t u x b b', t <> u -> In (x, b) (held_by pop (m_t _ m t)) -> In (x, b') (held_by pop (m_t _ m u)) ->
    b = false /\ b' = false.

Lemma Live0 w : Live (mach0 pop w).
Proof. split; cbn; [constructor|tauto]. Qed.

Lemma drop_in k x : forall h, In x (drop_lk k h) -> In x h.
Proof.
  induction h as [|a r IH]; cbn; auto. destruct (lk_eqb a k); auto. intros [H|H]; auto.
Qed.

Lemma Live_put m t th w d : Live m -> place th ->
  (forall u x b b', u <> t -> In (x, b) (held_by pop th) -> In (x, b') (held_by pop (m_t _ m u)) -> b = false /\ b' = false) ->
  Live (mkM pop w (put pop (m_t _ m) t th) d).
Proof.
  intros [P X] Q Y. split; cbn [m_t].
  - intros u. unfold put. destruct (u =? t); auto.
  - intros u1 u2 x b b' D. unfold put. destruct (Nat.eqb_spec u1 t), (Nat.eqb_spec u2 t); try congruence.
    + intros I1 I2. eapply Y; eauto.
    + intros I1 I2. apply and_comm. eapply Y; eauto.
    + eauto.
Qed.

Lemma Live_step m t h m' : Live m -> step m t h m' -> Live m'.
Proof.
  intros L S. pose proof (proj1 L t) as PT. pose proof (proj2 L) as X. inversion S; subst.
  - apply Live_put; auto; [eapply pl_acq with (ls2 := locks o); eauto|cbn; tauto].
  - rewrite H0 in PT. apply Live_put; auto.
    + inversion PT as [|o' ls1 ls2 l' c E1 E2|o' bs l' c F E|o' l' ls ls' c E O E2]; subst.
      * destruct ls2 as [|k' ls2]; cbn in E2.
        -- destruct (all_covered np cs o) as (a & r0 & Ea & _). rewrite Ea in E2. discriminate.
        -- injection E2 as <- ->. apply pl_acq with (ls2 := ls2); auto. rewrite <- app_assoc. auto.
      * destruct bs; [cbn in E; destruct (rev (locks o)); discriminate|discriminate].
      * destruct (rev _) in E2; discriminate.
    + intros u x b b' D I1 I2. cbn in I1. rewrite in_app_iff in I1. destruct I1 as [I1|[->|[]]].
      * apply (X t u x b b'); auto. rewrite H0. auto.
      * destruct (H1 _ _ I2). auto.
  - rewrite H0 in PT. apply Live_put; auto.
    + inversion PT as [|o' ls1 ls2 l1 c E1 E2|o' bs l1 c F E|o' l1 ls ls' c E O E2]; subst.
      * destruct ls2 as [|k' ls2]; [|discriminate]. rewrite app_nil_r in E1. subst h0.
        destruct (acts o) as [|a' bs] eqn:EA; [cbn in E2; destruct (rev (locks o)); discriminate|].
        cbn in E2. injection E2 as <- ->. eapply pl_act; eauto. eapply ends_tl; [|eauto].
        pose proof (acts_end o) as Q. rewrite EA in Q. exact Q.
      * destruct bs as [|a' bs]; [cbn in E; destruct (rev (locks o)); discriminate|].
        cbn in E. injection E as <- ->. eapply pl_act; eauto. eapply ends_tl; eauto.
      * destruct (rev _) in E2; discriminate.
    + cbn. intros u x b b' D I1 I2. apply (X t u x b b'); auto. rewrite H0. auto.
  - exact L.
  - rewrite H0 in PT. apply Live_put; auto.
    + assert (Q : exists ls ls', h0 = ls /\ locks o = ls ++ ls' /\ l_out l <> None /\ Rel k :: r = map Rel (rev ls)).
      { inversion PT as [|o' ls1 ls2 l1 c E1 E2|o' bs l1 c F E|o' l1 ls ls' c E O E2]; subst.
        - destruct ls2 as [|k' ls2]; [|discriminate].
          destruct (all_covered np cs o) as (a & r0 & Ea & _). rewrite Ea in E2. discriminate.
        - destruct bs; [|discriminate]. exists (locks o), []. rewrite app_nil_r. auto.
        - eauto 8. }
      destruct Q as (ls & ls' & -> & El & O & Ec).
      destruct (rev ls) as [|k' q] eqn:Er; [discriminate|]. cbn in Ec. injection Ec as <- ->.
      assert (Els : ls = rev q ++ [k]) by (rewrite <- (rev_involutive ls), Er; auto).
      rewrite Els in El |- *. rewrite drop_last.
      * apply pl_rel with (ls' := [k] ++ ls'); auto; [rewrite El, <- app_assoc; auto|rewrite rev_involutive; auto].
      * pose proof (locks_nodup np cs o) as ND. rewrite El, <- app_assoc in ND.
        apply NoDup_remove_2 in ND. rewrite in_app_iff in ND. tauto.
    + cbn. intros u x b b' D I1 I2. apply (X t u x b b'); auto. rewrite H0. cbn.
      eapply drop_in; eauto.
  - apply Live_put; auto; [constructor|cbn; tauto].
Qed.

Lemma Live_run m h m' : run m h m' -> Live m -> Live m'.
Proof. induction 1; auto. intros L. apply IHmrun. eapply Live_step; eauto. Qed.

(** A thread that waits for no lock can make a step. *)
Lemma free_step m t : m_dead _ m = false -> place (m_t _ m t) -> m_t _ m t <> Idle ->
  (forall k, ~ wants pop (m_t _ m t) k) -> can_go m t /\ exists h m', step m t h m'.
Proof.
  intros D P N W. destruct (m_t _ m t) as [|o code l hl] eqn:Et; [congruence|].
  destruct code as [|[k|a|k] r].
  - split; [unfold can_go; rewrite Et; exact I|].
    assert (O : l_out l <> None).
    { inversion P as [|o' ls1 ls2 l1 c E1 E2|o' bs l1 c F E|o' l1 ls ls' c E O E2]; subst; auto.
      - destruct ls2; [|discriminate]. destruct (all_covered np cs o) as (a & r0 & Ea & _). rewrite Ea in E2. discriminate.
      - destruct bs; [exact F|discriminate]. }
    destruct (l_out l) as [x|] eqn:Ox; [|congruence]. do 2 eexists. eapply ms_ret; eauto.
  - exfalso. apply (W k). reflexivity.
  - split; [unfold can_go; rewrite Et; exact I|].
    destruct (act_run (tab_of o) a (m_w _ m) l) as [[w' l']|] eqn:Ea; do 2 eexists;
      [eapply ms_act|eapply ms_die]; eauto.
  - split; [unfold can_go; rewrite Et; exact I|]. do 2 eexists. eapply ms_rel; eauto.
Qed.

Lemma take_step m t o k r l hl : m_dead _ m = false -> m_t _ m t = Run o (Acq k :: r) l hl -> can_take pop m k ->
  exists h m', step m t h m'.
Proof. intros D E C. do 2 eexists. eapply ms_acq; eauto. Qed.

(** Who holds what while waiting. *)
Lemma wants_place th k : place th -> wants pop th k ->
  exists o ls2 r l hl, th = Run o (Acq k :: r) l hl /\ locks o = hl ++ k :: ls2.
Proof.
  intros P W. inversion P as [|o ls1 ls2 l1 c E1 E2|o bs l1 c F E|o l1 ls ls' c E O E2]; subst; cbn in W; try tauto.
  - destruct ls2 as [|k' ls2]; cbn in W.
    + destruct (acts o); cbn in W; [destruct (rev (locks o)); cbn in W; tauto|tauto].
    + subst k'. exists o, ls2. do 3 eexists. split; [reflexivity|exact E1].
  - destruct bs; cbn in W; [destruct (rev (locks o)); cbn in W; tauto|tauto].
  - destruct (rev ls); cbn in W; tauto.
Qed.

Definition bounded (m : mach) (n : nat) : Prop := forall t, n <= t -> m_t _ m t = Idle.
Lemma bounded_run m h m' : run m h m' -> forall n, bounded m n -> exists n', bounded m' n'.
Proof.
  induction 1 as [m|m t h1 m1 h2 m2 S R IH]; intros n B; [eauto|].
  apply (IH (Nat.max n (Datatypes.S t))).
  assert (Q : forall th w d, bounded (mkM pop w (put pop (m_t _ m) t th) d) (Nat.max n (Datatypes.S t))).
  { intros th w d u L. cbn. unfold put. destruct (Nat.eqb_spec u t); [lia|]. apply B. lia. }
  inversion S; subst; try apply Q. intros u L. cbn. apply B. lia.
Qed.

Lemma search (P : nat -> Prop) : (forall t, P t \/ ~ P t) -> forall n,
  (exists t, P t) \/ (forall t, t < n -> ~ P t).
Proof.
  intros D. induction n as [|n IH]; [right; lia|]. destruct IH as [H|H]; auto.
  destruct (D n) as [Y|N]; [eauto|]. right. intros t L. destruct (Nat.eq_dec t n); [subst; auto|]. apply H. lia.
Qed.

Lemma take_dec m n k : bounded m n ->
  can_take pop m k \/ exists t b, In (fst k, b) (held_by pop (m_t _ m t)).
Proof.
  intros B.
  destruct (search (fun t => exists b, In (fst k, b) (held_by pop (m_t _ m t)))) with (n := n) as [(t & b & I)|N].
  - intros t. destruct (in_dec lk_dec (fst k, true) (held_by pop (m_t _ m t))); [eauto|].
    destruct (in_dec lk_dec (fst k, false) (held_by pop (m_t _ m t))); [eauto|]. right. intros ([|] & I); auto.
  - right. eauto.
  - left. intros t b I. destruct (Nat.lt_ge_cases t n) as [L|L]; [exfalso; eapply N; eauto|].
    rewrite (B t L) in I. destruct I.
Qed.
Lemma wants_dec th (k : lk) : wants pop th k \/ ~ wants pop th k.
Proof. destruct th as [|o [|[k'|a|k'] r] l h]; cbn; auto. destruct (lk_dec k' k); auto. Qed.
Lemma waiting_dec m n k : bounded m n ->
  (exists u, wants pop (m_t _ m u) k) \/ (forall u, ~ wants pop (m_t _ m u) k).
Proof.
  intros B. destruct (search (fun u => wants pop (m_t _ m u) k)) with (n := n) as [H|H]; auto.
  - intros t. apply wants_dec.
  - right. intros u W. destruct (Nat.lt_ge_cases u n) as [L|L]; [eapply H; eauto|]. rewrite (B u L) in W. destruct W.
Qed.

Definition goes (m : mach) : Prop := exists t, can_go m t /\ exists h m', step m t h m'.

(** If whoever holds [x] lets somebody go on, so does whoever waits for it.  A writer that finds
    the mutex shared-locked waits for the same holders. *)
Lemma go_lock m n x t b : m_dead _ m = false -> bounded m n -> Live m ->
  (forall u b', In (x, b') (held_by pop (m_t _ m u)) -> goes m) ->
  wants pop (m_t _ m t) (x, b) -> goes m.
Proof.
  intros D B [P _] Hh W.
  assert (G : forall v c, wants pop (m_t _ m v) (x, c) ->
    (c = false -> forall u, ~ wants pop (m_t _ m u) (x, true)) -> goes m).
  { intros v c Wv N. destruct (wants_place _ _ (P v) Wv) as (o & ls2 & r & l & hl & E & _).
    destruct (take_dec m n (x, c) B) as [T|(u & b' & I)]; [|eapply Hh; eauto].
    exists v. split; [unfold can_go; rewrite E; auto|]. eapply take_step; eauto. }
  destruct b; [apply (G t true W); discriminate|].
  destruct (waiting_dec m n (x, true) B) as [(v & Wv)|N].
  - apply (G v true Wv). discriminate.
  - apply (G t false W). auto.
Qed.

Lemma not_idle m t x b : In (x, b) (held_by pop (m_t pop m t)) -> m_t pop m t <> Idle.
Proof. intros I E. rewrite E in I. destruct I. Qed.

Lemma wants_any th : (exists k, wants pop th k) \/ (forall k, ~ wants pop th k).
Proof. destruct th as [|o [|[k|a|k] r] l h]; cbn; eauto. Qed.

Lemma go_P m n t b : m_dead _ m = false -> bounded m n -> Live m -> wants pop (m_t _ m t) (MP, b) -> goes m.
Proof.
  intros D B L W. eapply go_lock; eauto. intros u b' I. exists u. apply free_step; auto; [apply L|eapply not_idle; eauto|].
  intros k Wk. destruct (wants_place _ _ (proj1 L u) Wk) as (o & ls2 & r & l & hl & E & El). rewrite E in I. cbn in I.
  destruct (locks_shape np cs o) as [Q|[(c & Q)|[(j & c & Q)|(j & c & c' & Q)]]]; rewrite Q in El;
    repeat (destruct hl as [|? hl]; cbn in El, I; try discriminate; try tauto; try (injection El as <- El));
    try (destruct I as [I|I]; try discriminate; try tauto; try (destruct I as [I|I]; try discriminate; tauto)).
Qed.

Lemma live m n t : m_dead _ m = false -> bounded m n -> Live m -> m_t _ m t <> Idle -> goes m.
Proof.
  intros D B L N.
  assert (GP : forall u b, wants pop (m_t _ m u) (MP, b) -> goes m) by (intros; eapply go_P; eauto).
  assert (GT : forall j u b, wants pop (m_t _ m u) (MT j, b) -> goes m).
  { intros j u b W. eapply go_lock; eauto. intros v b' I.
    destruct (wants_any (m_t _ m v)) as [([x c] & Wk)|NW].
    - destruct x as [i|]; [|eapply GP; eauto]. exfalso.
      destruct (wants_place _ _ (proj1 L v) Wk) as (o & ls2 & r & l & hl & E & El). rewrite E in I. cbn in I.
      destruct (locks_shape np cs o) as [Q|[(c0 & Q)|[(j0 & c0 & Q)|(j0 & c0 & c' & Q)]]]; rewrite Q in El;
        repeat (destruct hl as [|? hl]; cbn in El, I; try discriminate; try tauto; try (injection El as <- El)).
    - exists v. apply free_step; auto; [apply L|eapply not_idle; eauto]. }
  destruct (wants_any (m_t _ m t)) as [([[j|] c] & Wk)|NW]; [eapply GT; eauto|eapply GP; eauto|].
  exists t. apply free_step; auto. apply L.
Qed.
End Live.
