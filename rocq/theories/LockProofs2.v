(** C55: every interleaving is explained by executing the calls one at a time. *)
From Coq Require Import List Arith NArith ZArith Bool Lia.
From Verif Require Import Base HandleMgrModel EntryListModel MatchUnitModel TableModel ProfileModel
  ProfileSpec LockModel LockSpec LockProofs.
Import ListNotations.

Lemma lk_dec : forall a b : lk, {a = b} + {a <> b}.
Proof. repeat decide equality. Qed.
Lemma lk_eqb_eq a b : lk_eqb a b = true <-> a = b.
Proof.
  destruct a as [[i|] x], b as [[j|] y]; unfold lk_eqb; cbn; rewrite ?andb_true_iff, ?Nat.eqb_eq, ?eqb_true_iff;
    intuition congruence.
Qed.
Lemma drop_last k : forall ls, ~ In k ls -> drop_lk k (ls ++ [k]) = ls.
Proof.
  induction ls as [|a ls IH]; intros N; cbn.
  - destruct (lk_eqb k k) eqn:E; auto. assert (lk_eqb k k = true) by (apply lk_eqb_eq; auto). congruence.
  - destruct (lk_eqb a k) eqn:E; [apply lk_eqb_eq in E; subst; cbn in N; tauto|].
    rewrite IH; auto. cbn in N. tauto.
Qed.

Section Sim.
Variables (np : nat -> nat) (cs : list itcfg).
Local Notation locks := (locks np cs).
Local Notation acts := (acts np cs).
Local Notation mach := (mach pop).
Local Notation held := (held_by pop).
Local Notation step := (mstep pop locks acts tab_of).
Local Notation run := (mrun pop locks acts tab_of).
Local Notation atom := (atomic (alone np cs)).

Inductive phase (w wa : world) : option (pop * option pout) -> thread pop -> Prop :=
| ph_idle : phase w wa None Idle
| ph_acq : forall o ls1 ls2 code, locks o = ls1 ++ ls2 ->
    code = map Acq ls2 ++ map Act (acts o) ++ map Rel (rev (locks o)) ->
    phase w wa (Some (o, None)) (Run o code l0 ls1)
| ph_act : forall o bs l x w2 l2 code, Forall (covers false (tab_of o) (locks o)) bs ->
    run_acts (tab_of o) bs w l = Some (w2, l2) -> l_out l2 = Some x ->
    (forall m, In (m, true) (locks o) -> agree m w2 wa) ->
    code = map Act bs ++ map Rel (rev (locks o)) ->
    phase w wa (Some (o, Some x)) (Run o code l (locks o))
| ph_rel : forall o l x ls ls' code, locks o = ls ++ ls' -> l_out l = Some x ->
    (forall m, In (m, true) ls -> agree m w wa) -> code = map Rel (rev ls) ->
    phase w wa (Some (o, Some x)) (Run o code l ls).

Definition post (v : option (pop * option pout)) : Prop := exists o x, v = Some (o, Some x).

Record Inv (m : mach) (wa : world) (pd : pending) : Prop := {
  i_dead : m_dead _ m = false;
  i_len : length (w_tabs wa) = length cs;
  i_ph : forall t, phase (m_w _ m) wa (pd t) (m_t _ m t);
  i_ex : forall t u x b b', t <> u -> In (x, b) (held (m_t _ m t)) -> In (x, b') (held (m_t _ m u)) ->
    b = false /\ b' = false;
  i_ag : forall x, (forall t, post (pd t) -> ~ In (x, true) (held (m_t _ m t))) -> agree x (m_w _ m) wa }.

Lemma Inv0 w : length (w_tabs w) = length cs -> Inv (mach0 pop w) w (fun _ => None).
Proof.
  intros L. constructor; cbn; auto.
  - intros t. constructor.
  - intros t u x b b' _ [].
  - intros x _. apply agree_refl.
Qed.

(** One thread moves on; the shared state is unchanged. *)
Lemma Inv_upd m wa pd t th v : Inv m wa pd -> phase (m_w _ m) wa v th ->
  (forall u x b b', u <> t -> In (x, b) (held th) -> In (x, b') (held (m_t _ m u)) -> b = false /\ b' = false) ->
  (forall x, post (pd t) -> In (x, true) (held (m_t _ m t)) ->
     (post v /\ In (x, true) (held th)) \/ agree x (m_w _ m) wa) ->
  Inv (mkM pop (m_w _ m) (put pop (m_t _ m) t th) false) wa (pend_upd pd t v).
Proof.
  intros H P X A. constructor; cbn [m_w m_t m_dead]; auto.
  - apply (i_len _ _ _ H).
  - intros u. unfold put, pend_upd. destruct (Nat.eqb_spec u t); auto. apply (i_ph _ _ _ H).
  - intros u1 u2 x b b' D. unfold put. destruct (Nat.eqb_spec u1 t), (Nat.eqb_spec u2 t); subst; try tauto.
    + intros I1 I2. eapply X; eauto.
    + intros I1 I2. apply and_comm. eapply X; eauto.
    + apply (i_ex _ _ _ H); auto.
  - intros x N. destruct (in_dec lk_dec (x, true) (held (m_t _ m t))) as [I|I].
    + destruct (pd t) as [[o [r|]]|] eqn:Ep.
      * destruct (A x) as [[Pv Iv]|G]; auto; [exists o, r; auto|].
        exfalso. apply (N t); unfold put, pend_upd; rewrite Nat.eqb_refl; auto.
      * apply (i_ag _ _ _ H). intros u Pu. specialize (N u). unfold put, pend_upd in N.
        destruct (Nat.eqb_spec u t) as [Eu|]; auto. rewrite Eu in Pu. destruct Pu as (? & ? & E). congruence.
      * apply (i_ag _ _ _ H). intros u Pu. specialize (N u). unfold put, pend_upd in N.
        destruct (Nat.eqb_spec u t) as [Eu|]; auto. rewrite Eu in Pu. destruct Pu as (? & ? & E). congruence.
    + apply (i_ag _ _ _ H). intros u Pu. specialize (N u). unfold put, pend_upd in N.
      destruct (Nat.eqb_spec u t) as [Eu|]; auto. rewrite Eu. auto.
Qed.

(** A thread past its body. *)
Lemma phase_norm w wa v o code l h : phase w wa v (Run o code l h) ->
  (forall k r, code <> Acq k :: r) -> (forall a r, code <> Act a :: r) ->
  exists x ls', v = Some (o, Some x) /\ locks o = h ++ ls' /\ l_out l = Some x /\
    (forall m, In (m, true) h -> agree m w wa) /\ code = map Rel (rev h).
Proof.
  intros P N1 N2. inversion P as [|o' ls1 ls2 c E1 E2|o' bs l' x w2 l2 c F R O A E|o' l' x ls ls' c E O A E2]; subst.
  - destruct (all_covered np cs o) as (a & r & Ea & _). rewrite Ea in *.
    destruct ls2 as [|k ls2]; [exfalso; eapply N2; reflexivity|exfalso; eapply N1; reflexivity].
  - destruct bs as [|a bs]; [|exfalso; eapply N2; reflexivity]. cbn in R. injection R as <- <-.
    exists x, []. rewrite app_nil_r. auto.
  - exists x, ls'. auto.
Qed.

Lemma doom wa pd t o h : pd t = Some (o, None) -> w_step np cs wa o = None -> atom (Some wa) pd h.
Proof.
  intros E D. eapply (at_effect _ wa pd t o POk None); auto.
  - unfold alone. rewrite D. auto.
  - apply at_any.
Qed.

Lemma atom_ext s p h : atom s p h -> forall q, (forall u, p u = q u) -> atom s q h.
Proof.
  intros A. induction A as [s p|s p t o h Ep A IH|s p t o x r h Ep O A IH|s p t o x h Ep A IH|p h]; intros q E;
    try (constructor; fail).
  - apply at_call; [rewrite <- E; auto|]. apply IH. intros u. unfold pend_upd. destruct (u =? t); auto.
  - eapply at_effect; [rewrite <- E; eauto|eauto|]. apply IH. intros u. unfold pend_upd. destruct (u =? t); auto.
  - eapply at_ret; [rewrite <- E; eauto|]. apply IH. intros u. unfold pend_upd. destruct (u =? t); auto.
Qed.
Lemma Inv_ext m wa p q : Inv m wa p -> (forall u, p u = q u) -> Inv m wa q.
Proof.
  intros [H1 H2 H3 H4 H5] E. constructor; auto.
  - intros t. rewrite <- E. auto.
  - intros x N. apply H5. intros t. rewrite E. auto.
Qed.
Lemma Inv_keep m wa pd t th : Inv m wa pd -> phase (m_w _ m) wa (pd t) th ->
  (forall u x b b', u <> t -> In (x, b) (held th) -> In (x, b') (held (m_t _ m u)) -> b = false /\ b' = false) ->
  (forall x, post (pd t) -> In (x, true) (held (m_t _ m t)) ->
     (post (pd t) /\ In (x, true) (held th)) \/ agree x (m_w _ m) wa) ->
  Inv (mkM pop (m_w _ m) (put pop (m_t _ m) t th) false) wa pd.
Proof.
  intros H P X A. eapply Inv_ext; [eapply (Inv_upd m wa pd t th (pd t)); eauto|].
  intros u. unfold pend_upd. destruct (Nat.eqb_spec u t); subst; auto.
Qed.

(** The shared state changes under the locks of [t]: what the other threads know stays true. *)
Lemma phase_frame w wa w' wa' v th : phase w wa v th ->
  (forall m b, post v -> In (m, b) (held th) -> wagree (m, b) w w') ->
  (forall m, post v -> In (m, true) (held th) -> agree m wa wa') ->
  phase w' wa' v th.
Proof.
  intros P W A. inversion P as [|o' ls1 ls2 c E1 E2|o bs l1 x w2 l2 c F R O G E|o' l1 x ls ls' c E O G E2]; subst.
  - constructor.
  - econstructor; eauto.
  - cbn in W, A. assert (PO : post (Some (o, Some x))) by (exists o, x; auto).
    pose proof (run_frame (tab_of o) (locks o) bs w w' l1 F) as Q. rewrite R in Q.
    destruct (run_acts (tab_of o) bs w' l1) as [[w2' l2']|] eqn:R'; cbn in Q;
      [|exfalso; apply Q; intros [m b] I; apply W; auto].
    destruct Q as [<- Q]; [intros [m b] I; apply W; auto|].
    econstructor; eauto. intros m I. specialize (Q _ I). cbn in Q.
    assert (Q' : agree m w2 w2') by (destruct m; exact Q).
    eapply agree_trans; [apply agree_sym; exact Q'|]. eapply agree_trans; [apply G; auto|apply A; auto].
  - cbn in W, A. assert (PO : post (Some (o', Some x))) by (exists o', x; auto).
    econstructor; eauto. intros m I. specialize (W m true PO I).
    assert (Q : agree m w w') by (destruct m; exact W).
    eapply agree_trans; [apply agree_sym; exact Q|]. eapply agree_trans; [apply G; auto|apply A; auto].
Qed.

Lemma full_agree m wa pd t o code : Inv m wa pd -> m_t _ m t = Run o code l0 (locks o) -> pd t = Some (o, None) ->
  forall x b, In (x, b) (locks o) -> agree x (m_w _ m) wa.
Proof.
  intros H Et Ep x b I. apply (i_ag _ _ _ H). intros u P J.
  destruct (Nat.eq_dec u t) as [->|D]; [destruct P as (? & ? & E); congruence|].
  destruct (i_ex _ _ _ H u t x true b D J); [rewrite Et; auto|discriminate].
Qed.

Lemma later_step m wa pd t o a bs l x w2 l2 w' l' : Inv m wa pd ->
  m_t _ m t = Run o (Act a :: map Act bs ++ map Rel (rev (locks o))) l (locks o) ->
  act_run (tab_of o) a (m_w _ m) l = Some (w', l') ->
  Some (o, Some x) = pd t -> Forall (covers false (tab_of o) (locks o)) (a :: bs) ->
  run_acts (tab_of o) (a :: bs) (m_w _ m) l = Some (w2, l2) -> l_out l2 = Some x ->
  (forall m, In (m, true) (locks o) -> agree m w2 wa) ->
  Inv (mkM pop w' (put pop (m_t _ m) t (Run o (map Act bs ++ map Rel (rev (locks o))) l' (locks o))) false) wa pd.
Proof.
  intros H Et Ea Ep F R O G. inversion F as [|? ? C F']; subst. cbn [run_acts] in R. rewrite Ea in R.
  pose proof (act_same _ _ _ _ _ _ _ C Ea) as SM.
  constructor; cbn [m_w m_t m_dead]; auto.
  - apply (i_len _ _ _ H).
  - intros u. unfold put. destruct (Nat.eqb_spec u t) as [Eu|Du].
    + subst u. rewrite <- Ep. econstructor; eauto.
    + eapply phase_frame; [apply (i_ph _ _ _ H)| |intros; apply agree_refl].
      intros y b _ I. apply agree_wagree. cbn. apply SM. intros J.
      destruct (i_ex _ _ _ H t u y true b); auto; [rewrite Et; auto|discriminate].
  - intros u1 u2 y b b' D. unfold put.
    assert (HT : held (m_t _ m t) = locks o) by (rewrite Et; auto).
    destruct (Nat.eqb_spec u1 t) as [E1|E1], (Nat.eqb_spec u2 t) as [E2|E2].
    + congruence.
    + cbn. rewrite <- HT. apply (i_ex _ _ _ H); congruence.
    + cbn. rewrite <- HT. apply (i_ex _ _ _ H); congruence.
    + apply (i_ex _ _ _ H); auto.
  - intros y N. assert (NT : ~ In (y, true) (locks o)).
    { specialize (N t). unfold put in N. rewrite Nat.eqb_refl in N. apply N. rewrite <- Ep. exists o, x. auto. }
    eapply agree_trans; [apply agree_sym, SM, NT|]. apply (i_ag _ _ _ H). intros u P.
    specialize (N u P). unfold put in N. destruct (Nat.eqb_spec u t) as [Eu|Du]; auto. rewrite Eu, Et. auto.
Qed.

Lemma first_dies m wa pd t o a r h : Inv m wa pd -> m_t _ m t = Run o (Act a :: r) l0 (locks o) ->
  act_run (tab_of o) a (m_w _ m) l0 = None -> Some (o, None) = pd t ->
  Act a :: r = map Acq [] ++ map Act (acts o) ++ map Rel (rev (locks o)) ->
  atom (Some wa) pd h.
Proof.
  intros H Et Ea Ep E2. eapply doom; [symmetry; exact Ep|].
  rewrite script_ok by apply (i_len _ _ _ H).
  destruct (all_covered np cs o) as (a' & bs & EA & C & F). rewrite EA in *. cbn in E2. injection E2 as <- ->.
  pose proof (act_frame1 (tab_of o) (locks o) a (m_w _ m) wa l0 C (full_agree _ _ _ _ _ _ H Et (eq_sym Ep))) as Q.
  rewrite Ea in Q. cbn [run_acts]. destruct (act_run (tab_of o) a wa l0) as [[? ?]|]; [destruct Q|reflexivity].
Qed.

Lemma first_step m wa pd t o a r w' l' : Inv m wa pd -> m_t _ m t = Run o (Act a :: r) l0 (locks o) ->
  act_run (tab_of o) a (m_w _ m) l0 = Some (w', l') -> Some (o, None) = pd t ->
  Act a :: r = map Acq [] ++ map Act (acts o) ++ map Rel (rev (locks o)) ->
  (forall h2, atom (Some wa) pd ([] ++ h2)) \/
  exists wa' pd', Inv (mkM pop w' (put pop (m_t _ m) t (Run o r l' (locks o))) false) wa' pd' /\
    forall h2, atom (Some wa') pd' h2 -> atom (Some wa) pd ([] ++ h2).
Proof.
  intros H Et Ea Ep E2. pose proof (script_ok np cs wa o (i_len _ _ _ H)) as SO.
  destruct (all_covered np cs o) as (a' & bs & EA & C & F). rewrite EA in E2, SO. cbn in E2. injection E2 as <- ->.
  pose proof (full_agree _ _ _ _ _ _ H Et (eq_sym Ep)) as FA.
  pose proof (act_frame1 (tab_of o) (locks o) a (m_w _ m) wa l0 C FA) as Q.
  rewrite Ea in Q. cbn [run_acts] in SO. destruct (act_run (tab_of o) a wa l0) as [[wa1 l1]|] eqn:Ea1; [|destruct Q].
  destruct Q as [<- Q1].
  destruct (run_acts (tab_of o) bs wa1 l') as [[wa' l2]|] eqn:Er1; [|left; intros; eapply doom; eauto].
  cbn [finish] in SO. destruct (l_out l2) as [x|] eqn:Eo; [|left; intros; eapply doom; eauto].
  right. exists wa', (pend_upd pd t (Some (o, Some x))). split.
  2:{ intros h2 A. cbn. eapply at_effect; [symmetry; exact Ep| |exact A]. unfold alone. rewrite SO. auto. }
  pose proof (run_frame (tab_of o) (locks o) bs wa1 w' l' F) as Q. rewrite Er1 in Q.
  assert (WA : forall k, In k (locks o) -> wagree k wa1 w').
  { intros [y b] I. apply agree_wagree, agree_sym. eapply Q1. exact I. }
  specialize (Q WA). destruct (run_acts (tab_of o) bs w' l') as [[w2 l2']|] eqn:Er; [|destruct Q].
  destruct Q as [<- Q].
  pose proof (act_same1 _ _ _ _ _ _ _ C Ea) as S1. pose proof (act_same1 _ _ _ _ _ _ _ C Ea1) as S2.
  pose proof (act_def _ _ _ _ _ _ _ C Ea) as S3. pose proof (run_same _ _ _ _ _ _ _ F Er1) as S4.
  assert (HT : held (m_t _ m t) = locks o) by (rewrite Et; auto).
  constructor; cbn [m_w m_t m_dead]; auto.
  - rewrite (run_len _ _ _ _ _ _ Er1), (act_len _ _ _ _ _ _ Ea1). apply (i_len _ _ _ H).
  - intros u. unfold put, pend_upd. destruct (Nat.eqb_spec u t) as [Eu|Du].
    + apply (ph_act w' wa' o bs l' x w2 l2 _ F Er Eo); auto.
      intros y I. specialize (Q _ I). apply agree_sym. destruct y; exact Q.
    + assert (NT : forall y, In (y, true) (held (m_t _ m u)) -> forall b, ~ In (y, b) (locks o)).
      { intros y I b J. destruct (i_ex _ _ _ H u t y true b); auto; [rewrite HT; auto|discriminate]. }
      eapply phase_frame; [apply (i_ph _ _ _ H)| |].
      * intros y [|] _ I; [apply agree_wagree, S1; auto|]. apply S3. intros J.
        destruct (i_ex _ _ _ H t u y true false); auto; [rewrite HT; auto|discriminate].
      * intros y _ I. eapply agree_trans; [apply S2; auto|]. apply S4. apply NT. auto.
  - intros u1 u2 y b b' D. unfold put.
    destruct (Nat.eqb_spec u1 t) as [E1|E1], (Nat.eqb_spec u2 t) as [E2|E2].
    + congruence.
    + cbn. rewrite <- HT. apply (i_ex _ _ _ H); congruence.
    + cbn. rewrite <- HT. apply (i_ex _ _ _ H); congruence.
    + apply (i_ex _ _ _ H); auto.
  - intros y N. assert (NT : ~ In (y, true) (locks o)).
    { specialize (N t). unfold put, pend_upd in N. rewrite Nat.eqb_refl in N. apply N. exists o, x. auto. }
    destruct (in_dec lk_dec (y, false) (locks o)) as [I|I].
    + eapply agree_trans; [eapply Q1; exact I|]. apply S4; auto.
    + assert (NB : forall b, ~ In (y, b) (locks o)) by (intros [|]; auto).
      eapply agree_trans; [apply agree_sym, S1; auto|].
      eapply agree_trans; [|eapply agree_trans; [apply S2; auto|apply S4; auto]].
      apply (i_ag _ _ _ H). intros u P. specialize (N u). unfold put, pend_upd in N.
      destruct (Nat.eqb_spec u t) as [Eu|Du]; auto. rewrite Eu in P. destruct P as (? & ? & E). congruence.
Qed.

Lemma step_inv m t h m' wa pd : Inv m wa pd -> step m t h m' ->
  (forall h2, atom (Some wa) pd (h ++ h2)) \/
  exists wa' pd', Inv m' wa' pd' /\ forall h2, atom (Some wa') pd' h2 -> atom (Some wa) pd (h ++ h2).
Proof.
  intros H ST. pose proof (i_ph _ _ _ H t) as PT. inversion ST; subst.
  - (* call *)
    right. rewrite H1 in PT. inversion PT as [E1| | |]; subst. symmetry in E1.
    exists wa, (pend_upd pd t (Some (o, None))). split.
    + apply Inv_upd; auto.
      * apply ph_acq with (ls2 := locks o); auto.
      * intros u x b b' _ [].
      * intros x (o' & r & E). congruence.
    + intros h2 A. cbn. apply at_call; auto.
  - (* acquire *)
    right. exists wa, pd. split; [|auto]. apply Inv_keep; auto; rewrite H1 in *.
    + inversion PT as [|o' ls1 ls2 c E1 E2|o' bs l' x w2 l2 c F R O A E|o' l' x ls ls' c E O A E2]; subst.
      * destruct ls2 as [|k' ls2]; cbn in E2.
        -- destruct (all_covered np cs o) as (a & r0 & Ea & _). rewrite Ea in E2. discriminate.
        -- injection E2 as <- ->. apply ph_acq with (ls2 := ls2); auto. rewrite <- app_assoc. auto.
      * destruct bs as [|a bs]; [cbn in E; destruct (rev (locks o)); discriminate|discriminate].
      * destruct (rev _) in E2; discriminate.
    + intros u x b b' D I1 I2. cbn in I1. rewrite in_app_iff in I1. destruct I1 as [I1|[->|[]]].
      * apply (i_ex _ _ _ H t u x b b'); auto. rewrite H1. auto.
      * destruct (H2 _ _ I2). auto.
    + intros x P I. left. split; auto. cbn. rewrite in_app_iff. auto.
  - (* a step of the body *)
    rewrite H1 in PT.
    inversion PT as [|o' ls1 ls2 c E1 E2|o' bs l1 x w2 l2 c F R O A E|o' l1 x ls ls' c E O A E2]; subst.
    + (* the first one: the call takes effect *)
      destruct ls2 as [|k' ls2]; [|discriminate]. rewrite app_nil_r in E1. subst h0.
      eapply first_step; eauto.
    + destruct bs as [|a' bs]; [cbn in E; destruct (rev (locks o)); discriminate|]. injection E as <- ->.
      right. exists wa, pd. split; [|auto]. eapply later_step; eauto.
    + destruct (rev _) in E2; discriminate.
  - (* death *)
    rewrite H1 in PT. left. intros h2.
    inversion PT as [|o' ls1 ls2 c E1 E2|o' bs l1 x w2 l2 c F R O A E|o' l1 x ls ls' c E O A E2]; subst.
    + destruct ls2 as [|k' ls2]; [|discriminate]. rewrite app_nil_r in E1. subst h0. eapply first_dies; eauto.
    + destruct bs as [|a' bs]; [cbn in E; destruct (rev (locks o)); discriminate|]. injection E as <- ->.
      cbn in R. rewrite H2 in R. discriminate.
    + destruct (rev _) in E2; discriminate.
  - (* release *)
    right. exists wa, pd. split; [|auto]. rewrite H1 in PT.
    destruct (phase_norm _ _ _ _ _ _ _ PT) as (x & ls' & Ep & El & Ol & Ag & Ec); [discriminate|discriminate|].
    assert (Eh : h0 = rev (map (fun i => match i with Rel k => k | _ => (MP, true) end) r) ++ [k] /\
                 r = map Rel (rev (rev (map (fun i => match i with Rel k => k | _ => (MP, true) end) r)))).
    { assert (Q : rev h0 = map (fun i => match i with Rel k => k | _ => (MP, true) end) (map Rel (rev h0))).
      { rewrite map_map, map_id. auto. }
      rewrite <- Ec in Q. cbn in Q. split.
      - rewrite <- (rev_involutive h0), Q. cbn. auto.
      - rewrite rev_involutive. rewrite Q in Ec. cbn in Ec. injection Ec as Ec. exact Ec. }
    set (ls := rev (map (fun i => match i with Rel k => k | _ => (MP, true) end) r)) in *.
    destruct Eh as [-> Er].
    assert (D : drop_lk k (ls ++ [k]) = ls).
    { apply drop_last. pose proof (locks_nodup np cs o) as ND. rewrite El, <- app_assoc in ND.
      apply NoDup_remove_2 in ND. rewrite in_app_iff in ND. tauto. }
    rewrite D. apply Inv_keep; auto; rewrite ?H1.
    + rewrite Ep. apply ph_rel with (ls' := [k] ++ ls'); auto.
      * rewrite El, <- app_assoc. auto.
      * intros m0 I. apply Ag. rewrite in_app_iff. auto.
    + intros u y b b' D' I1 I2. apply (i_ex _ _ _ H t u y b b'); auto. rewrite H1. cbn. rewrite in_app_iff. auto.
    + cbn. intros y P I. right. apply Ag; auto.
  - (* return *)
    right. rewrite H1 in PT.
    destruct (phase_norm _ _ _ _ _ _ _ PT) as (y & ls' & Ep & El & Ol & Ag & Ec); [discriminate|discriminate|].
    exists wa, (pend_upd pd t None). split.
    + apply Inv_upd; auto; [constructor|intros u z b b' _ []|]. rewrite H1. cbn. intros z P I. right. apply Ag; auto.
    + intros h2 A. cbn. rewrite Ol in H2. injection H2 as ->. eapply at_ret; eauto.
Qed.

Lemma run_inv m h m' : run m h m' -> forall wa pd, Inv m wa pd -> atom (Some wa) pd h.
Proof.
  induction 1 as [m|m t h1 m1 h2 m2 S R IH]; intros wa pd H; [constructor|].
  destruct (step_inv _ _ _ _ _ _ H S) as [D|(wa' & pd' & H' & A)]; auto.
Qed.
End Sim.
