(** C40: registers keep values modulo their width, and actions have exclusive access to the register arrays they use. *)
From Coq Require Import List Arith NArith ZArith Bool Lia.
From Verif Require Import Base DataModel PhvModel ExprModel ExprSpec ActionModel ActionSpec RegModel RegSpec RegProofs RegProofs2.
Import ListNotations.

Definition fresh (D : dims) : list rarr := map (fun d => ra_new (fst d) (snd d)) D.
Lemma fresh_dims D : dims_of (fresh D) = D.
Proof. unfold dims_of, fresh. rewrite map_map. transitivity (map (fun d : nat * nat => d) D); [|apply map_id]. apply map_ext. intros [w n]. cbn. rewrite repeat_length. reflexivity. Qed.
Lemma fresh_content D a i : content_of (fresh D) a i = 0%Z.
Proof.
  unfold content_of, fresh. rewrite nth_error_map. destruct (nth_error D a) as [[w n]|]; cbn; [|reflexivity].
  destruct (Nat.ltb_spec i n); [apply nth_repeat|apply nth_overflow; rewrite repeat_length; lia].
Qed.
(** Every history of calls: each call does and returns what the specification says; all registers are 0 at first.  No legal call fails. *)
Theorem C40_registers : forall D l, 
  (forall R rs, r_run (fresh D) l = Some (R, rs) -> exists c c', (forall a i, c a i = 0%Z) /\ history D c l c' rs) /\
  (Forall (legal D) l -> r_run (fresh D) l <> None).
Proof.
  intros D l. split.
  - intros R rs H. destruct (r_run_ok _ _ _ _ H) as [A _]. rewrite fresh_dims in A. exists (content_of (fresh D)), (content_of R). split; [apply fresh_content|exact A].
  - intros F. apply r_run_def. rewrite fresh_dims. exact F.
Qed.
Print Assumptions C40_registers.
(** Reading a register after writing it gives the value modulo 2^width, whatever was done to other registers in between *)
Definition touches (a i : nat) (k : rcall) : Prop :=
  match k with RWrite b j _ | RSet b j _ | ROp b j _ _ _ => b = a /\ j = i | RRange b s e _ => b = a /\ s <= i < e | RReset b => b = a | _ => False end.
Lemma answers_untouched D c k c' r a i : answers D c k c' r -> ~ touches a i k -> c' a i = c a i.
Proof.
  destruct k as [b j|b|b j v|b s e v|b|b j v|b j o x y]; cbn [answers touches]; intros H N.
  - apply (proj1 H).
  - apply (proj1 H).
  - destruct (nth_error D b) as [[w n]|]; [|apply (proj1 H)]. destruct (Nat.lt_ge_cases j n) as [L|L]; [|apply (proj1 (proj2 H L))]. destruct (proj1 (proj1 H L)) as [_ W]. apply W. intros [-> ->]. apply N. auto.
  - destruct (nth_error D b) as [[w n]|]; [|apply (proj1 H)]. destruct (le_dec s e) as [L1|L1]; [destruct (le_dec e n) as [L2|L2]|]; [|apply H; lia|apply H; lia].
    destruct (proj1 (proj1 H (conj L1 L2))) as [_ W]. apply W. intros [-> Q]. apply N. auto.
  - destruct (nth_error D b) as [[w n]|]; [|apply (proj1 H)]. destruct (proj1 H) as [_ W]. apply W. intros [-> _]. apply N. auto.
  - destruct H as (w & n & _ & _ & [_ W] & _). apply W. intros [-> ->]. apply N. auto.
  - destruct H as (w & n & v & _ & _ & _ & [_ W] & _). apply W. intros [-> ->]. apply N. auto.
Qed.
Theorem C40_read_back : forall D w n a i v l1 l2 R rs, nth_error D a = Some (w, n) -> i < n -> Forall (fun k => ~ touches a i k) l2 ->
  r_run (fresh D) (l1 ++ RWrite a i v :: l2 ++ [RRead a i]) = Some (R, rs) -> exists rs', rs = rs' ++ [(ROk, [(v mod 2 ^ Z.of_nat w)%Z], [])].
Proof.
  intros D w n a i v l1 l2 R rs Da L F H. destruct (r_run_ok _ _ _ _ H) as [A _]. rewrite fresh_dims in A. clear H.
  assert (Hs : forall l c c' rs, history D c (l ++ RWrite a i v :: l2 ++ [RRead a i]) c' rs -> exists rs', rs = rs' ++ [(ROk, [(v mod 2 ^ Z.of_nat w)%Z], [])]).
  { clear R rs A. induction l as [|k l IH]; intros c c' rs A.
    - cbn [app] in A. inversion A as [|? ? c1 r ? ? rs1 A1 A2]; subst. cbn [answers] in A1. rewrite Da in A1. destruct (proj1 A1 L) as [[W _] _]. specialize (W i eq_refl).
      enough (exists rs', rs1 = rs' ++ [(ROk, [(v mod 2 ^ Z.of_nat w)%Z], [])]) as [rs' ->] by (exists (r :: rs'); reflexivity). clear A A1 c. revert c1 rs1 A2 W. induction l2 as [|k l2 IH]; intros c1 rs1 A2 W.
      + cbn [app] in A2. inversion A2 as [|? ? c2 r' ? ? rs2 B1 B2]; subst. inversion B2; subst. cbn [answers] in B1. rewrite Da in B1. destruct B1 as [_ [B1 _]]. rewrite (B1 L), W. exists []. reflexivity.
      + inversion F as [|? ? F1 F2]; subst. cbn [app] in A2. inversion A2 as [|? ? c2 r' ? ? rs2 B1 B2]; subst. destruct (IH F2 c2 rs2 B2) as [rs' ->]; [|exists (r' :: rs'); reflexivity]. rewrite (answers_untouched _ _ _ _ _ a i B1 F1). exact W.
    - cbn [app] in A. inversion A as [|? ? c1 r ? ? rs1 A1 A2]; subst. destruct (IH _ _ _ A2) as [rs' ->]. exists (r :: rs'). reflexivity. }
  exact (Hs l1 _ _ _ A).
Qed.
Print Assumptions C40_read_back.

(** ** The arrays an action locks: those that occur in its parameters, each once *)
Theorem C40_action_locks : forall ro prog L, action_locks ro prog = Some L -> plain_headers prog -> NoDup L /\ (forall a, In a L <-> In a (arrays_action ro prog)).
Proof.
  intros ro prog L H P. destruct (sync_prims_in _ _ _ _ H P) as [A N]. split; [apply N; constructor|]. intros a. rewrite A. cbn. tauto.
Qed.
Print Assumptions C40_action_locks.
(** While it computes the arguments of its primitives the action reads no register outside the arrays it locked, and what it passes to them refers to no other array.
    By C37_actions these are the arguments the primitives get.  [r]: other values for the registers not locked. *)
Theorem C40_action_is_covered : forall ro prog L prim ps E r ad, action_locks ro prog = Some L -> plain_headers prog -> In (prim, ps) prog -> agree_on L E r ->
  means_all (with_regs E r) ad (sig prim) ps = means_all E ad (sig prim) ps /\
  forall l, means_all E ad (sig prim) ps = Some l -> Forall (refs_in ro L) l.
Proof.
  intros ro prog L prim ps E r ad H P I A. destruct (C40_action_locks _ _ _ H P) as [_ Q].
  assert (S : incl (flat_map (arrays_param ro) ps) L).
  { intros a Ia. apply Q. unfold arrays_action. apply in_flat_map. exists (prim, ps). auto. }
  split.
  - apply (means_all_regs ro). eapply agree_sub; eauto.
  - intros l M. eapply Forall_impl; [|apply (means_all_refs ro _ _ _ _ _ M)]. intros s X. eapply refs_sub; eauto.
Qed.
Print Assumptions C40_action_is_covered.
(** Parse states (and deparsers, with method calls only) *)
Theorem C40_state_locks : forall ro ops L, state_locks ro [] ops = Some L -> Forall plain_pop ops -> NoDup L /\ (forall a, In a L <-> In a (flat_map (arrays_pop ro) ops)).
Proof.
  intros ro ops L H P. destruct (state_locks_in _ _ _ _ H P) as [A N]. split; [apply N; constructor|]. intros a. rewrite A. cbn. tauto.
Qed.
Print Assumptions C40_state_locks.

(** ** Exclusive access: whatever the threads do, in whatever order, each call has the effect, and reads the values, it would have alone, one call after the other *)
Theorem C40_serial : forall c es s xs, t_run (m_start c) es = Some (s, xs) -> Forall call_within es -> (forall t, m_thr s t = TIdle) ->
  exists ser, serial c ser (m_val s) /\ forall t, calls_of t es = map fst (of_thread t ser) /\ results_of t xs = map snd (of_thread t ser).
Proof.
  intros c es s xs R W Q. destruct (run_serial _ _ _ _ R W) as (G & fut & ser & I & S & C & O). exists ser. split.
  - assert (Eq : forall a i, m_val s a i = G a i) by (intros a i; apply (i_free _ _ _ I); intros t L p log T; rewrite Q in T; discriminate).
    clear - S Eq. inversion S as [? ? E|? l c1 t p c2 c3 log S1 A E]; subst; [constructor|econstructor; [exact S1|exact A|]]; intros a i; rewrite Eq; apply E.
  - intros t. specialize (C t). specialize (O t). unfold pending, live in *. rewrite Q in *. rewrite app_nil_r in *. auto.
Qed.
Print Assumptions C40_serial.
(** In particular two threads are never between taking and releasing their locks if they share an array *)
Theorem C40_exclusive : forall c es s xs t u L p log L' p' log' a, t_run (m_start c) es = Some (s, xs) -> Forall call_within es ->
  m_thr s t = TRunning L p log -> m_thr s u = TRunning L' p' log' -> In a L -> In a L' -> t = u.
Proof. intros c es s xs t u L p log L' p' log' a R W T U A B. destruct (run_serial _ _ _ _ R W) as (G & fut & ser & I & _). eapply inv_disjoint; eauto. Qed.
Print Assumptions C40_exclusive.
(** No deadlock: whenever a thread waits for its locks there is a continuation in which it gets them *)
Theorem C40_no_deadlock : forall c es s xs t L p, t_run (m_start c) es = Some (s, xs) -> Forall call_within es -> m_thr s t = TLocking L p ->
  exists es' s' xs', t_run s es' = Some (s', xs') /\ Forall call_within es' /\ m_thr s' t = TRunning L p [].
Proof.
  intros c es s xs t L p R W T. destruct (run_serial _ _ _ _ R W) as (G & fut & ser & I & _). destruct (grab_all L s t L p (i_own _ _ _ I) T (incl_refl _)) as (es1 & s1 & ys & R1 & W1 & _ & T1 & O1).
  exists (es1 ++ [TEnter t]). rewrite run_app, R1. cbn [bind fst snd t_run t_step]. rewrite T1. assert (F : forallb (owns s1 t) L = true) by (apply forallb_forall; intros a A; apply owns_eq; auto). rewrite F. cbn.
  eexists _, _. split; [reflexivity|]. split; [apply Forall_app; split; [exact W1|repeat constructor]|]. apply upd_eq.
Qed.
Print Assumptions C40_no_deadlock.

(** ** Concrete cases *)
Example C40_registers_nonvacuous : 
  let D := [(8, 4); (1, 2)] in let l := [RWrite 0 1 300; RRead 0 1; ROp 0 2 DSub 3 5; RRange 1 0 2 3; RReadAll 1; RReset 1; RRead 1 0; RRead 0 2; RWrite 0 4 1; RRead 2 0] in
  Forall (legal D) l /\ option_map snd (r_run (fresh D) l) =
  Some [(ROk, [], [1]); (ROk, [44%Z], []); (ROk, [], [2]); (ROk, [], [0; 1]); (ROk, [1%Z; 1%Z], []); (ROk, [], []); (ROk, [0%Z], []); (ROk, [254%Z], []); (RBadIndex, [], []); (RBadName, [], [])].
Proof. split; [|vm_compute; reflexivity]. repeat (apply Forall_cons; [cbn; auto|]); [|apply Forall_nil]. split; [exists 8, 4; split; [reflexivity|lia]|discriminate]. Qed.
(** r2 := r0[r1[3]] + (r0 ? ...) *)
Definition ex_ro (o : nat) : option nat := if o =? 7 then Some 4 else None.
Definition ex_prog : list (prim * list jparam) :=
  [(POther 0 [MRef; MConst], [JS (SR 2 0); JS (SX (JOp (OBin BAdd) (JRegGen 0 (JReg 1 3)) (JTern (JOp OD2B (JReg 0 1) JNull) (JHex 1) (JReg 3 0))))]); (POther 1 [MObj; MConst], [JO 7; JS (SRG 0 (JHex 2))])].
Example C40_locks_nonvacuous : action_locks ex_ro ex_prog = Some [2; 1; 0; 3; 4] /\ plain_headers ex_prog.
Proof. split; [vm_compute; reflexivity|]. repeat (apply Forall_cons; [cbn; repeat (apply Forall_cons; [cbn; auto|]); apply Forall_nil|]). apply Forall_nil. Qed.
(** Two threads incrementing the same register, interleaved *)
Definition incr (a i : nat) : acts := Rd a i (fun v => Wr a i (v + 1) Ret).
Example C40_threads_nonvacuous : exists s xs, t_run (m_start (fun _ _ => 5%Z))
  [TCall 1 [0; 1] (incr 0 0); TCall 2 [1; 0] (incr 0 0); TGrab 1 0; TGrab 2 1; TDrop 2 1; TGrab 1 1; TEnter 1; TAccess 1; TAccess 1; TExit 1; TGrab 2 0; TGrab 2 1; TEnter 2; TAccess 2; TAccess 2; TExit 2] = Some (s, xs) /\
  xs = [(1, [5%Z]); (2, [6%Z])] /\ m_val s 0 0 = 7%Z /\ within [0; 1] (incr 0 0).
Proof. eexists _, _. split; [vm_compute; reflexivity|]. split; [reflexivity|]. split; [reflexivity|]. cbn. auto. Qed.

(** ** Findings *)
(** A register used in an expression that denotes a header (hdr.stack[r]) is not locked *)
Theorem C40_header_expression_refuted : exists ro prog L E r ad prim ps, action_locks ro prog = Some L /\ In (prim, ps) prog /\ agree_on L E r /\
  means_all (with_regs E r) ad (sig prim) ps <> means_all E ad (sig prim) ps.
Proof.
  exists (fun _ => None), [(POther 0 [MHdr], [JHX (JOp ODeref (JStack 0) (JReg 0 0))])], [],
    (mk_env (fun _ _ => None) (fun _ => None) (fun _ => None) (fun _ _ => Some 0%Z) (fun _ => None) (fun _ _ => None) (fun _ => None) (fun _ _ => None) (fun _ i => Some (Z.to_nat i)) (fun _ _ => None) (fun _ _ => None) (fun _ => None)),
    (fun _ _ => Some 1%Z), [], (POther 0 [MHdr]), [JHX (JOp ODeref (JStack 0) (JReg 0 0))].
  split; [vm_compute; reflexivity|]. split; [left; reflexivity|]. split; [intros a i []|]. vm_compute. discriminate.
Qed.
Print Assumptions C40_header_expression_refuted.
(** A condition, and in a parser an advance, a verify or the length of a variable-length header, reads registers without any lock *)
Theorem C40_condition_refuted : exists j, arrays_in j <> [] /\ condition_locks j = [] /\ state_locks (fun _ => None) [] [PAdvanceExpr j] = Some [] /\ state_locks (fun _ => None) [] [PExtractVL j; PVerify (JBool true) j] = Some [] /\
  exists E r, value (with_regs E r) j <> value E j.
Proof.
  exists (JReg 0 0). split; [discriminate|]. split; [reflexivity|]. split; [reflexivity|]. split; [reflexivity|].
  exists (mk_env (fun _ _ => None) (fun _ => None) (fun _ => None) (fun _ _ => Some 0%Z) (fun _ => None) (fun _ _ => None) (fun _ => None) (fun _ _ => None) (fun _ i => None) (fun _ _ => None) (fun _ _ => None) (fun _ => None)), (fun _ _ => Some 1%Z).
  vm_compute. discriminate.
Qed.
Print Assumptions C40_condition_refuted.
(** Resetting an array does not lock it: an action in progress can write back what the reset erased.  No order of the two explains the result. *)
Theorem C40_reset_refuted : exists s xs, t_run (m_start (fun _ _ => 5%Z)) [TCall 1 [0] (incr 0 0); TGrab 1 0; TEnter 1; TAccess 1; TReset 0; TAccess 1; TExit 1] = Some (s, xs) /\ 
  m_val s 0 0 = 6%Z /\ fst (alone (incr 0 0) (fun _ _ => 0%Z)) 0 0 = 1%Z /\ (fun (_ _ : nat) => 0%Z) 0 0 <> 6%Z.
Proof. eexists _, _. split; [vm_compute; reflexivity|]. split; [reflexivity|]. split; [reflexivity|]. discriminate. Qed.
Print Assumptions C40_reset_refuted.
