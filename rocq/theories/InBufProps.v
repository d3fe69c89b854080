(** C44: the input buffer of simple_switch. *)
From Coq Require Import List Arith Bool Lia.
From Verif Require Import Base InBufModel InBufSpec.
Import ListNotations.

Lemma first_idx_some f l : forall k, first_idx f l = Some k -> exists t, nth_error l k = Some t /\ f t = true.
Proof.
  induction l as [|t l IH]; intros k H; cbn in H; [discriminate|]. destruct (f t) eqn:E.
  - injection H as <-. exists t. auto.
  - destruct (first_idx f l) as [k'|]; [|discriminate]. injection H as <-. apply IH. auto.
Qed.
Lemma first_idx_none f l : first_idx f l = None -> forall t, In t l -> f t = false.
Proof.
  induction l as [|t l IH]; intros H u I; [destruct I|]. cbn in H. destruct (f t) eqn:E; [discriminate|].
  destruct (first_idx f l); [discriminate|]. destruct I as [<-|I]; auto.
Qed.
Lemma notify_cases k j l : (notify_one k j l = l /\ forall t, In t l -> is_waiting k t = false) \/
  (exists i c, nth_error l i = Some (TWait c) /\ waits_on c = k /\ notify_one k j l = list_set l i (TStart c)).
Proof.
  unfold notify_one. destruct (pick (is_waiting k) j l) as [i|] eqn:P.
  - right. assert (H : exists t, nth_error l i = Some t /\ is_waiting k t = true).
    { unfold pick in P. destruct (nth_error l j) as [t|] eqn:E; [|eapply first_idx_some; eauto].
      destruct (is_waiting k t) eqn:F; [|eapply first_idx_some; eauto]. injection P as <-. eauto. }
    destruct H as (t & A & B). rewrite A. destruct t as [c|c|c r|c r]; try discriminate B. exists i, c. split; [exact A|]. split; [|reflexivity].
    cbn in B. destruct (waits_on c), k; try discriminate B; reflexivity.
  - left. split; auto. apply first_idx_none. unfold pick in P. destruct (nth_error l j) as [t|]; auto. destruct (is_waiting k t); auto. discriminate.
Qed.
Definition cnt (f : thr -> bool) (l : list thr) : nat := length (filter f l).
Definition b2n (b : bool) : nat := if b then 1 else 0.
Lemma cnt_set f l : forall i t u, nth_error l i = Some t -> cnt f (list_set l i u) + b2n (f t) = cnt f l + b2n (f u).
Proof.
  unfold cnt. induction l as [|x l IH]; intros [|i] t u H; cbn in H; try discriminate.
  - injection H as ->. cbn. destruct (f t), (f u); cbn; lia.
  - cbn. specialize (IH i t u H). destruct (f x); cbn; lia.
Qed.
Lemma cnt_zero f l : (forall t, In t l -> f t = false) -> cnt f l = 0.
Proof.
  unfold cnt. intros H. assert (E : filter f l = []); [|rewrite E; auto].
  destruct (filter f l) as [|x r] eqn:E; auto. exfalso. assert (I : In x (filter f l)) by (rewrite E; left; auto).
  apply filter_In in I as [A B]. rewrite H in B by auto. discriminate.
Qed.
Lemma cnt_pos f l t : In t l -> f t = true -> 0 < cnt f l.
Proof. unfold cnt. intros A B. assert (I : In t (filter f l)) by (apply filter_In; auto). destruct (filter f l); [destruct I|cbn; lia]. Qed.

Section B.
Variables cap_hi cap_lo : nat.
Variable calls : list call.

Definition call_of (t : thr) : call := match t with TStart c | TWait c | TNotify c _ | TDone c _ => c end.
Definition result_of (t : thr) : option result := match t with TStart _ | TWait _ => None | TNotify _ r | TDone _ r => Some r end.
Definition fid (x : nat * call * result) : nat := fst (fst x).
Definition ev (x : nat * call * result) : call * result := (snd (fst x), snd x).

Record INV (s : buf) : Prop := {
  v_hist : history cap_hi cap_lo (map ev (b_log s)) (b_hi s) (b_lo s);
  v_len : length (b_thr s) = length calls;
  v_call : forall i t, nth_error (b_thr s) i = Some t -> nth_error calls i = Some (call_of t);
  v_res : forall i t r, nth_error (b_thr s) i = Some t -> result_of t = Some r -> In (i, call_of t, r) (b_log s);
  v_log : forall i c r, In (i, c, r) (b_log s) -> exists t, nth_error (b_thr s) i = Some t /\ call_of t = c /\ result_of t = Some r;
  v_nd : NoDup (map fid (b_log s));
  v_wait : forall i ty v, nth_error (b_thr s) i = Some (TWait (Push ty v)) -> ~ reinserted ty;
  v_cap : length (b_hi s) <= cap_hi /\ length (b_lo s) <= cap_lo }.

Lemma nodup_snoc {A} (l : list A) x : NoDup l -> ~ In x l -> NoDup (l ++ [x]).
Proof.
  intros N H. apply NoDup_rev in N. rewrite <- (rev_involutive (l ++ [x])). apply NoDup_rev. rewrite rev_app_distr. cbn. constructor; auto. rewrite <- in_rev. auto.
Qed.

(** A change of one thread that keeps its call and its result *)
Lemma INV_set s i t u : INV s -> nth_error (b_thr s) i = Some t -> call_of u = call_of t -> result_of u = result_of t -> (forall ty v, u = TWait (Push ty v) -> ~ reinserted ty) ->
  INV (mk_b (b_hi s) (b_lo s) (list_set (b_thr s) i u) (b_log s)).
Proof.
  intros J E HC HR HW. assert (LI : i < length (b_thr s)) by (apply nth_error_Some; congruence). destruct J as [A B C D F G H I]. split; cbn; auto.
  - rewrite list_set_length. auto.
  - intros k x Hx. destruct (Nat.eq_dec k i) as [->|N].
    + rewrite nth_error_list_set_eq in Hx by auto. injection Hx as <-. rewrite HC. auto.
    + rewrite nth_error_list_set_neq in Hx by auto. auto.
  - intros k x r Hx Hr. destruct (Nat.eq_dec k i) as [->|N].
    + rewrite nth_error_list_set_eq in Hx by auto. injection Hx as <-. rewrite HC. apply D; [auto|congruence].
    + rewrite nth_error_list_set_neq in Hx by auto. auto.
  - intros k c r Hk. destruct (F k c r Hk) as (x & X & Y & Z). destruct (Nat.eq_dec k i) as [->|N].
    + exists u. rewrite nth_error_list_set_eq by auto. split; auto. rewrite E in X. injection X as ->. split; congruence.
    + exists x. rewrite nth_error_list_set_neq by auto. auto.
  - intros k ty v Hk. destruct (Nat.eq_dec k i) as [->|N].
    + rewrite nth_error_list_set_eq in Hk by auto. injection Hk as ->. eapply HW; eauto.
    + rewrite nth_error_list_set_neq in Hk by auto. eauto.
Qed.
(** A call takes effect *)
Lemma INV_effect s i c u r hi lo : INV s -> nth_error (b_thr s) i = Some (TStart c) -> call_of u = c -> result_of u = Some r ->
  effect cap_hi cap_lo (b_hi s) (b_lo s) c r hi lo -> length hi <= cap_hi -> length lo <= cap_lo ->
  INV (mk_b hi lo (list_set (b_thr s) i u) (b_log s ++ [(i, c, r)])).
Proof.
  intros J E HC HR HE H1 H2. assert (LI : i < length (b_thr s)) by (apply nth_error_Some; congruence). destruct J as [A B C D F G H I].
  assert (NI : ~ In i (map fid (b_log s))).
  { intros X. apply in_map_iff in X as ([[k c'] r'] & X & Y). cbn in X. subst k. destruct (F _ _ _ Y) as (x & X1 & X2 & X3). rewrite E in X1. injection X1 as <-. discriminate X3. }
  split; cbn; auto.
  - rewrite map_app. cbn. econstructor; eauto.
  - rewrite list_set_length. auto.
  - intros k x Hx. destruct (Nat.eq_dec k i) as [->|N].
    + rewrite nth_error_list_set_eq in Hx by auto. injection Hx as <-. rewrite HC. apply (C i _ E).
    + rewrite nth_error_list_set_neq in Hx by auto. auto.
  - intros k x r' Hx Hr. apply in_or_app. destruct (Nat.eq_dec k i) as [->|N].
    + rewrite nth_error_list_set_eq in Hx by auto. injection Hx as <-. right. left. congruence.
    + rewrite nth_error_list_set_neq in Hx by auto. left. auto.
  - intros k c' r' Hk. apply in_app_or in Hk as [Hk|[Hk|[]]].
    + destruct (F k c' r' Hk) as (x & X & Y & Z). destruct (Nat.eq_dec k i) as [->|N]; [rewrite E in X; injection X as <-; discriminate Z|].
      exists x. rewrite nth_error_list_set_neq by auto. auto.
    + injection Hk as <- <- <-. exists u. rewrite nth_error_list_set_eq by auto. auto.
  - rewrite map_app. apply nodup_snoc; auto.
  - intros k ty v Hk. destruct (Nat.eq_dec k i) as [->|N].
    + rewrite nth_error_list_set_eq in Hk by auto. injection Hk as ->. discriminate HR.
    + rewrite nth_error_list_set_neq in Hk by auto. eauto.
Qed.

Lemma step_ok s a : INV s -> INV (do_act cap_hi cap_lo s a).
Proof.
  intros J. pose proof (v_cap _ J) as [KH KL]. destruct a as [i j|i]; cbn [do_act].
  - unfold step. destruct (nth_error (b_thr s) i) as [[[ty v|]|c|c r|c r]|] eqn:E; auto.
    + destruct (Nat.eqb_spec (length (if to_hi ty then b_hi s else b_lo s)) (if to_hi ty then cap_hi else cap_lo)) as [Q|Q].
      * destruct (blocking ty) eqn:EB.
        -- apply (INV_set s i _ (TWait (Push ty v)) J E); [reflexivity|reflexivity|]. intros ty' v' X. injection X as <- <-. intros [->| ->]; discriminate EB.
        -- apply INV_effect; auto. constructor; [destruct ty; try discriminate EB; [left|right]; reflexivity|]. destruct ty; try discriminate EB; exact Q.
      * destruct ty; cbn [to_hi] in *; apply INV_effect; auto; try (constructor; [discriminate|lia]); try (constructor; lia); rewrite ?app_length; cbn [length]; lia.
    + destruct (b_hi s) as [|v hi] eqn:EH; [destruct (b_lo s) as [|v lo] eqn:EL|].
      * pose proof (INV_set s i _ (TWait Pop) J E eq_refl eq_refl) as X. rewrite EH, EL in X. apply X. discriminate.
      * cbn [length] in KL. apply INV_effect; auto; try lia. rewrite EH, EL. constructor.
      * cbn [length] in KH. apply INV_effect; auto; try lia. rewrite EH. constructor.
    + pose proof (INV_set s i _ (TDone c r) J E eq_refl eq_refl) as X. assert (Y : INV (mk_b (b_hi s) (b_lo s) (list_set (b_thr s) i (TDone c r)) (b_log s))) by (apply X; discriminate). clear X.
      destruct (notify_cases (notifies r) j (list_set (b_thr s) i (TDone c r))) as [[-> _]|(k & c' & A & _ & ->)]; [exact Y|].
      apply (INV_set _ k (TWait c') (TStart c') Y A); [reflexivity|reflexivity|discriminate].
  - unfold spurious. destruct (nth_error (b_thr s) i) as [t|] eqn:E; auto. apply (INV_set s i t (wake t) J E).
    + destruct t; reflexivity.
    + destruct t; reflexivity.
    + destruct t; intros; discriminate.
Qed.
Lemma init_ok : INV (init calls).
Proof.
  split; cbn; try (intros; contradiction); try constructor; try lia.
  - apply map_length.
  - intros i t H. rewrite nth_error_map in H. destruct (nth_error calls i); [|discriminate H]. cbn in H. injection H as <-. reflexivity.
  - intros i t r H HR. rewrite nth_error_map in H. destruct (nth_error calls i); [|discriminate H]. cbn in H. injection H as <-. discriminate HR.
  - intros i ty v H. rewrite nth_error_map in H. destruct (nth_error calls i); discriminate H.
Qed.
Lemma run_ind (P : buf -> Prop) sched : P (init calls) -> (forall s a, P s -> P (do_act cap_hi cap_lo s a)) -> P (run cap_hi cap_lo calls sched).
Proof. intros I S. unfold run. generalize (init calls) I. induction sched as [|a l IH]; intros s H; cbn; auto. Qed.
Lemma reach_ok sched : INV (run cap_hi cap_lo calls sched).
Proof. apply run_ind; [apply init_ok|apply step_ok]. Qed.

(** Wake-ups *)
Definition starts (k : cv) (t : thr) : bool := match t with TStart c => cv_eqb (waits_on c) k | _ => false end.
Definition about (k : cv) (t : thr) : bool := match t with TNotify _ r => cv_eqb (notifies r) k | _ => false end.
Definition LIVE (s : buf) : Prop :=
  (0 < cnt (is_waiting CanPop) (b_thr s) -> length (b_hi s) + length (b_lo s) <= cnt (starts CanPop) (b_thr s) + cnt (about CanPop) (b_thr s)) /\
  (0 < cnt (is_waiting CanPushHi) (b_thr s) -> cap_hi <= length (b_hi s) + cnt (starts CanPushHi) (b_thr s) + cnt (about CanPushHi) (b_thr s)) /\
  (0 < cnt (is_waiting CanPushLo) (b_thr s) -> cap_lo <= length (b_lo s) + cnt (starts CanPushLo) (b_thr s) + cnt (about CanPushLo) (b_thr s)).
Ltac counts E u :=
  pose proof (cnt_set (is_waiting CanPop) _ _ _ u E); pose proof (cnt_set (is_waiting CanPushHi) _ _ _ u E); pose proof (cnt_set (is_waiting CanPushLo) _ _ _ u E);
  pose proof (cnt_set (starts CanPop) _ _ _ u E); pose proof (cnt_set (starts CanPushHi) _ _ _ u E); pose proof (cnt_set (starts CanPushLo) _ _ _ u E);
  pose proof (cnt_set (about CanPop) _ _ _ u E); pose proof (cnt_set (about CanPushHi) _ _ _ u E); pose proof (cnt_set (about CanPushLo) _ _ _ u E);
  cbn [is_waiting starts about waits_on notifies to_hi cv_eqb b2n] in *.
Lemma live_step s a : LIVE s -> LIVE (do_act cap_hi cap_lo s a).
Proof.
  intros (L1 & L2 & L3). destruct a as [i j|i]; cbn [do_act].
  - unfold step. destruct (nth_error (b_thr s) i) as [[[ty v|]|c|c r|c r]|] eqn:E; try (unfold LIVE; auto; fail).
    + destruct (Nat.eqb_spec (length (if to_hi ty then b_hi s else b_lo s)) (if to_hi ty then cap_hi else cap_lo)) as [Q|Q].
      * destruct (blocking ty) eqn:EB.
        -- counts E (TWait (Push ty v)). unfold LIVE. cbn [b_hi b_lo b_thr]. destruct ty; try discriminate EB; cbn [to_hi cv_eqb b2n] in *; repeat split; intros; lia.
        -- counts E (TDone (Push ty v) Refused). unfold LIVE. cbn [b_hi b_lo b_thr]. destruct ty; try discriminate EB; cbn [to_hi cv_eqb b2n] in *; repeat split; intros; lia.
      * counts E (TNotify (Push ty v) Accepted). unfold LIVE. cbn [b_hi b_lo b_thr].
        destruct ty; cbn [to_hi cv_eqb b2n] in *; rewrite ?app_length; cbn [length]; repeat split; intros; lia.
    + destruct (b_hi s) as [|v hi] eqn:EH; [destruct (b_lo s) as [|v lo] eqn:EL|].
      * counts E (TWait Pop). unfold LIVE. cbn [b_hi b_lo b_thr length] in *. repeat split; intros; lia.
      * counts E (TNotify Pop (Got false v)). unfold LIVE. cbn [b_hi b_lo b_thr length] in *. repeat split; intros; lia.
      * counts E (TNotify Pop (Got true v)). unfold LIVE. cbn [b_hi b_lo b_thr length] in *. repeat split; intros; lia.
    + counts E (TDone c r). set (th := list_set (b_thr s) i (TDone c r)) in *. unfold LIVE. cbn [b_hi b_lo b_thr].
      destruct (notify_cases (notifies r) j th) as [[-> Z]|(k & c' & A & B & ->)].
      * pose proof (cnt_zero _ _ Z). destruct r as [| |[|] v]; cbn [notifies cv_eqb b2n] in *; repeat split; intros; lia.
      * counts A (TStart c'). rewrite B in *. destruct r as [| |[|] v]; cbn [notifies cv_eqb b2n] in *; repeat split; intros; lia.
  - unfold spurious. destruct (nth_error (b_thr s) i) as [t|] eqn:E; [|unfold LIVE; auto]. unfold LIVE. cbn [b_hi b_lo b_thr].
    destruct t as [c|c|c r|c r]; cbn [wake].
    + counts E (TStart c). repeat split; intros; lia.
    + counts E (TStart c). destruct (waits_on c); cbn [cv_eqb b2n] in *; repeat split; intros; lia.
    + counts E (TNotify c r). repeat split; intros; lia.
    + counts E (TDone c r). repeat split; intros; lia.
Qed.
Lemma live_init : LIVE (init calls).
Proof.
  unfold LIVE. cbn [b_hi b_lo b_thr init].
  assert (Z : forall k, cnt (is_waiting k) (map TStart calls) = 0).
  { intros k. apply cnt_zero. intros t H. apply in_map_iff in H as (c & <- & _). reflexivity. }
  rewrite !Z. repeat split; intros; lia.
Qed.
End B.

(** The calls take effect one at a time, as on two first-in first-out lists of which the high priority one is served first: for every interleaving
    there is one order of the calls, containing each call at most once and exactly the results returned. *)
Theorem C44_linearizable : forall cap_hi cap_lo calls sched, let s := run cap_hi cap_lo calls sched in
  exists order : list nat,
    NoDup order /\
    (forall i, In i order <-> exists c r, nth_error (b_thr s) i = Some (TNotify c r) \/ nth_error (b_thr s) i = Some (TDone c r)) /\
    exists l, history cap_hi cap_lo l (b_hi s) (b_lo s) /\
      Forall2 (fun i x => nth_error calls i = Some (fst x) /\ (nth_error (b_thr s) i = Some (TNotify (fst x) (snd x)) \/ nth_error (b_thr s) i = Some (TDone (fst x) (snd x)))) order l.
Proof.
  intros cap_hi cap_lo calls sched s. pose proof (reach_ok cap_hi cap_lo calls sched) as J. fold s in J. exists (map fid (b_log s)). split; [apply (v_nd _ _ _ _ J)|]. split.
  - intros i. split.
    + intros H. apply in_map_iff in H as ([[k c] r] & X & Y). cbn in X. subst k. destruct (v_log _ _ _ _ J _ _ _ Y) as (t & T1 & T2 & T3). exists c, r. destruct t as [c'|c'|c' r'|c' r']; try discriminate T3; cbn in T2, T3; injection T3 as ->; subst; auto.
    + intros (c & r & [H|H]); pose proof (v_res _ _ _ _ J _ _ r H eq_refl) as X; apply in_map_iff; eexists; (split; [|exact X]); reflexivity.
  - exists (map ev (b_log s)). split; [apply (v_hist _ _ _ _ J)|].
    assert (A : forall x, In x (b_log s) -> nth_error calls (fid x) = Some (fst (ev x)) /\ (nth_error (b_thr s) (fid x) = Some (TNotify (fst (ev x)) (snd (ev x))) \/ nth_error (b_thr s) (fid x) = Some (TDone (fst (ev x)) (snd (ev x))))).
    { intros [[k c] r] Hx. cbn. destruct (v_log _ _ _ _ J _ _ _ Hx) as (t & T1 & T2 & T3). split; [rewrite (v_call _ _ _ _ J _ _ T1); congruence|].
      destruct t as [c'|c'|c' r'|c' r']; try discriminate T3; cbn in T2, T3; injection T3 as ->; subst; auto. }
    induction (b_log s) as [|x l IH]; cbn [map]; constructor; [apply A; left; reflexivity|apply IH; intros y Hy; apply A; right; exact Hy].
Qed.
(** First in, first out within each class, nothing lost, nothing invented; each class is bounded. *)
Theorem C44_fifo : forall cap_hi cap_lo l hi lo, history cap_hi cap_lo l hi lo -> ins true l = outs true l ++ hi /\ ins false l = outs false l ++ lo /\ length hi <= cap_hi /\ length lo <= cap_lo.
Proof.
  intros cap_hi cap_lo l hi lo H. induction H as [|l hi lo c r hi' lo' H IH E]; [repeat split; cbn; lia|]. destruct IH as (A & B & C & D).
  unfold ins, outs in *. rewrite !flat_map_app. cbn [flat_map]. rewrite !app_nil_r, A, B.
  inversion E; subst; cbn [snd Bool.eqb].
  - rewrite app_nil_r, !app_nil_r, <- !app_assoc, !app_length. cbn. repeat split; lia.
  - destruct ty; try contradiction; cbn; rewrite ?app_nil_r, <- ?app_assoc, ?app_length; cbn; repeat split; lia.
  - destruct H0 as [->| ->]; cbn; rewrite ?app_nil_r; repeat split; lia.
  - cbn [length] in C. cbn. rewrite ?app_nil_r, <- ?app_assoc. repeat split; lia.
  - cbn [length] in D. cbn. rewrite ?app_nil_r, <- ?app_assoc. repeat split; lia.
Qed.
(** The switch's own threads never wait when they re-insert a packet: in every reachable state two steps of the thread end the call. *)
Theorem C44_reinsertion_never_blocks : forall cap_hi cap_lo calls sched i ty v, nth_error calls i = Some (Push ty v) -> reinserted ty ->
  (forall c, nth_error (b_thr (run cap_hi cap_lo calls sched)) i <> Some (TWait c)) /\
  forall j1 j2, exists r, nth_error (b_thr (run cap_hi cap_lo calls (sched ++ [Run i j1; Run i j2]))) i = Some (TDone (Push ty v) r).
Proof.
  intros cap_hi cap_lo calls sched i ty v HC HT. pose proof (reach_ok cap_hi cap_lo calls sched) as J.
  assert (HL : i < length (b_thr (run cap_hi cap_lo calls sched))) by (rewrite (v_len _ _ _ _ J); apply nth_error_Some; congruence).
  destruct (nth_error (b_thr (run cap_hi cap_lo calls sched)) i) as [t|] eqn:ET; [|apply nth_error_None in ET; lia].
  pose proof (v_call _ _ _ _ J _ _ ET) as HT2. rewrite HC in HT2. injection HT2 as HT2.
  assert (HW : forall c, t <> TWait c). { intros c ->. cbn in HT2. subst c. exact (v_wait _ _ _ _ J _ _ _ ET HT). }
  split; [intros c Q; injection Q as Q; exact (HW c Q)|]. intros j1 j2. unfold run. rewrite fold_left_app. cbn [fold_left do_act]. fold (run cap_hi cap_lo calls sched).
  set (s := run cap_hi cap_lo calls sched) in *. clearbody s.
  assert (ND : forall s' k j c r, nth_error (b_thr s') i = Some (TNotify c r) -> nth_error (notify_one k j (list_set (b_thr s') i (TDone c r))) i = Some (TDone c r)).
  { intros s' k j c r H. assert (i < length (b_thr s')) by (apply nth_error_Some; congruence). assert (X : nth_error (list_set (b_thr s') i (TDone c r)) i = Some (TDone c r)) by (apply nth_error_list_set_eq; auto).
    destruct (notify_cases k j (list_set (b_thr s') i (TDone c r))) as [[-> _]|(i' & c' & A & _ & ->)]; [exact X|]. rewrite nth_error_list_set_neq; [exact X|]. intros ->. rewrite X in A. discriminate A. }
  destruct t as [c|c|c r|c r]; cbn in HT2; subst c.
  - unfold step at 2. rewrite ET. destruct (_ =? _).
    + assert (EB : blocking ty = false) by (destruct HT as [->| ->]; reflexivity). rewrite EB. unfold step. cbn [b_thr]. rewrite nth_error_list_set_eq by exact HL. cbn [b_thr]. rewrite nth_error_list_set_eq by exact HL. exists Refused. reflexivity.
    + unfold step. cbn [b_thr]. rewrite nth_error_list_set_eq by exact HL. exists Accepted. cbn [b_thr].
      match goal with |- nth_error (notify_one _ _ (list_set ?th _ _)) _ = _ => apply (ND (mk_b [] [] th [])) end. cbn [b_thr]. apply nth_error_list_set_eq. exact HL.
  - exfalso. exact (HW _ eq_refl).
  - exists r. assert (X : nth_error (b_thr (step cap_hi cap_lo s i j1)) i = Some (TDone (Push ty v) r)).
    { unfold step. rewrite ET. cbn [b_thr]. apply (ND s). exact ET. }
    unfold step at 1. rewrite X. exact X.
  - exists r. unfold step at 2. rewrite ET. unfold step. rewrite ET. exact ET.
Qed.
(** A received packet is never refused. *)
Theorem C44_received_never_dropped : forall cap_hi cap_lo calls sched i v r, nth_error calls i = Some (Push NORMAL v) ->
  nth_error (b_thr (run cap_hi cap_lo calls sched)) i = Some (TDone (Push NORMAL v) r) -> r = Accepted.
Proof.
  intros cap_hi cap_lo calls sched i v r HC HD. pose proof (reach_ok cap_hi cap_lo calls sched) as J. pose proof (v_res _ _ _ _ J _ _ r HD eq_refl) as X. cbn in X.
  pose proof (v_hist _ _ _ _ J) as H. apply (in_map ev) in X. cbn in X. revert X H. generalize (map ev (b_log (run cap_hi cap_lo calls sched))). intros l X H.
  induction H as [|l hi lo c r' hi' lo' H IH E]; [destruct X|]. apply in_app_or in X as [X|[X|[]]]; [auto|]. injection X as -> ->. inversion E; subst; try reflexivity. match goal with R : reinserted NORMAL |- _ => destruct R as [Q|Q]; discriminate Q end.
Qed.
(** When no thread can go on by itself, a thread waits only if it has to: no wake-up is lost. *)
Definition stuck (t : thr) : bool := match t with TWait _ | TDone _ _ => true | _ => false end.
Theorem C44_waits_only_if_needed : forall cap_hi cap_lo calls sched, let s := run cap_hi cap_lo calls sched in (forall t, In t (b_thr s) -> stuck t = true) ->
  (In (TWait Pop) (b_thr s) -> b_hi s = [] /\ b_lo s = []) /\
  (forall v, In (TWait (Push NORMAL v)) (b_thr s) -> length (b_lo s) = cap_lo) /\
  (forall v, In (TWait (Push SENTINEL v)) (b_thr s) -> length (b_hi s) = cap_hi).
Proof.
  intros cap_hi cap_lo calls sched s ST. pose proof (reach_ok cap_hi cap_lo calls sched) as J. fold s in J. pose proof (v_cap _ _ _ _ J) as [KH KL].
  assert (L : LIVE cap_hi cap_lo s) by (apply run_ind; [apply live_init|intros; apply live_step; auto]). destruct L as (L1 & L2 & L3).
  assert (Z : forall f, (forall t, stuck t = true -> f t = false) -> cnt f (b_thr s) = 0) by (intros f H; apply cnt_zero; intros t I; auto).
  assert (Z1 : forall k, cnt (starts k) (b_thr s) = 0) by (intros k; apply Z; intros []; cbn; congruence).
  assert (Z2 : forall k, cnt (about k) (b_thr s) = 0) by (intros k; apply Z; intros []; cbn; congruence).
  rewrite !Z1, !Z2 in *. split; [|split].
  - intros I. specialize (L1 (cnt_pos _ _ _ I eq_refl)). destruct (b_hi s), (b_lo s); cbn in L1; try lia. auto.
  - intros v I. specialize (L3 (cnt_pos _ _ _ I eq_refl)). lia.
  - intros v I. specialize (L2 (cnt_pos _ _ _ I eq_refl)). lia.
Qed.

(** Finding: received packets starve.  However many packets are taken out, an accepted received packet may still be waiting. *)
Fixpoint feed (n : nat) : list call := match n with 0 => [] | S k => Push RECIRCULATE n :: Pop :: feed k end.
Fixpoint feed_sched (n i : nat) : list act := match n with 0 => [] | S k => Run i 0 :: Run i 0 :: Run (S i) 0 :: Run (S i) 0 :: feed_sched k (S (S i)) end.
Lemma set_mid {A} (pre : list A) x y post : list_set (pre ++ x :: post) (length pre) y = pre ++ y :: post.
Proof. induction pre as [|a pre IH]; cbn; [reflexivity|]. rewrite IH. reflexivity. Qed.
Lemma nth_mid {A} (pre : list A) x post : nth_error (pre ++ x :: post) (length pre) = Some x.
Proof. induction pre; auto. Qed.
Lemma no_waiters k j l : (forall t, In t l -> is_waiting k t = false) -> notify_one k j l = l.
Proof.
  intros H. destruct (notify_cases k j l) as [[E _]|(i & c & A & B & _)]; [exact E|]. specialize (H _ (nth_error_In _ _ A)). cbn in H. rewrite B in H. destruct k; discriminate H.
Qed.
Lemma feed_run cap_hi cap_lo v : 0 < cap_hi -> forall n pre log, (forall k t, In t pre -> is_waiting k t = false) ->
  exists log' post, fold_left (do_act cap_hi cap_lo) (feed_sched n (length pre)) (mk_b [] [v] (pre ++ map TStart (feed n)) log) = mk_b [] [v] (pre ++ post) (log ++ log') /\
    length (filter (fun x => match x with (_, Pop, _) => true | _ => false end) log') = n.
Proof.
  intros HC n. induction n as [|n IH]; intros pre log HW.
  - exists [], []. cbn. rewrite !app_nil_r. auto.
  - cbn [feed map feed_sched fold_left do_act].
    assert (S1 : step cap_hi cap_lo (mk_b [] [v] (pre ++ TStart (Push RECIRCULATE (S n)) :: TStart Pop :: map TStart (feed n)) log) (length pre) 0 =
      mk_b [S n] [v] (pre ++ TNotify (Push RECIRCULATE (S n)) Accepted :: TStart Pop :: map TStart (feed n)) (log ++ [(length pre, Push RECIRCULATE (S n), Accepted)])).
    { unfold step. cbn [b_thr]. rewrite nth_mid. cbn [to_hi b_hi b_lo b_log length]. replace (0 =? cap_hi) with false by (symmetry; apply Nat.eqb_neq; lia). rewrite set_mid. reflexivity. }
    rewrite S1. clear S1.
    assert (HF : forall k m t, In t (map TStart (feed m)) -> is_waiting k t = false) by (intros k m t H; apply in_map_iff in H as (c & <- & _); reflexivity).
    assert (S2 : forall lg, step cap_hi cap_lo (mk_b [S n] [v] (pre ++ TNotify (Push RECIRCULATE (S n)) Accepted :: TStart Pop :: map TStart (feed n)) lg) (length pre) 0 =
      mk_b [S n] [v] ((pre ++ [TDone (Push RECIRCULATE (S n)) Accepted]) ++ TStart Pop :: map TStart (feed n)) lg).
    { intros lg. unfold step. cbn [b_thr]. rewrite nth_mid. cbn [b_hi b_lo b_log]. rewrite set_mid, <- app_assoc. cbn [app]. rewrite no_waiters; [reflexivity|].
      intros t H. apply in_app_or in H as [H|[<-|[<-|H]]]; [eapply HW; eauto|reflexivity|reflexivity|eapply HF; eauto]. }
    rewrite S2. clear S2. set (pre1 := pre ++ [TDone (Push RECIRCULATE (S n)) Accepted]). replace (S (length pre)) with (length pre1) by (unfold pre1; rewrite app_length; cbn; lia).
    assert (HW1 : forall k t, In t pre1 -> is_waiting k t = false) by (intros k t H; apply in_app_or in H as [H|[<-|[]]]; [eapply HW; eauto|reflexivity]).
    assert (S3 : forall lg, step cap_hi cap_lo (mk_b [S n] [v] (pre1 ++ TStart Pop :: map TStart (feed n)) lg) (length pre1) 0 =
      mk_b [] [v] (pre1 ++ TNotify Pop (Got true (S n)) :: map TStart (feed n)) (lg ++ [(length pre1, Pop, Got true (S n))])).
    { intros lg. unfold step. cbn [b_thr]. rewrite nth_mid. cbn [b_hi b_lo b_log]. rewrite set_mid. reflexivity. }
    rewrite S3. clear S3.
    assert (S4 : forall lg, step cap_hi cap_lo (mk_b [] [v] (pre1 ++ TNotify Pop (Got true (S n)) :: map TStart (feed n)) lg) (length pre1) 0 =
      mk_b [] [v] ((pre1 ++ [TDone Pop (Got true (S n))]) ++ map TStart (feed n)) lg).
    { intros lg. unfold step. cbn [b_thr]. rewrite nth_mid. cbn [b_hi b_lo b_log]. rewrite set_mid, <- app_assoc. cbn [app]. rewrite no_waiters; [reflexivity|].
      intros t H. apply in_app_or in H as [H|[<-|H]]; [eapply HW1; eauto|reflexivity|eapply HF; eauto]. }
    rewrite S4. clear S4. set (pre2 := pre1 ++ [TDone Pop (Got true (S n))]). replace (S (length pre1)) with (length pre2) by (unfold pre2; rewrite app_length; cbn; lia).
    edestruct (IH pre2) as (log' & post & R & C).
    { intros k t H. apply in_app_or in H as [H|[<-|[]]]; [eapply HW1; eauto|reflexivity]. }
    rewrite R. exists ([(length pre, Push RECIRCULATE (S n), Accepted)] ++ [(length pre1, Pop, Got true (S n))] ++ log'). exists (TDone (Push RECIRCULATE (S n)) Accepted :: TDone Pop (Got true (S n)) :: post).
    unfold pre2, pre1. rewrite <- !app_assoc. split; [reflexivity|]. cbn. rewrite C. reflexivity.
Qed.
Theorem C44_received_packets_are_served_refuted : ~ (exists bound, forall cap_hi cap_lo calls sched, 0 < cap_hi -> let s := run cap_hi cap_lo calls sched in
  bound < length (filter (fun x => match x with (_, Pop, _) => true | _ => false end) (b_log s)) -> forall v, nth_error calls 0 = Some (Push NORMAL v) -> nth_error (b_thr s) 0 = Some (TDone (Push NORMAL v) Accepted) -> ~ In v (b_lo s)).
Proof.
  intros [bound H]. destruct (feed_run 1 1 7 ltac:(lia) (S bound) [TDone (Push NORMAL 7) Accepted] [(0, Push NORMAL 7, Accepted)]) as (log' & post & R & C).
  { intros k t [<-|[]]. reflexivity. }
  specialize (H 1 1 (Push NORMAL 7 :: feed (S bound)) (Run 0 0 :: Run 0 0 :: feed_sched (S bound) 1) ltac:(lia)). cbv zeta in H.
  assert (Q : run 1 1 (Push NORMAL 7 :: feed (S bound)) (Run 0 0 :: Run 0 0 :: feed_sched (S bound) 1) = mk_b [] [7] ([TDone (Push NORMAL 7) Accepted] ++ post) ([(0, Push NORMAL 7, Accepted)] ++ log')).
  { rewrite <- R. unfold run. cbn [fold_left do_act]. f_equal. unfold step at 2. unfold init. cbn [map nth_error b_thr to_hi b_hi b_lo b_log length Nat.eqb list_set app].
    unfold step. cbn [b_thr nth_error b_hi b_lo b_log list_set]. rewrite no_waiters; [reflexivity|]. intros t [<-|I]; [reflexivity|]. apply in_map_iff in I as (c & <- & _). reflexivity. }
  rewrite Q in H. cbn [b_log b_thr b_lo app nth_error] in H. refine (H _ 7 eq_refl eq_refl (or_introl eq_refl)). cbn [filter]. rewrite C. lia.
Qed.

(** Non-vacuity: capacities 1 and 1; two received packets and two resubmitted ones: the second received packet waits, the second resubmitted one is refused,
    the first resubmitted one overtakes the received ones. *)
Example C44_nonvacuous : let s := run 1 1 [Push NORMAL 1; Push NORMAL 2; Push RESUBMIT 3; Push RESUBMIT 4; Pop; Pop; Pop]
  [Run 0 0; Run 0 0; Run 1 0; Run 2 0; Run 2 0; Run 3 0; Run 4 0; Run 4 0; Run 5 0; Run 5 0; Run 1 0; Run 1 0; Run 6 0; Run 6 0] in
  b_thr s = [TDone (Push NORMAL 1) Accepted; TDone (Push NORMAL 2) Accepted; TDone (Push RESUBMIT 3) Accepted; TDone (Push RESUBMIT 4) Refused; TDone Pop (Got true 3); TDone Pop (Got false 1); TDone Pop (Got false 2)].
Proof. reflexivity. Qed.
Example C44_waiting_nonvacuous : let s := run 1 1 [Push NORMAL 1; Push NORMAL 2; Push SENTINEL 3; Push SENTINEL 4] [Run 0 0; Run 0 0; Run 1 0; Run 2 0; Run 2 0; Run 3 0] in
  (forall t, In t (b_thr s) -> stuck t = true) /\ In (TWait (Push NORMAL 2)) (b_thr s) /\ In (TWait (Push SENTINEL 4)) (b_thr s).
Proof. cbn. split; [intros t H; repeat (destruct H as [<-|H]; [reflexivity|]); destruct H|]. auto 10. Qed.

Print Assumptions C44_linearizable.
Print Assumptions C44_fifo.
Print Assumptions C44_reinsertion_never_blocks.
Print Assumptions C44_received_never_dropped.
Print Assumptions C44_waits_only_if_needed.
Print Assumptions C44_received_packets_are_served_refuted.
