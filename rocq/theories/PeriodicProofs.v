(** Proofs about periodic tasks. *)
From Coq Require Import List Arith NArith Bool Lia.
From Verif Require Import PeriodicModel PeriodicSpec.
Import ListNotations.
Local Open Scope N_scope.

Lemma in_q_del j k q : in_q j (del k q) = in_q j q && negb (Nat.eqb j k).
Proof.
  unfold in_q, del. induction q as [|x q IH]; cbn [filter existsb]; auto. destruct (Nat.eqb_spec x k) as [->|N]; cbn [negb existsb]; rewrite ?IH.
  - destruct (Nat.eqb_spec j k); cbn; auto. rewrite andb_false_r. auto.
  - destruct (Nat.eqb_spec j x) as [->|]; cbn; auto. destruct (Nat.eqb_spec x k); auto. contradiction.
Qed.
Lemma in_q_cons j k q : in_q j (k :: q) = Nat.eqb j k || in_q j q.
Proof. reflexivity. Qed.
Lemma in_q_In j q : in_q j q = true <-> In j q.
Proof. unfold in_q. rewrite existsb_exists. split; [intros (x & I & E); apply Nat.eqb_eq in E; subst; auto|intros I; exists j; split; auto; apply Nat.eqb_refl]. Qed.
Lemma top_spec nxt q i k : top nxt q i = Some k -> in_q k q = true /\ forall j, in_q j q = true -> nxt k <= nxt j.
Proof.
  unfold top. destruct (nth_error q i) as [x|] eqn:E; [|discriminate]. destruct (forallb _ q) eqn:F; [|discriminate]. intros H; inversion H; subst.
  split; [apply in_q_In; apply nth_error_In with i; auto|]. intros j I. apply in_q_In in I. rewrite forallb_forall in F. apply N.leb_le. apply F. auto.
Qed.
Lemma top_exists nxt q : q <> [] -> exists i k, top nxt q i = Some k.
Proof.
  intros H. assert (M : exists k, In k q /\ forall j, In j q -> nxt k <= nxt j).
  { induction q as [|x q IH]; [contradiction|]. destruct q as [|y q].
    - exists x. split; [left; auto|]. intros j [->|[]]. lia.
    - destruct IH as (k & I & L); [discriminate|]. destruct (N.le_gt_cases (nxt x) (nxt k)) as [C|C].
      + exists x. split; [left; auto|]. intros j [->|J]; [lia|]. specialize (L j J). lia.
      + exists k. split; [right; auto|]. intros j [->|J]; [lia|]. auto. }
  destruct M as (k & I & L). destruct (In_nth_error _ _ I) as (i & E). exists i, k. unfold top. rewrite E.
  replace (forallb _ q) with true; auto. symmetry. apply forallb_forall. intros j J. apply N.leb_le. auto.
Qed.

Section Proofs.
Variable iv : nat -> N.
Definition ok_at (e : event) (pre : list event) : Prop :=
  match e with
  | Reg k ok => ok = negb (registered pre k)
  | Unreg k ok => ok = registered pre k
  | Begins k t => registered pre k = true /\ exists w mid pre', pre = mid ++ Waits w :: pre' /\ Forall plain mid /\ (undisturbed w mid -> exists d, due iv pre k = Some d /\ d <= t)
  | _ => True
  end.
Definition good (log : list event) : Prop := forall post e pre, log = post ++ e :: pre -> ok_at e pre.
Lemma good_cons e log : good log -> ok_at e log -> good (e :: log).
Proof. intros G K [|x post] e' pre E; cbn in E; inversion E; subst; auto. eapply G; eauto. Qed.

Definition exec (k : nat) (l : loop) : bool := match l with Exec j => Nat.eqb k j | _ => false end.
Definition waiting (s : st) : Prop :=
  match s_loop s with
  | WaitFor w t =>
      (exists mid pre, s_log s = mid ++ Waits w :: pre /\ Forall plain mid /\ (undisturbed w mid -> in_q w (s_q s) = true /\ s_next s w = t)) /\
      (s_told s = false -> in_q w (s_q s) = true /\ forall j, in_q j (s_q s) = true -> t <= s_next s j)
  | WaitAny => s_told s = false -> s_q s = []
  | _ => True
  end.
Record live (s : st) : Prop := {
  l_reg : forall k, registered (s_log s) k = in_q k (s_q s) || exec k (s_loop s);
  l_alive : forall k, in_q k (s_q s) || exec k (s_loop s) = true -> s_alive s k = true;
  l_due : forall k, s_alive s k = true -> due iv (s_log s) k = Some (s_next s k);
  l_wait : waiting s }.
Definition INV (s : st) : Prop := good (s_log s) /\ (s_loop s = Stuck \/ live s).

Lemma step_INV s a s' : INV s -> step iv s a = Some s' -> INV s'.
Proof.
  intros [G L] S. destruct s as [now alive nxt q running lp told log]. destruct a as [d|k|k|k|k| | |i| |i| |]; cbn [step] in S.
  - inversion S; subst; clear S. split; [exact G|]. destruct L as [L|[A B C D]]; [left; exact L|right]. constructor; auto.
  - destruct (alive k) eqn:AK; [discriminate|]. inversion S; subst; clear S. split; [apply good_cons; cbn; auto|]. destruct L as [L|[A B C D]]; [left; exact L|right].
    cbn [s_log s_q s_loop s_alive s_next] in *. assert (NK : in_q k q || exec k lp = false) by (destruct (in_q k q || exec k lp) eqn:X; auto; rewrite B in AK by auto; discriminate).
    apply orb_false_iff in NK. destruct NK as [NQ NE]. constructor; cbn [s_log s_q s_loop s_alive s_next].
    + intros j. cbn [registered]. apply A.
    + intros j H. unfold set1. destruct (Nat.eqb_spec j k); auto.
    + intros j H. cbn [due]. rewrite (Nat.eqb_sym k j). unfold set1 in *. destruct (Nat.eqb j k) eqn:JK; [apply Nat.eqb_eq in JK; rewrite JK; reflexivity|auto].
    + unfold waiting in *. cbn [s_log s_q s_loop s_alive s_next s_told] in *. destruct lp; auto. destruct D as [D1 D2]. split.
      * destruct D1 as (mid & pre & E & F & U). exists (Made k now :: mid), pre. rewrite E. split; auto. split; [constructor; cbn; auto|]. intros X. inversion X; subst. destruct (U H2) as [U1 U2]. split; auto. unfold set1. destruct (Nat.eqb_spec k0 k); [subst; congruence|auto].
      * intros T. destruct (D2 T) as [E1 E2]. split; auto. intros j J. unfold set1. destruct (Nat.eqb_spec j k); [subst; congruence|auto].
  - destruct (alive k) eqn:AK; cbn [negb andb] in S; [|discriminate]. destruct (free_mutex lp) eqn:FM; cbn [negb] in S; [|discriminate].
    destruct L as [L|[A B C D]]; [cbn in L; subst lp; discriminate FM|]. cbn [s_log s_q s_loop s_alive s_next] in *. assert (NE : forall j, exec j lp = false) by (intros j; destruct lp; auto; discriminate).
    destruct (in_q k q) eqn:IQ; inversion S; subst; clear S.
    + split; [apply good_cons; auto; cbn; rewrite A, IQ; reflexivity|right]. constructor; cbn [s_log s_q s_loop s_alive s_next]; auto.
      unfold waiting in *. cbn [s_log s_q s_loop s_alive s_next s_told] in *. destruct lp; auto. destruct D as [D1 D2]. split; auto.
      destruct D1 as (mid & pre & E & F & U). exists (Reg k false :: mid), pre. rewrite E. split; auto. split; [constructor; cbn; auto|]. intros X. inversion X; subst. auto.
    + split; [apply good_cons; auto; cbn; rewrite A, IQ, NE; reflexivity|right]. constructor; cbn [s_log s_q s_loop s_alive s_next].
      * intros j. cbn [registered]. rewrite in_q_cons, (Nat.eqb_sym j k). destruct (Nat.eqb k j); cbn [orb]; [reflexivity|apply A].
      * intros j. rewrite in_q_cons. destruct (Nat.eqb_spec j k) as [->|N]; auto.
      * auto.
      * unfold waiting in *. cbn [s_log s_q s_loop s_alive s_next s_told] in *. destruct lp; auto; [intros; discriminate|]. destruct D as [D1 D2]. split; [|intros; discriminate].
        destruct D1 as (mid & pre & E & F & U). exists (Reg k true :: mid), pre. rewrite E. split; auto. split; [constructor; cbn; auto|]. intros X. inversion X; subst. destruct (U H2). split; auto. rewrite in_q_cons. apply orb_true_iff. auto.
  - destruct (alive k) eqn:AK; cbn [negb andb] in S; [|discriminate]. destruct (free_mutex lp) eqn:FM; cbn [negb] in S; [|discriminate].
    destruct L as [L|[A B C D]]; [cbn in L; subst lp; discriminate FM|]. cbn [s_log s_q s_loop s_alive s_next] in *. assert (NE : forall j, exec j lp = false) by (intros j; destruct lp; auto; discriminate).
    inversion S; subst; clear S. split; [apply good_cons; auto; cbn; rewrite A, NE, orb_false_r; reflexivity|right]. constructor; cbn [s_log s_q s_loop s_alive s_next].
    + intros j. cbn [registered]. rewrite in_q_del, NE, (Nat.eqb_sym j k). destruct (Nat.eqb k j); cbn [negb]; [rewrite andb_false_r; auto|]. rewrite A, NE, andb_true_r. auto.
    + intros j. rewrite in_q_del. intros H. apply B. rewrite NE, orb_false_r in *. apply andb_true_iff in H. apply H.
    + auto.
    + unfold waiting in *. cbn [s_log s_q s_loop s_alive s_next s_told] in *. destruct lp; auto; [intros; discriminate|]. destruct D as [D1 D2]. split; [|intros; discriminate].
      destruct D1 as (mid & pre & E & F & U). exists (Unreg k (in_q k q) :: mid), pre. rewrite E. split; auto. split; [constructor; cbn; auto|]. intros X. inversion X; subst. destruct (U H2). split; auto. rewrite in_q_del. destruct (Nat.eqb_spec k0 k); [congruence|]. rewrite andb_true_r. auto.
  - destruct (alive k) eqn:AK; cbn [negb andb] in S; [|discriminate]. destruct (free_mutex lp) eqn:FM; cbn [negb] in S; [|discriminate].
    destruct L as [L|[A B C D]]; [cbn in L; subst lp; discriminate FM|]. cbn [s_log s_q s_loop s_alive s_next] in *. assert (NE : forall j, exec j lp = false) by (intros j; destruct lp; auto; discriminate).
    inversion S; subst; clear S. split; [apply good_cons; cbn; auto|right]. constructor; cbn [s_log s_q s_loop s_alive s_next].
    + intros j. cbn [registered]. rewrite in_q_del, NE, (Nat.eqb_sym j k). destruct (Nat.eqb k j); cbn [negb]; [rewrite andb_false_r; auto|]. rewrite A, NE, andb_true_r. auto.
    + intros j. rewrite in_q_del. intros H. rewrite NE, orb_false_r in *. apply andb_true_iff in H. destruct H as [H1 H2]. unfold set1. destruct (Nat.eqb_spec j k); [discriminate|]. apply B. rewrite H1. auto.
    + intros j. unfold set1. destruct (Nat.eqb_spec j k); [discriminate|]. cbn [due]. auto.
    + unfold waiting in *. cbn [s_log s_q s_loop s_alive s_next s_told] in *. destruct lp; auto; [intros; discriminate|]. destruct D as [D1 D2]. split; [|intros; discriminate].
      destruct D1 as (mid & pre & E & F & U). exists (Freed k :: mid), pre. rewrite E. split; auto. split; [constructor; cbn; auto|]. intros X. inversion X; subst. destruct (U H2). split; auto. rewrite in_q_del. destruct (Nat.eqb_spec k0 k); [congruence|]. rewrite andb_true_r. auto.
  - destruct (free_mutex lp) eqn:FM; cbn [negb] in S; [|discriminate]. destruct running; [inversion S; subst; split; auto|].
    destruct L as [L|[A B C D]]; [cbn in L; subst lp; discriminate FM|]. cbn [s_log s_q s_loop s_alive s_next] in *.
    destruct lp; inversion S; subst; clear S; try (split; [apply good_cons; cbn; auto|left; reflexivity]). split; [exact G|right]. constructor; cbn [s_log s_q s_loop s_alive s_next]; auto.
  - destruct (free_mutex lp) eqn:FM; cbn [negb] in S; [|discriminate]. destruct running; inversion S; subst; clear S; [|split; auto].
    destruct L as [L|[A B C D]]; [cbn in L; subst lp; discriminate FM|]. cbn [s_log s_q s_loop s_alive s_next] in *. split; [exact G|right]. constructor; cbn [s_log s_q s_loop s_alive s_next]; auto.
    unfold waiting in *. cbn [s_log s_q s_loop s_alive s_next s_told] in *. destruct lp; auto; [intros; discriminate|]. destruct D as [D1 D2]. split; auto. intros; discriminate.
  - destruct lp; try discriminate. destruct L as [L|[A B C D]]; [discriminate L|]. cbn [s_log s_q s_loop s_alive s_next] in *.
    destruct running; cbn [negb] in S; [|inversion S; subst; clear S; split; [exact G|right]; constructor; cbn [s_log s_q s_loop s_alive s_next]; auto; exact I].
    destruct q as [|x q0] eqn:EQ; [inversion S; subst; clear S; split; [exact G|right]; constructor; cbn [s_log s_q s_loop s_alive s_next]; auto; intros _; reflexivity|]. rewrite <- EQ in *.
    destruct (top nxt q i) as [k|] eqn:T; [|discriminate]. inversion S; subst s'; clear S. destruct (top_spec _ _ _ _ T) as [T1 T2]. split; [apply good_cons; cbn; auto|right].
    constructor; cbn [s_log s_q s_loop s_alive s_next]; auto. unfold waiting. cbn [s_log s_q s_loop s_alive s_next s_told]. split; [|auto]. exists [], log. split; auto.
  - destruct lp; try discriminate; inversion S; subst; clear S; (destruct L as [L|[A B C D]]; [discriminate L|]); (split; [exact G|right]); constructor; auto; exact I.
  - destruct lp as [| | |w t|k'|]; try discriminate. destruct L as [L|[A B C D]]; [discriminate L|]. cbn [s_log s_q s_loop s_alive s_next] in *. destruct (N.ltb_spec now t); [discriminate|].
    destruct q as [|x q0] eqn:EQ; [inversion S; subst; clear S; split; [exact G|right]; constructor; cbn [s_log s_q s_loop s_alive s_next]; auto; exact I|]. rewrite <- EQ in *.
    destruct (top nxt q i) as [k|] eqn:T; [|discriminate]. inversion S; subst s'; clear S. destruct (top_spec _ _ _ _ T) as [T1 T2].
    assert (AK : alive k = true) by (apply B; rewrite T1; auto).
    split.
    + apply good_cons; auto. cbn [ok_at s_log]. split; [rewrite A, T1; auto|]. unfold waiting in D. cbn [s_log s_q s_loop s_alive s_next s_told] in D. destruct D as ((mid & pre & E & F & U) & _).
      exists w, mid, pre. split; auto. split; auto. intros X. destruct (U X) as [U1 U2]. exists (nxt k). split; [apply C; auto|]. specialize (T2 w U1). lia.
    + right. constructor; cbn [s_log s_q s_loop s_alive s_next]; auto.
      * intros j. cbn [registered exec]. rewrite A, in_q_del. cbn [exec]. rewrite orb_false_r. destruct (Nat.eqb_spec j k) as [->|]; [rewrite T1; auto|]. cbn. rewrite andb_true_r, orb_false_r. auto.
      * intros j. cbn [exec]. rewrite in_q_del. destruct (Nat.eqb_spec j k) as [->|]; auto. cbn. rewrite andb_true_r, orb_false_r. intros H1. apply B. rewrite H1. auto.
      * exact I.
  - destruct lp as [| | |w t|k|]; try discriminate. destruct L as [L|[A B C D]]; [discriminate L|]. cbn [s_log s_q s_loop s_alive s_next] in *. inversion S; subst; clear S.
    split; [apply good_cons; cbn; auto|right]. constructor; cbn [s_log s_q s_loop s_alive s_next]; auto.
    + intros j. cbn [registered exec]. rewrite A, in_q_cons. cbn [exec]. rewrite orb_false_r, orb_comm. auto.
    + intros j. cbn [exec]. rewrite in_q_cons, orb_false_r, orb_comm. apply B.
    + intros j H. cbn [due]. rewrite (Nat.eqb_sym k j). unfold set1. destruct (Nat.eqb j k) eqn:JK; [apply Nat.eqb_eq in JK; rewrite JK; reflexivity|auto].
  - destruct lp; try discriminate. inversion S; subst; clear S. split; [exact G|left; reflexivity].
Qed.
Lemma INV_init : INV init.
Proof. split; [intros [|] ? ? E; discriminate E|]. right. constructor; cbn; auto; discriminate. Qed.
Lemma run_INV ls : forall s s', INV s -> run iv s ls = Some s' -> INV s'.
Proof.
  induction ls as [|a ls IH]; intros s s' I R; cbn [run] in R; [inversion R; subst; auto|]. destruct (step iv s a) as [s1|] eqn:E; [|discriminate]. exact (IH s1 s' (step_INV s a s1 I E) R).
Qed.
Lemma reach_INV s : reachable iv s -> INV s.
Proof. intros [ls R]. eapply run_INV; eauto using INV_init. Qed.

(** ** Fairness: what happens from a state in which [k] is due *)
Record fair (k : nat) (d : N) (mid : list event) (s : st) : Prop := {
  f_time : d <= s_now s;
  f_k : s_loop s = Stuck \/ exec k (s_loop s) = true \/ in_q k (s_q s) = true /\ s_next s k = d /\ s_alive s k = true;
  f_ran : forall j, runs j mid = 0%nat \/ runs j mid = 1%nat /\ (s_loop s = Stuck \/ exec j (s_loop s) = true \/ d < s_next s j) }.
Lemma fair_step k d mid s a s' new : (forall j, 0 < iv j) -> INV s -> step iv s a = Some s' -> s_log s' = new ++ s_log s -> Forall (calm k) new -> fair k d mid s -> fair k d (new ++ mid) s'.
Proof.
  intros IV I S EL CA F. assert (NEW : forall e, s_log s' = e :: s_log s -> new = [e]).
  { intros e E. rewrite E in EL. change (e :: s_log s) with ([e] ++ s_log s) in EL. apply app_inv_tail in EL. auto. }
  assert (NIL : s_log s' = s_log s -> new = []). { intros E. rewrite E in EL. change (s_log s) with ([] ++ s_log s) in EL at 1. apply app_inv_tail in EL. auto. }
  destruct F as [FT FK FR]. destruct s as [now alive nxt q running lp told log]. cbn [s_now s_loop s_q s_next s_alive s_log] in *.
  destruct a as [dt|m|m|m|m| | |i| |i| |]; cbn [step] in S.
  - inversion S; subst; clear S. rewrite (NIL eq_refl). constructor; cbn [s_now s_loop s_q s_next s_alive app]; auto. lia.
  - destruct (alive m) eqn:AM; [discriminate|]. inversion S; subst; clear S. rewrite (NEW _ eq_refl). constructor; cbn [s_now s_loop s_q s_next s_alive app]; auto.
    + destruct FK as [FK|[FK|(A & B & C)]]; auto. right; right. unfold set1. destruct (Nat.eqb_spec k m); [subst; congruence|auto].
    + intros j. destruct (FR j) as [R|(R & Q)]; [left; exact R|right]. split; [exact R|]. unfold set1. destruct (Nat.eqb_spec j m); [|exact Q]. right; right. specialize (IV m). lia.
  - destruct (negb (alive m && free_mutex lp)); [discriminate|]. destruct (in_q m q) eqn:IQ; inversion S; subst; clear S; rewrite (NEW _ eq_refl); constructor; cbn [s_now s_loop s_q s_next s_alive app]; auto.
    destruct FK as [FK|[FK|(A & B & C)]]; auto. right; right. rewrite in_q_cons, A, orb_true_r. auto.
  - destruct (negb (alive m && free_mutex lp)); [discriminate|]. inversion S; subst; clear S. rewrite (NEW _ eq_refl) in *. inversion CA as [|? ? C1 _]; subst. constructor; cbn [s_now s_loop s_q s_next s_alive app]; auto.
    destruct FK as [FK|[FK|(A & B & C)]]; auto. right; right. split; auto. rewrite in_q_del, A. destruct (Nat.eqb_spec k m) as [->|]; [cbn in C1; rewrite A in C1; contradiction|auto].
  - destruct (negb (alive m && free_mutex lp)); [discriminate|]. inversion S; subst; clear S. rewrite (NEW _ eq_refl) in *. inversion CA as [|? ? C1 _]; subst. cbn in C1. constructor; cbn [s_now s_loop s_q s_next s_alive app]; auto.
    destruct FK as [FK|[FK|(A & B & C)]]; auto. right; right. rewrite in_q_del, A. unfold set1. destruct (Nat.eqb_spec k m) as [->|]; [contradiction|auto].
  - destruct (negb (free_mutex lp)) eqn:FM; [discriminate|]. destruct running; [inversion S; subst; clear S; rewrite (NIL eq_refl); constructor; auto|].
    destruct lp; inversion S; subst; clear S; first [rewrite (NIL eq_refl)|rewrite (NEW _ eq_refl)]; constructor; cbn [s_now s_loop s_q s_next s_alive app]; auto;
      solve [destruct FK as [FK|[FK|FK]]; try discriminate FK; auto|intros j; destruct (FR j) as [R|(R & [Q|[Q|Q]])]; try discriminate Q; auto].
  - destruct (negb (free_mutex lp)) eqn:FM; [discriminate|]. destruct running; inversion S; subst; clear S; rewrite (NIL eq_refl); constructor; auto.
  - destruct lp; try discriminate. destruct running; cbn [negb] in S; [|inversion S; subst; clear S; rewrite (NIL eq_refl); constructor; cbn [s_now s_loop s_q s_next s_alive app]; auto;
      [destruct FK as [FK|[FK|FK]]; try discriminate FK; auto|intros j; destruct (FR j) as [R|(R & [Q|[Q|Q]])]; try discriminate Q; auto]].
    destruct q as [|x q0] eqn:EQ; [inversion S; subst; clear S; rewrite (NIL eq_refl); constructor; cbn [s_now s_loop s_q s_next s_alive app]; auto;
      [destruct FK as [FK|[FK|FK]]; try discriminate FK; auto|intros j; destruct (FR j) as [R|(R & [Q|[Q|Q]])]; try discriminate Q; auto]|]. rewrite <- EQ in *.
    destruct (top nxt q i) as [w|] eqn:T; [|discriminate]. inversion S; subst s'; clear S. rewrite (NEW _ eq_refl). constructor; cbn [s_now s_loop s_q s_next s_alive app]; auto.
    + destruct FK as [FK|[FK|FK]]; try discriminate FK; auto.
    + intros j; destruct (FR j) as [R|(R & [Q|[Q|Q]])]; try discriminate Q; auto.
  - destruct lp; try discriminate; inversion S; subst; clear S; rewrite (NIL eq_refl); constructor; cbn [s_now s_loop s_q s_next s_alive app]; auto;
      solve [destruct FK as [FK|[FK|FK]]; try discriminate FK; auto|intros j; destruct (FR j) as [R|(R & [Q|[Q|Q]])]; try discriminate Q; auto].
  - destruct lp as [| | |w t|k'|]; try discriminate. destruct (N.ltb_spec now t); [discriminate|].
    destruct q as [|x q0] eqn:EQ; [inversion S; subst; clear S; rewrite (NIL eq_refl); constructor; cbn [s_now s_loop s_q s_next s_alive app]; auto;
      [destruct FK as [FK|[FK|FK]]; try discriminate FK; auto|intros j; destruct (FR j) as [R|(R & [Q|[Q|Q]])]; try discriminate Q; auto]|]. rewrite <- EQ in *.
    destruct (top nxt q i) as [m|] eqn:T; [|discriminate]. inversion S; subst s'; clear S. destruct (top_spec _ _ _ _ T) as [T1 T2]. rewrite (NEW _ eq_refl) in *. inversion CA as [|? ? C1 _]; subst. cbn in C1.
    destruct FK as [FK|[FK|(A & B & C)]]; try discriminate FK. constructor; cbn [s_now s_loop s_q s_next s_alive app]; auto.
    + right; right. rewrite in_q_del, A. destruct (Nat.eqb_spec k m); [subst; contradiction|auto].
    + intros j. unfold runs. cbn [filter]. destruct (Nat.eqb_spec m j) as [->|N].
      * right. cbn [length]. fold (runs j mid). destruct (FR j) as [R|(R & [Q|[Q|Q]])]; try discriminate Q.
        -- split; [lia|]. right; left. cbn. apply Nat.eqb_refl.
        -- exfalso. specialize (T2 k A). lia.
      * fold (runs j mid). destruct (FR j) as [R|(R & [Q|[Q|Q]])]; try discriminate Q; auto.
  - destruct lp as [| | |w t|m|]; try discriminate. inversion S; subst; clear S. rewrite (NEW _ eq_refl) in *. inversion CA as [|? ? C1 _]; subst. cbn in C1. constructor; cbn [s_now s_loop s_q s_next s_alive app]; auto.
    + destruct FK as [FK|[FK|(A & B & C)]]; [discriminate FK|cbn in FK; apply Nat.eqb_eq in FK; congruence|]. right; right. rewrite in_q_cons, A, orb_true_r. unfold set1. destruct (Nat.eqb_spec k m); [subst; contradiction|auto].
    + intros j. unfold runs. cbn [filter]. fold (runs j mid). destruct (FR j) as [R|(R & Q)]; auto. right. split; auto. right; right. unfold set1. destruct (Nat.eqb_spec j m) as [->|N].
      * specialize (IV m). lia.
      * destruct Q as [Q|[Q|Q]]; [discriminate Q|cbn in Q; apply Nat.eqb_eq in Q; contradiction|auto].
  - destruct lp; try discriminate. inversion S; subst; clear S. rewrite (NIL eq_refl). constructor; cbn [s_now s_loop s_q s_next s_alive app]; auto.
    intros j; destruct (FR j) as [R|(R & Q)]; auto.
Qed.
Lemma log_grows s a s' : step iv s a = Some s' -> exists new, s_log s' = new ++ s_log s.
Proof.
  destruct s as [now alive nxt q running lp told log]. intros S. destruct a; cbn [step] in S;
    repeat match type of S with
           | context [match ?x with _ => _ end] => destruct x; try discriminate S
           | Some _ = Some _ => inversion S; subst; clear S
           end; cbn [s_log]; solve [exists []; reflexivity|eexists [_]; reflexivity].
Qed.
Lemma fair_run ls : forall k d mid s s' part, (forall j, 0 < iv j) -> INV s -> run iv s ls = Some s' -> s_log s' = part ++ s_log s -> Forall (calm k) part -> fair k d mid s -> fair k d (part ++ mid) s'.
Proof.
  induction ls as [|a ls IH]; intros k d mid s s' part IV I R EL CA F; cbn [run] in R.
  - inversion R; subst. change (s_log s') with ([] ++ s_log s') in EL at 1. apply app_inv_tail in EL. subst part. exact F.
  - destruct (step iv s a) as [s1|] eqn:E; [|discriminate]. destruct (log_grows _ _ _ E) as (new & E1).
    assert (X : forall ls s s', run iv s ls = Some s' -> exists new, s_log s' = new ++ s_log s).
    { clear. induction ls as [|a ls IH]; intros s s' R; cbn [run] in R; [inversion R; exists []; reflexivity|]. destruct (step iv s a) as [s1|] eqn:E; [|discriminate]. destruct (log_grows _ _ _ E) as (n1 & E1). destruct (IH _ _ R) as (n2 & E2). exists (n2 ++ n1). rewrite E2, E1, app_assoc. reflexivity. }
    destruct (X _ _ _ R) as (p2 & E2). rewrite E2, E1, app_assoc in EL. apply app_inv_tail in EL. subst part. apply Forall_app in CA. destruct CA as [C2 C1].
    rewrite <- app_assoc. apply (IH k d (new ++ mid) s1 s' p2 IV (step_INV _ _ _ I E) R E2 C2). eapply fair_step; eauto.
Qed.
End Proofs.
