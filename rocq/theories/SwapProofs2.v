(** Calls one after the other: the contexts stay in step. *)
From Coq Require Import List Arith Bool Lia.
From Verif Require Import SwapModel SwapSpec SwapProofs.
Import ListNotations.

Section Seq.
Context {J : Type}.
Variable enabled : bool.
Variable n : nat.
Hypothesis n_pos : 0 < n.
Notation sp := (sp J). Notation sw := (sw J). Notation op := (op J).

Definition ctxs (a : sp) (f : nat -> sc J) : Prop := forall i, s_cx a i = if i <? n then Some (f i) else None.
Definition top (w : sw) : option J := Some (match w_next w with Some j => j | None => w_live w end).
Definition BUSY (a : sp) (w : sw) (o : op) : Prop :=
  match o_call o with
  | CLoad j => exists m, m <= n /\ o_done o = seq 0 m /\ o_swapped o = [] /\
      if o_refused o then m = 0 /\ w_next w <> None /\ ctxs a (fun _ => mkSc (w_live w) (w_next w) false) /\ enabled = true
      else (0 < m -> w_next w = None /\ enabled = true) /\
           ctxs a (fun i => mkSc (w_live w) (if i <? m then Some j else w_next w) false)
  | CSwap => exists m, m <= n /\ o_done o = seq 0 m /\
      if o_refused o then m = 0 /\ w_next w = None /\ o_swapped o = [] /\ ctxs a (fun _ => mkSc (w_live w) (w_next w) false) /\ enabled = true
      else (0 < m -> w_next w <> None /\ enabled = true) /\ (o_swapped o <> [] -> m = n) /\
           ctxs a (fun i => if existsb (Nat.eqb i) (o_swapped o)
                            then mkSc (match w_next w with Some j => j | None => w_live w end) None false
                            else mkSc (w_live w) (w_next w) (i <? m))
  | CDo => o_swapped o = [] /\ ctxs a (fun _ => mkSc (w_live w) (w_next w) false)
  end.
Record U (a : sp) (w : sw) (busy : bool) : Prop := {
  u_calm : s_calm a; u_last : s_last a = top w;
  u_open : if busy then exists t o, s_open a t = Some o /\ (forall u, u <> t -> s_open a u = None) /\ BUSY a w o
           else (forall t, s_open a t = None) /\ ctxs a (fun _ => mkSc (w_live w) (w_next w) false) }.

Lemma ctxs_upd a f i x g : ctxs a f -> i < n -> (forall k, k < n -> g k = if k =? i then x else f k) ->
  forall a', s_cx a' = upd (s_cx a) i (Some x) -> ctxs a' g.
Proof.
  intros C L G a' E k. rewrite E. unfold upd. destruct (Nat.eqb_spec k i) as [->|Nk].
  - destruct (Nat.ltb_spec i n); [|lia]. rewrite G, Nat.eqb_refl by auto. reflexivity.
  - rewrite (C k). destruct (Nat.ltb_spec k n); [|reflexivity]. rewrite G by auto. destruct (Nat.eqb_spec k i); [congruence|reflexivity].
Qed.
Lemma ctxs_get a f i k : ctxs a f -> s_cx a i = Some k -> i < n /\ k = f i.
Proof. intros C E. rewrite (C i) in E. destruct (Nat.ltb_spec i n); [|discriminate]. split; congruence. Qed.
Lemma ctxs_eq a a' f g : ctxs a f -> s_cx a' = s_cx a -> (forall k, k < n -> g k = f k) -> ctxs a' g.
Proof. intros C E G k. rewrite E, (C k). destruct (Nat.ltb_spec k n); [rewrite G by auto|]; reflexivity. Qed.

Ltac other H T U0 := match goal with Ho : s_open _ ?u = Some _ |- _ =>
  assert (u = T) by (destruct (Nat.eq_dec u T) as [|NN]; [assumption|rewrite (U0 u NN) in Ho; discriminate]); subst u end.

(** Every event but the beginning and the end of a call leaves the switch as a whole as it was. *)
Lemma quiet a w busy e a' : U a w busy -> accept enabled n a e a' ->
  match e with VCall _ _ | VRet _ _ _ => False | _ => True end -> U a' w busy.
Proof.
  intros Hu A Q. destruct e as [t c|t c ok|t i j ok|t i ok|t i|t|i j|p i j|p i j j'|p|j|]; try contradiction; cbn in A.
  - destruct A as (En & o & k & O & Oc & Or & Oi & Ok & A). destruct Hu as [Ca La Op]. destruct busy; [|destruct Op as [Op _]; congruence].
    destruct Op as (T & o' & O' & Uq & B). other O T Uq. rewrite O in O'. injection O' as <-. unfold BUSY in B. rewrite Oc in B.
    destruct B as (m & Lm & Dn & Sw & B). rewrite Or in B. destruct B as [B1 B2].
    destruct (ctxs_get _ _ _ _ B2 Ok) as [Li ->]. rewrite Dn, seq_length in Oi. subst i.
    rewrite Nat.ltb_irrefl in A. cbn in A.
    destruct ok; destruct A as [A ->].
    + constructor; auto. exists T, (mkOp (o_call o) (o_done o ++ [m]) [] false). cbn. rewrite upd_eq. split; auto. split.
      { intros u Nu. rewrite upd_ne; auto. }
      unfold BUSY. cbn. rewrite Oc. exists (S m). split; [lia|]. split; [rewrite Dn; apply seq_snoc|]. split; auto. split; [auto|].
      eapply (ctxs_upd a _ m); [exact B2|exact Li| |reflexivity].
      intros x Lx. cbn beta. destruct (Nat.eqb_spec x m) as [->|Nx].
      * destruct (Nat.leb_spec m m); [reflexivity|lia].
      * change (x <=? m) with (x <? S m). destruct (Nat.ltb_spec x (S m)), (Nat.ltb_spec x m); try reflexivity; lia.
    + destruct m as [|m]; [|destruct (B1 ltac:(lia)); congruence].
      constructor; auto. exists T, (mkOp (o_call o) (o_done o) [] true). cbn. rewrite upd_eq. split; auto. split.
      { intros u Nu. rewrite upd_ne; auto. }
      unfold BUSY. cbn. rewrite Oc. exists 0. repeat split; auto; try lia.
  - destruct A as (En & o & k & O & Oc & Or & Oi & Os & Ok & A). destruct Hu as [Ca La Op]. destruct busy; [|destruct Op as [Op _]; congruence].
    destruct Op as (T & o' & O' & Uq & B). other O T Uq. rewrite O in O'. injection O' as <-. unfold BUSY in B. rewrite Oc in B.
    destruct B as (m & Lm & Dn & B). rewrite Or, Os in B. destruct B as (B1 & B2 & B3). cbn [existsb] in B3.
    destruct (ctxs_get _ _ _ _ B3 Ok) as [Li ->]. rewrite Dn, seq_length in Oi. subst i. cbn in A.
    destruct ok; destruct A as [A ->].
    + constructor; auto. exists T, (mkOp (o_call o) (o_done o ++ [m]) [] false). cbn. rewrite upd_eq. split; auto. split.
      { intros u Nu. rewrite upd_ne; auto. }
      unfold BUSY. cbn. rewrite Oc. exists (S m). split; [lia|]. split; [rewrite Dn; apply seq_snoc|]. split; auto. split; [congruence|].
      eapply (ctxs_upd a _ m); [exact B3|exact Li| |reflexivity].
      intros x Lx. cbn beta. destruct (Nat.eqb_spec x m) as [->|Nx].
      * destruct (Nat.leb_spec m m); [reflexivity|lia].
      * change (x <=? m) with (x <? S m). destruct (Nat.ltb_spec x (S m)), (Nat.ltb_spec x m); try reflexivity; lia.
    + destruct m as [|m]; [|destruct (B1 ltac:(lia)); congruence].
      constructor; auto. exists T, (mkOp (o_call o) (o_done o) [] true). cbn. rewrite upd_eq. split; auto. split.
      { intros u Nu. rewrite upd_ne; auto. }
      unfold BUSY. cbn. rewrite Oc. exists 0. repeat split; auto; try lia.
  - destruct A as (o & k & j & O & Sw & Dn & Ok & Rq & Nx & _ & ->). destruct Hu as [Ca La Op]. destruct busy; [|destruct Op as [Op _]; congruence].
    destruct Op as (T & o' & O' & Uq & B). other O T Uq. rewrite O in O'. injection O' as <-.
    constructor; auto. exists T, (mkOp (o_call o) (o_done o) (o_swapped o ++ [i]) (o_refused o)). cbn. rewrite upd_eq. split; auto. split.
    { intros u Nu. rewrite upd_ne; auto. }
    unfold BUSY in *. cbn. destruct (o_call o) as [jj| |] eqn:Oc; [discriminate| |].
    + destruct B as (m & Lm & Dn' & B). exists m. split; auto. split; auto. destruct (o_refused o).
      * destruct B as (_ & _ & _ & B & _). destruct (ctxs_get _ _ _ _ B Ok) as [_ ->]. discriminate.
      * destruct B as (B1 & B2 & B3). destruct (ctxs_get _ _ _ _ B3 Ok) as [Li Ek].
        assert (m = n). { specialize (Dn eq_refl). rewrite Dn' in Dn. rewrite <- (seq_length n 0), <- Dn, seq_length. reflexivity. }
        split; auto. split; auto. eapply (ctxs_upd a _ i); [exact B3|exact Li| |reflexivity].
        intros x Lx. cbn beta. rewrite existsb_app. cbn. rewrite orb_false_r. destruct (Nat.eqb_spec x i) as [->|Nxi].
        -- rewrite orb_true_r. f_equal. destruct (existsb (Nat.eqb i) (o_swapped o)); rewrite Ek in Nx, Rq; cbn in Nx, Rq; [discriminate|].
           rewrite Nx. reflexivity.
        -- rewrite orb_false_r. reflexivity.
    + destruct B as [_ B]. destruct (ctxs_get _ _ _ _ B Ok) as [_ ->]. discriminate.
  - destruct A as (_ & _ & _ & _ & ->). exact Hu.
  - destruct A as (_ & _ & _ & ->). exact Hu.
  - destruct A as (k & _ & _ & _ & ->). destruct Hu. constructor; auto.
  - destruct A as (_ & _ & _ & _ & _ & ->). exact Hu.
  - destruct A as (_ & ->). destruct Hu. constructor; auto.
  - destruct A as (_ & ->). exact Hu.
  - destruct A as (N & _). destruct N. apply Hu.
Qed.

Lemma called a w t c a' : U a w false -> accept enabled n a (VCall t c) a' -> U a' w true.
Proof.
  intros [Ca La [Op Cx]] [_ ->]. constructor; auto.
  - split; auto. intros _ t' o E. rewrite Op in E. discriminate.
  - exists t, (mkOp c [] [] false). cbn. rewrite upd_eq. split; auto. split; [intros u Nu; rewrite upd_ne; auto|].
    unfold BUSY. cbn. destruct c as [j| |].
    + exists 0. repeat split; auto; try lia.
    + exists 0. repeat split; auto; try lia. congruence.
    + auto.
Qed.
Lemma returned a w t c ok a' : U a w true -> accept enabled n a (VRet t c ok) a' ->
  snd (sw_call enabled w c) = ok /\ U a' (fst (sw_call enabled w c)) false.
Proof.
  intros [Ca La Op] (o & O & Oc & V & ->). destruct Op as (T & o' & O' & Uq & B). other O T Uq. rewrite O in O'. injection O' as <-.
  assert (Al : forall u, upd (s_open a) T None u = None).
  { intros u. unfold upd. destruct (Nat.eqb_spec u T); auto. }
  unfold BUSY in B. rewrite Oc in B. destruct c as [j| |]; cbn [sw_call].
  - destruct B as (m & Lm & Dn & Sw & B). destruct ok.
    + destruct V as [V1 V2]. rewrite V2 in B. destruct B as [B1 B2].
      assert (m = n). { rewrite Dn in V1. rewrite <- (seq_length n 0), <- V1, seq_length. reflexivity. } subst m.
      destruct (B1 n_pos) as [-> ->]. split; [reflexivity|]. constructor; auto. split; auto.
      eapply ctxs_eq; [exact B2|reflexivity|]. intros k Lk. cbn beta iota delta [fst w_live w_next]. destruct (Nat.ltb_spec k n); [reflexivity|lia].
    + destruct (o_refused o).
      * destruct B as (_ & B1 & B2 & ->). destruct (w_next w) eqn:W; [|congruence]. split; [reflexivity|]. constructor; auto. split; auto.
        cbn [fst]. rewrite W. exact B2.
      * destruct V as [V|V]; [discriminate|]. rewrite V. split; [reflexivity|]. constructor; auto. split; auto. destruct B as [B1 B2].
        destruct m as [|m]; [|destruct (B1 ltac:(lia)); congruence]. exact B2.
  - destruct B as (m & Lm & Dn & B). destruct ok.
    + destruct V as (V1 & V2 & V3). specialize (V3 Ca). rewrite V2, V3 in B. destruct B as (B1 & B2 & B3).
      assert (m = n). { rewrite Dn in V1. rewrite <- (seq_length n 0), <- V1, seq_length. reflexivity. } subst m.
      destruct (B1 n_pos) as [W ->]. unfold top in La. destruct (w_next w) as [jn|] eqn:Wn; [|congruence]. split; [reflexivity|].
      constructor; auto. split; auto.
      eapply ctxs_eq; [exact B3|reflexivity|]. intros k Lk. cbn.
      assert (X : existsb (Nat.eqb k) (seq 0 n) = true); [|rewrite X; reflexivity].
      apply existsb_exists. exists k. split; [apply in_seq; lia|apply Nat.eqb_refl].
    + destruct (o_refused o).
      * destruct B as (_ & B1 & _ & B2 & ->). rewrite B1 in *. split; [reflexivity|]. constructor; auto. split; auto.
        cbn [fst]. rewrite B1. exact B2.
      * destruct V as [V|V]; [discriminate|]. rewrite V. split; [reflexivity|]. constructor; auto. split; auto. destruct B as (B1 & B2 & B3).
        destruct m as [|m]; [|destruct (B1 ltac:(lia)); congruence].
        destruct (o_swapped o) as [|x l]; [|specialize (B2 ltac:(discriminate)); lia].
        eapply ctxs_eq; [exact B3|reflexivity|]. intros k Lk. reflexivity.
  - destruct B as [B1 B2]. destruct ok; [congruence|]. split; [reflexivity|]. constructor; auto.
Qed.

Lemma seq_ok es : forall a w busy a', U a w busy -> accepts enabled n a es a' -> one_at_a_time busy es ->
  exists w', sw_run enabled w (map fst (completed es)) = (w', map snd (completed es)) /\ U a' w' false.
Proof.
  induction es as [|e es IH]; intros a w busy a' Hu A O.
  - cbn in *. subst. exists w. auto.
  - destruct A as (a1 & A & B). destruct e as [t c|t c ok|t i j ok|t i ok|t i|t|i j|p i j|p i j j'|p|j|];
      try (apply (IH a1 w busy); auto; eapply quiet; eauto; exact Logic.I).
    + destruct O as [-> O]. apply (IH a1 w true); auto. eapply called; eauto.
    + cbn in O. destruct busy.
      * destruct (returned _ _ _ _ _ _ Hu A) as [E U1]. destruct (IH a1 _ false a' U1 B O) as (w' & R & U2).
        exists w'. split; auto. cbn [completed flat_map app map fst snd sw_run]. fold (completed es).
        destruct (sw_call enabled w c) as [w1 x]. cbn in *. rewrite R, E. reflexivity.
      * destruct A as (o & Oo & _). destruct Hu as [_ _ [Op _]]. rewrite Op in Oo. discriminate.
Qed.
Lemma U_start j : U (sp_start n j) (mkSw j None) false.
Proof. constructor; [exact Logic.I|reflexivity|]. split; [reflexivity|]. intros i. reflexivity. Qed.
End Seq.

(** A dead switch has shown it, and not in a history without overlapping swaps. *)
Section Dead.
Context {J : Type}.
Variables (enabled : bool) (init : J -> bool) (n : nat).
Lemma dead_finish (s : st J) t b rc s' e : finish s t b rc = (s', e) -> dead s = false -> dead s' = true -> In (@VAbort J) e.
Proof. unfold finish, abort. destruct b; [destruct (rc =? 0)|]; intros E D; injection E as <- <-; cbn; auto; congruence. Qed.
Lemma dead_go (s : st J) t s' e : go enabled init s t = Some (s', e) -> dead s = false -> dead s' = true -> In (@VAbort J) e.
Proof.
  unfold go. intros E D D'. destruct (pcs s t) as [|j i|i|b|b|b i rc|b i rc|b i rc|b i rc]; try discriminate.
  - destruct (nth_error (cxs s) i); [destruct (cx_load _ _)|destruct (cmut s)]; try discriminate; injection E as <- <-; cbn in D'; congruence.
  - destruct (nth_error (cxs s) i); [destruct (cx_swap _)|destruct (cmut s)]; try discriminate; injection E as <- <-; cbn in D'; congruence.
  - destruct (enabled && _); [injection E as <- <-; cbn in D'; congruence|]. injection E as E. exact (dead_finish _ _ _ _ _ _ E D D').
  - destruct (pmut s); try discriminate; injection E as <- <-; cbn in D'; congruence.
  - destruct (nth_error (cxs s) i) as [c|]; [destruct (c_ord c); injection E as <- <-; cbn in D'; congruence|].
    destruct (finish _ _ _ _) as [s1 e1] eqn:F. injection E as <- <-. right. exact (dead_finish _ _ _ _ _ _ F D D').
  - destruct (nth_error (cxs s) i) as [c|]; [destruct (c_cnt c =? 0)|]; try discriminate; injection E as <- <-; cbn in D'; congruence.
  - destruct (nth_error (cxs s) i) as [c|]; [destruct (cx_do c)|]; try discriminate; injection E as <- <-; cbn in D'; congruence.
  - destruct (nth_error (cxs s) i) as [c|]; [|discriminate]. destruct (c_cnt c =? 0); injection E as <- <-; cbn in *; auto; congruence.
Qed.
Lemma dead_new (s : st J) i s' e : new_packet s i = Some (s', e) -> dead s' = dead s.
Proof.
  unfold new_packet. destruct (nth_error (cxs s) i); [|discriminate]. destruct (pool_get _). destruct (nth_error (objs s) _); [|discriminate].
  intros E. injection E as <- <-. reflexivity.
Qed.
Lemma dead_step (s : st J) l s' e : step enabled init s l = Some (s', e) -> dead s' = true -> In (@VAbort J) e.
Proof.
  unfold step. destruct (dead s) eqn:D; [discriminate|]. intros E D'. destruct l as [t c|t|i|p|p i|p|p|i|].
  - destruct (pcs s t); try discriminate. destruct c; [destruct enabled|destruct enabled|]; injection E as <- <-; cbn in D'; congruence.
  - exact (dead_go _ _ _ _ E D D').
  - destruct (pmut s); [discriminate|]. rewrite (dead_new _ _ _ _ E) in D'. congruence.
  - destruct (find_pk _ _) as [[i o]|]; [|discriminate]. rewrite (dead_new _ _ _ _ E) in D'. congruence.
  - destruct (find_pk _ _) as [[i' o]|]; [|discriminate]. rewrite (dead_new _ _ _ _ E) in D'. congruence.
  - destruct (find_pk _ _) as [[i' o]|]; [|discriminate]. destruct (nth_error _ _); [|discriminate]. injection E as <- <-; cbn in D'; congruence.
  - destruct (find_pk _ _) as [[i' o]|]; [|discriminate]. destruct (nth_error _ _); [|discriminate]. destruct (nth_error _ _); [|discriminate].
    destruct (nth_error _ _); [|discriminate]. injection E as <- <-; congruence.
  - destruct (nth_error _ _); [|discriminate]. destruct (nth_error _ _); [|discriminate]. injection E as <- <-; congruence.
  - destruct (cmut s); [discriminate|]. injection E as <- <-; congruence.
Qed.
Lemma dead_run ls : forall s : st J, dead s = false -> dead (fst (run enabled init s ls)) = true -> In (@VAbort J) (snd (run enabled init s ls)).
Proof.
  induction ls as [|l ls IH]; intros s D D'; cbn [run] in *; [cbn in D'; congruence|].
  destruct (step enabled init s l) as [[s1 e1]|] eqn:E; [|auto].
  specialize (IH s1). destruct (run enabled init s1 ls) as [s2 e2]. cbn [fst snd] in *. apply in_app_iff.
  destruct (dead s1) eqn:D1; [left; exact (dead_step _ _ _ _ E D1)|right; auto].
Qed.
Lemma calm_back (e : ev J) a a' : accept enabled n a e a' -> s_calm a' -> s_calm a.
Proof.
  destruct e as [t c|t c ok|t i j ok|t i ok|t i|t|i j|p i j|p i j j'|p|j|]; intros A C; unfold accept in A;
    repeat match goal with H : exists _, _ |- _ => destruct H | H : _ /\ _ |- _ => destruct H end;
    try (destruct ok; repeat match goal with H : _ /\ _ |- _ => destruct H end); subst; cbn in C; try tauto.
Qed.
Lemma calm_run es : forall a a' : sp J, accepts enabled n a es a' -> s_calm a' -> ~ In (@VAbort J) es.
Proof.
  induction es as [|e es IH]; intros a a' A C I; [destruct I|]. destruct A as (a1 & A & B).
  assert (C1 : s_calm a1).
  { clear IH I A. revert a1 B. induction es as [|e0 es IH]; intros a1 B; cbn in B; [congruence|]. destruct B as (a2 & A & B). eapply calm_back; eauto. }
  destruct I as [->|I]; [|eapply IH; eauto]. destruct A as [N ->]. auto.
Qed.
End Dead.
