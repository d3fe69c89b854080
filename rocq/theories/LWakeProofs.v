From Coq Require Import List Arith NArith ZArith Bool Lia.
From Verif Require Import Base LearnModel LearnSpec LearnProofs LearnProofs2 LearnProps LWakeModel LWakeSpec.
Import ListNotations.

Lemma w_proj v w w' x : w_step w v = Some (w', x) -> l_step (w_l w) (snd v) = Some (w_l w', x).
Proof.
  destruct v as [sp e]. unfold w_step. cbn [snd]. intros H. destruct e; try (destruct (l_step (w_l w) _) as [[s' y]|]; [|discriminate]; injection H as <- <-; reflexivity).
  destruct (may_run w sp now); [|discriminate]. destruct (l_step (w_l w) _) as [[s' y]|]; [|discriminate].
  destruct y as [| | |[]| |]; injection H as <- <-; reflexivity.
Qed.
Lemma w_run_proj vs : forall w w' xs, w_run w vs = Some (w', xs) -> l_run (w_l w) (evs vs) = Some (w_l w', xs).
Proof.
  induction vs as [|v vs IH]; intros w w' xs R; cbn [w_run evs map l_run] in *; [injection R as <- <-; reflexivity|].
  destruct (w_step w v) as [[w1 x]|] eqn:E; [|discriminate]. rewrite (w_proj _ _ _ _ E). destruct (w_run w1 vs) as [[w2 ys]|] eqn:E2; [|discriminate].
  injection R as <- <-. change (map snd vs) with (evs vs). rewrite (IH _ _ _ E2). reflexivity.
Qed.

(** The thread sleeps: it was notified, or nothing is ready and it wakes in time *)
Definition Iw (w : wst) : Prop := forall d, w_sleep w = Some d ->
  l_ph (w_l w) = PIdle /\ (w_note w = true \/
  (l_tmp (w_l w) = [] /\ ((0 < l_timeout (w_l w))%N -> 0 < l_n (w_l w) -> exists t, d = Some t /\ (t <= l_started (w_l w) + l_timeout (w_l w))%N))).
Definition mcalm (s : lst) (e : lev) : Prop :=
  match e with ETimeout x => l_n s = 0 \/ x = 0%N \/ (0 < l_timeout s <= x)%N | _ => True end.

Lemma Iw_new max timeout : Iw (w_new max timeout). Proof. intros d H. discriminate. Qed.

Lemma full_cases s t s' b : process_full s t = (s', b) -> l_ph s' = l_ph s /\ (b = false \/ (b = true /\ l_tmp s <> [] )).
Proof. unfold process_full. destruct (l_tmp s) eqn:E; intros H; injection H as <- <-; split; auto. right. split; [auto|discriminate]. Qed.

Lemma Iw_step w v w' x : Iw w -> mcalm (w_l w) (snd v) -> w_step w v = Some (w', x) -> Iw w'.
Proof.
  intros I C H. destruct v as [sp e]. cbn [snd] in C. unfold w_step in H.
  destruct e as [t now y|t m|t|now| | |id ids|id| |x0|d0].
  - (* EAdd *) destruct (l_step _ _) as [[s' y']|] eqn:E; [|discriminate]. injection H as <- <-. intros d Hd. cbn [w_sleep w_l w_note] in *. destruct (I _ Hd) as [P K]. rewrite Hd.
    cbn [l_step] in E. destruct (negb _); [|discriminate]. unfold add_sample in E.
    destruct (existsb _ (l_filter (w_l w))) eqn:Ex.
    { injection E as <- <-. split; [exact P|]. destruct K as [->|K]; [left; reflexivity|right; exact K]. }
    cbn [l_n l_max] in E. destruct ((l_n (w_l w) + 1 =? 1) && (1 <? l_max (w_l w))) eqn:E1.
    { injection E as <- <-. split; [exact P|]. left. cbn [notifies]. try rewrite E1. apply orb_true_r. }
    destruct (l_max (w_l w) <=? l_n (w_l w) + 1) eqn:E2.
    { destruct (process_full _ t) as [s2 b] eqn:Ef. injection E as <- <-. apply full_cases in Ef. destruct Ef as [Ef1 Ef2]. split; [rewrite Ef1; exact P|]. cbn [l_tmp] in Ef2.
      destruct Ef2 as [->|[-> Ef2]]; [left; cbn [notifies]; try rewrite E1; try rewrite E2; apply orb_true_r|]. destruct K as [->|[K _]]; [left; reflexivity|contradiction]. }
    injection E as <- <-. cbn [l_ph l_tmp l_timeout l_n l_started]. split; [exact P|]. destruct K as [->|[K1 K2]]; [left; reflexivity|]. right. split; [exact K1|].
    intros T _. apply K2; [exact T|]. destruct (l_n (w_l w)) eqn:En; [|lia]. exfalso. cbn [Nat.add Nat.eqb andb] in E1. apply Nat.ltb_ge in E1. apply Nat.leb_gt in E2. lia.
  - (* EMax *) destruct (l_step _ _) as [[s' y']|] eqn:E; [|discriminate]. injection H as <- <-. intros d Hd. cbn [w_sleep w_l w_note] in *. destruct (I _ Hd) as [P K]. rewrite Hd.
    cbn [l_step] in E. destruct (negb _); [|discriminate]. unfold set_max in E. destruct ((0 <? l_n (w_l w)) && (m <=? l_n (w_l w))) eqn:E1.
    { destruct (process_full _ t) as [s2 b] eqn:Ef. injection E as <- <-. apply full_cases in Ef. destruct Ef as [Ef1 Ef2]. split; [rewrite Ef1; exact P|]. cbn [l_tmp] in Ef2.
      destruct Ef2 as [->|[-> Ef2]]; [left; cbn [notifies]; try rewrite E1; apply orb_true_r|]. destruct K as [->|[K _]]; [left; reflexivity|contradiction]. }
    injection E as <- <-. cbn [l_ph l_tmp l_timeout l_n l_started]. split; [exact P|]. destruct K as [->|K]; [left; reflexivity|right; exact K].
  - (* EWake *) destruct (l_step _ _) as [[s' y']|] eqn:E; [|discriminate]. injection H as <- <-. intros d Hd. cbn [w_sleep w_l w_note] in *. destruct (I _ Hd) as [P K]. rewrite Hd.
    cbn [l_step] in E. destruct (wake (w_l w) t) as [[s2 b]|] eqn:Ew; [|discriminate]. injection E as <- <-. unfold wake in Ew. destruct (existsb _ _); [|discriminate].
    destruct (l_tmp (w_l w)) eqn:Et; injection Ew as <- <-.
    + split; [exact P|]. left. cbn [notifies]. apply orb_true_r.
    + split; [exact P|]. destruct K as [->|[K _]]; [left; reflexivity|discriminate].
  - (* ETake *) destruct (may_run w sp now); [|discriminate]. destruct (l_step _ _) as [[s' y']|] eqn:E; [|discriminate].
    cbn [l_step] in E. destruct (take (w_l w) now) as [[s2 b]|] eqn:Et; [|discriminate]. injection E as <- <-.
    destruct b; injection H as <- <-; intros d Hd; cbn [w_sleep w_l w_note] in *; [discriminate|]. injection Hd as <-.
    unfold take in Et. destruct (l_ph (w_l w)) eqn:P; [|discriminate|discriminate]. destruct (l_tmp (w_l w)) eqn:Em; [|cbn in Et; discriminate].
    destruct (_ || _) eqn:En; [|discriminate]. injection Et as <-. split; [exact P|]. right. split; [exact Em|]. intros T Nn. unfold deadline. apply N.ltb_lt in T. apply Nat.ltb_lt in Nn. rewrite T, Nn. cbn [andb]. eexists. split; [reflexivity|]. lia.
  - (* ESend *) destruct (l_step _ _) as [[s' y']|] eqn:E; [|discriminate]. injection H as <- <-. intros d Hd. cbn [w_sleep w_l w_note] in *. destruct (I _ Hd) as [P _]. cbn [l_step] in E. unfold send in E. rewrite P in E. discriminate.
  - (* EDone *) destruct (l_step _ _) as [[s' y']|] eqn:E; [|discriminate]. injection H as <- <-. intros d Hd. cbn [w_sleep w_l w_note] in *. destruct (I _ Hd) as [P _]. cbn [l_step] in E. unfold done in E. rewrite P in E. discriminate.
  - (* EAck *) destruct (l_step _ _) as [[s' y']|] eqn:E; [|discriminate]. injection H as <- <-. intros d Hd. cbn [w_sleep w_l w_note] in *. destruct (I _ Hd) as [P K]. rewrite Hd.
    cbn [l_step] in E. destruct (ack (w_l w) id ids) as [s2|] eqn:Ea; [|discriminate]. injection E as <- <-. cbn [notifies]. rewrite orb_false_r. unfold ack in Ea.
    destruct (l_old (w_l w) id); [|injection Ea as <-; auto]. destruct (ack_loop _ _ _ _ _) as [[[f0 c0] a0]|]; [|discriminate]. injection Ea as <-. exact (conj P K).
  - (* EAckBuf *) destruct (l_step _ _) as [[s' y']|] eqn:E; [|discriminate]. injection H as <- <-. intros d Hd. cbn [w_sleep w_l w_note] in *. destruct (I _ Hd) as [P K]. rewrite Hd.
    cbn [l_step] in E. destruct (ack_buffer (w_l w) id) as [s2|] eqn:Ea; [|discriminate]. injection E as <- <-. cbn [notifies]. rewrite orb_false_r. unfold ack_buffer in Ea.
    destruct (l_old (w_l w) id); [|injection Ea as <-; auto]. destruct (match _ with true => _ | false => _ end) as [f0|]; [|discriminate]. injection Ea as <-. exact (conj P K).
  - (* EReset *) destruct (l_step _ _) as [[s' y']|] eqn:E; [|discriminate]. injection H as <- <-. intros d Hd. cbn [w_sleep w_l w_note] in *. destruct (I _ Hd) as [P K].
    cbn [l_step] in E. unfold reset in E. rewrite P in E. injection E as <- <-. cbn [l_ph l_tmp l_timeout l_n l_started]. split; [reflexivity|]. right. split; [reflexivity|]. intros _ Z. lia.
  - (* ETimeout *) cbn [l_step] in H. injection H as <- <-. intros d Hd. cbn [w_sleep w_l w_note] in *. destruct (I _ Hd) as [P K]. cbn [set_timeout l_ph l_tmp l_timeout l_n l_started notifies]. rewrite Hd, orb_false_r.
    split; [exact P|]. destruct K as [K|[K1 K2]]; [left; exact K|]. right. split; [exact K1|]. intros T Nn. cbn [mcalm] in C. destruct C as [C|[C|C]]; [lia|lia|].
    destruct (K2 ltac:(lia) Nn) as (t & -> & L). exists t. split; [reflexivity|]. lia.
  - (* EDest *) destruct (l_step _ _) as [[s' y']|] eqn:E; [|discriminate]. injection H as <- <-. intros d Hd. cbn [w_sleep w_l w_note] in *. destruct (I _ Hd) as [P K]. rewrite Hd.
    cbn [l_step] in E. unfold set_dest in E. rewrite P in E. injection E as <- <-. cbn [notifies l_ph l_tmp l_timeout l_n l_started]. rewrite orb_false_r. split; [reflexivity|exact K].
Qed.

(** What the thread takes when it happens to run, it takes by itself *)
Lemma Iw_take w sp now w' : Iw w -> w_step w (sp, ETake now) = Some (w', OTook true) -> w_step w (false, ETake now) = Some (w', OTook true).
Proof.
  intros I H. pose proof (w_proj _ _ _ _ H) as E. unfold w_step in *. destruct (may_run w sp now); [|discriminate]. destruct (may_run w false now) eqn:M; [exact H|]. exfalso.
  unfold may_run in M. destruct (w_sleep w) as [d|] eqn:Sl; [|discriminate]. destruct (I d Sl) as [P K]. apply orb_false_iff in M. destruct M as [M1 M2]. cbn [orb] in M1.
  destruct K as [K|[K1 K2]]; [congruence|]. cbn [snd l_step] in E. destruct (take (w_l w) now) as [[s2 b]|] eqn:Et; [|discriminate]. injection E as _ ->. unfold take in Et. rewrite P, K1 in Et.
  destruct (_ || _) eqn:En; [discriminate|]. apply orb_false_iff in En. destruct En as [En E3]. apply orb_false_iff in En. destruct En as [E1 E2]. apply N.eqb_neq in E1. apply Nat.eqb_neq in E2. apply N.ltb_ge in E3.
  destruct (K2 ltac:(lia) ltac:(lia)) as (t & -> & L). apply N.leb_gt in M2. lia.
Qed.
Lemma take_w w now s' : Iw w -> l_step (w_l w) (ETake now) = Some (s', OTook true) -> w_step w (false, ETake now) = Some (mk_w s' None false, OTook true).
Proof.
  intros I H. apply (Iw_take w true now); [exact I|]. unfold w_step. rewrite H. unfold may_run. destruct (w_sleep w); reflexivity.
Qed.

Lemma calm_m n s q e : Good n s q -> calm1 q e -> mcalm s e.
Proof.
  intros (tq & cur & I) C. destruct e; try exact Logic.I. cbn [calm1 mcalm] in *. rewrite <- (iv_t _ _ _ _ _ I). destruct C as [C|C]; [left|right; exact C].
  rewrite (iv_n _ _ _ _ _ I). rewrite (iv_pend _ _ _ _ _ I) in C. apply app_eq_nil in C. destruct C as [_ ->]. reflexivity.
Qed.
Lemma w_run_ok vs : forall n w q w' xs, Good n (w_l w) q -> Iw w -> w_run w vs = Some (w', xs) -> all_fit q (evs vs) xs -> calm q (evs vs) xs -> (n + 2 * N.of_nat (length vs) < 2 ^ 64)%N -> Iw w'.
Proof.
  induction vs as [|v vs IH]; intros n w q w' xs G I R F C L; cbn [w_run] in R; [injection R as <- <-; exact I|].
  destruct (w_step w v) as [[w1 x]|] eqn:E; [|discriminate]. destruct (w_run w1 vs) as [[w2 ys]|] eqn:E2; [|discriminate]. injection R as <- <-.
  cbn [evs map all_fit calm] in F, C. destruct F as [F1 F2], C as [C1 C2]. cbn [length] in L.
  destruct (step_ok n (w_l w) q (snd v) G F1 ltac:(lia)) as (s' & x' & E' & _ & G'). rewrite (w_proj _ _ _ _ E) in E'. injection E' as <- <-.
  eapply IH; [exact G'| |exact E2|exact F2|exact C2|lia]. eapply Iw_step; [exact I| |exact E]. eapply calm_m; eauto.
Qed.

(** What the thread does at will, it does without waking for no reason *)
Lemma lift more : forall now w s' ys q, Iw w -> Forall (transmit now) more -> l_run (w_l w) more = Some (s', ys) ->
  exists vs w' zs, Forall (own now) vs /\ w_run w vs = Some (w', zs) /\ w_l w' = s' /\ s_after q (evs vs) zs = s_after q more ys.
Proof.
  induction more as [|e more IH]; intros now w s' ys q I F R; cbn [l_run] in R.
  { injection R as <- <-. exists [], w, []. repeat split; auto. }
  destruct (l_step (w_l w) e) as [[s1 x]|] eqn:E; [|discriminate]. destruct (l_run s1 more) as [[s2 xs]|] eqn:E2; [|discriminate]. injection R as <- <-. inversion F as [|? ? F1 F2]; subst.
  assert (Step : forall w1, w_l w1 = s1 -> mcalm (w_l w) e -> w_step w (false, e) = Some (w1, x) -> exists vs w' zs, Forall (own now) vs /\ w_run w vs = Some (w', zs) /\ w_l w' = s2 /\ s_after q (evs vs) zs = s_after q (e :: more) (x :: xs)).
  { intros w1 <- Cm Ew. destruct (IH now w1 s2 xs (s_next q e x) (Iw_step _ (false, e) _ _ I Cm Ew) F2 E2) as (vs & w' & zs & A & B & C & D).
    exists ((false, e) :: vs), w', (x :: zs). split; [constructor; [split; [reflexivity|exact F1]|exact A]|]. cbn [w_run]. rewrite Ew, B. split; [reflexivity|]. split; [exact C|]. cbn [evs map snd s_after]. exact D. }
  destruct F1 as [-> | [-> | ->]].
  - assert (Hb : exists b, x = OTook b). { cbn [l_step] in E. destruct (take (w_l w) now) as [[sa b]|]; [|discriminate]. injection E as <- <-. eauto. }
    destruct Hb as [b ->]. destruct b.
    + eapply Step; [|exact Logic.I|apply take_w; eauto]. reflexivity.
    + assert (s1 = w_l w) as ->. { cbn [l_step] in E. destruct (take (w_l w) now) as [[sa b]|] eqn:Et; [|discriminate]. injection E as <- ->. unfold take in Et. destruct (l_ph (w_l w)); [|discriminate|discriminate]. destruct (match l_tmp (w_l w) with [] => _ | _ => false end); [injection Et as <-; reflexivity|]. destruct (match l_tmp (w_l w) with [] => _ | _ => _ end). discriminate. }
      destruct (IH now w s2 xs (s_next q (ETake now) (OTook false)) I F2 E2) as (vs & w' & zs & A & B & C & D). exists vs, w', zs. split; [exact A|]. split; [exact B|]. split; [exact C|]. cbn [s_after]. rewrite <- D. f_equal. destruct q; reflexivity.
  - eapply Step; [|exact Logic.I|unfold w_step; rewrite E; reflexivity]. reflexivity.
  - eapply Step; [|exact Logic.I|unfold w_step; rewrite E; reflexivity]. reflexivity.
Qed.

(** ** Full buffers *)
Definition keeps_max (e : lev) : Prop := match e with EMax _ _ => False | _ => True end.
Definition Kf (max : nat) (s : lst) : Prop := l_max s = max /\ (l_wait s = [] -> l_n s = 0 \/ l_n s < max).
Lemma Kf_step max s e s' x : Kf max s -> keeps_max e -> l_step s e = Some (s', x) -> Kf max s'.
Proof.
  intros [K1 K2] Hm E. destruct e as [t now y|t m|t|now| | |id ids|id| |x0|d0]; cbn [l_step keeps_max] in *; try contradiction.
  - destruct (negb _); [|discriminate]. unfold add_sample in E. destruct (existsb _ (l_filter s)); [injection E as <- <-; split; auto|]. cbn [l_n l_max] in E.
    destruct ((l_n s + 1 =? 1) && (1 <? l_max s)) eqn:E1; [injection E as <- <-; split; [exact K1|]; intros _; cbn [l_n]; apply andb_true_iff in E1; destruct E1 as [A B]; apply Nat.eqb_eq in A; apply Nat.ltb_lt in B; lia|].
    destruct (l_max s <=? l_n s + 1) eqn:E2.
    + unfold process_full in E. cbn [l_tmp] in E. destruct (l_tmp s); injection E as <- <-; split; auto; cbn [set_wait l_wait l_n swap]; try discriminate.
    + injection E as <- <-. split; [exact K1|]. intros _. cbn [l_n]. apply Nat.leb_gt in E2. lia.
  - destruct (wake s t) as [[s2 b]|] eqn:Ew; [|discriminate]. injection E as <- <-. unfold wake in Ew. destruct (existsb _ _); [|discriminate]. destruct (l_tmp s); injection Ew as <- <-; split; auto.
  - destruct (take s now) as [[s2 b]|] eqn:Et; [|discriminate]. injection E as <- <-. unfold take in Et. destruct (l_ph s); [|discriminate|discriminate]. destruct (l_tmp s) eqn:Em.
    + destruct (_ || _); injection Et as <- <-; split; auto.
    + injection Et as <- <-. split; auto.
  - destruct (send s) as [[s2 m]|] eqn:Es; [|discriminate]. injection E as <- <-. unfold send in Es. destruct (l_ph s); try discriminate. injection Es as <- <-. split; auto.
  - destruct (done s) as [s2|] eqn:Es; [|discriminate]. injection E as <- <-. unfold done in Es. destruct (l_ph s); try discriminate. injection Es as <-. split; auto.
  - destruct (ack s id ids) as [s2|] eqn:Ea; [|discriminate]. injection E as <- <-. unfold ack in Ea. destruct (l_old s id); [|injection Ea as <-; split; auto]. destruct (ack_loop _ _ _ _ _) as [[[f0 c0] a0]|]; [|discriminate]. injection Ea as <-. split; auto.
  - destruct (ack_buffer s id) as [s2|] eqn:Ea; [|discriminate]. injection E as <- <-. unfold ack_buffer in Ea. destruct (l_old s id); [|injection Ea as <-; split; auto]. destruct (match _ with true => _ | false => _ end) as [f0|]; [|discriminate]. injection Ea as <-. split; auto.
  - unfold reset in E. destruct (l_ph s); try discriminate; injection E as <- <-; split; auto.
  - injection E as <- <-. split; auto.
  - unfold set_dest in E. destruct (l_ph s); try discriminate; injection E as <- <-; split; auto.
Qed.
Lemma Kf_run max es : forall s s' xs, Kf max s -> Forall keeps_max es -> l_run s es = Some (s', xs) -> Kf max s'.
Proof.
  induction es as [|e es IH]; intros s s' xs K F R; cbn [l_run] in R; [injection R as <- <-; exact K|].
  destruct (l_step s e) as [[s1 x]|] eqn:E; [|discriminate]. destruct (l_run s1 es) as [[s2 ys]|] eqn:E2; [|discriminate]. injection R as <- <-. inversion F; subst. eapply IH; [|eassumption|exact E2]. eapply Kf_step; eauto.
Qed.
Lemma full_take n max s q now : Good n s q -> Kf max s -> s_ph q = SIdle -> s_wait q = [] -> max <= length (s_pend q) -> s_pend q <> [] -> exists s', l_step s (ETake now) = Some (s', OTook true).
Proof.
  intros (tq & cur & I) [K1 K2] P W L Np. pose proof (iv_ph _ _ _ _ _ I) as Ph. rewrite P in Ph. destruct (l_ph s) eqn:Ep; [|contradiction|contradiction]. destruct Ph as [Pt _].
  rewrite (iv_w _ _ _ _ _ I) in W. specialize (K2 W). rewrite (iv_n _ _ _ _ _ I) in K2. rewrite (iv_pend _ _ _ _ _ I) in L, Np.
  cbn [l_step]. unfold take. rewrite Ep. destruct (l_tmp s) eqn:Et; [|eexists; reflexivity]. exfalso.
  assert (Z : tq = []). { apply concat_nil; [|congruence]. exact (Forall_app_l _ _ _ (iv_ne _ _ _ _ _ I)). }
  subst tq. cbn [app] in *. destruct cur; [contradiction|]. cbn [length] in *. lia.
Qed.
