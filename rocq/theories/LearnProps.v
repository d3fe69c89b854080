(** * C39: learning *)
From Coq Require Import List Arith NArith ZArith Lia Bool Permutation Sorted.
From Verif Require Import Base LearnModel LearnSpec LearnProofs LearnProofs2.
Import ListNotations.

(** ** Every schedule *)
(** As long as the environment does what is asked of it ([fits]), every outcome is right ([allowed]), and every further event the environment may do has a defined and right outcome.
    (The buffer ids are 64 bits wide: histories of 2^63 events are left out.) *)
Theorem C39_learning : forall max timeout es s xs, l_run (l_new max timeout) es = Some (s, xs) -> all_fit (s_init timeout) es xs -> (2 * N.of_nat (length es) + 2 < 2 ^ 64)%N ->
  all_allowed (s_init timeout) es xs /\
  forall e, fits (s_after (s_init timeout) es xs) e -> exists s' x, l_step s e = Some (s', x) /\ allowed (s_after (s_init timeout) es xs) e x.
Proof.
  intros max timeout es s xs R F L. assert (G0 : Good 0 (l_new max timeout) (s_init timeout)) by (exists [], []; apply Inv_new).
  destruct (run_ok es 0 _ _ _ _ G0 R F ltac:(lia)) as [A G]. split; [exact A|]. intros e Fe. destruct (step_ok _ _ _ e G Fe ltac:(lia)) as (s' & x & E & Al & _). eauto.
Qed.
Print Assumptions C39_learning.

(** ** Exactly once, in order, under increasing buffer ids *)
Fixpoint accepted (es : list lev) (xs : list lout) : list sample :=
  match es, xs with
  | EAdd _ _ y :: es, OAdd true _ :: xs => y :: accepted es xs
  | _ :: es, _ :: xs => accepted es xs
  | _, _ => []
  end.
Definition msgs (xs : list lout) : list msg := flat_map (fun x => match x with OMsg m => [m] | _ => [] end) xs.
Definition m_id (m : msg) : N := snd (fst (fst m)).
Definition carries (m : msg) (g : list sample) : Prop := g <> [] /\ snd (fst m) = length g /\ snd m = concat g.
Definition not_reset (e : lev) : Prop := match e with EReset => False | _ => True end.
Lemma delivery es : forall q xs, all_allowed q es xs -> length xs = length es -> Forall not_reset es -> exists gs, s_pend q ++ accepted es xs = concat gs ++ s_pend (s_after q es xs) /\ Forall2 carries (msgs xs) gs /\
  StronglySorted N.lt (map m_id (msgs xs)) /\ (forall m b, In m (msgs xs) -> In b (s_bufs q) -> (fst b < m_id m)%N).
Proof.
  induction es as [|e es IH]; intros q xs A L F; destruct xs as [|x xs]; try discriminate.
  { exists []. cbn. rewrite app_nil_r. repeat split; try constructor. intros m b []. }
  cbn [all_allowed] in A. destruct A as [A1 A2]. inversion F as [|? ? F1 F2]; subst. injection L as L. destruct (IH _ _ A2 L F2) as (gs & E & C & So & Lt). cbn [s_after].
  assert (Skip : forall q', s_next q e x = q' -> s_pend q' = s_pend q -> map fst (s_bufs q') = map fst (s_bufs q) -> accepted (e :: es) (x :: xs) = accepted es xs -> msgs (x :: xs) = msgs xs ->
    exists gs, s_pend q ++ accepted (e :: es) (x :: xs) = concat gs ++ s_pend (s_after (s_next q e x) es xs) /\ Forall2 carries (msgs (x :: xs)) gs /\ StronglySorted N.lt (map m_id (msgs (x :: xs))) /\ (forall m b, In m (msgs (x :: xs)) -> In b (s_bufs q) -> (fst b < m_id m)%N)).
  { intros q' Q P B Ac Ms. rewrite Q in *. exists gs. rewrite Ac, Ms, <- P. repeat split; auto. intros m b Hm Hb. apply (in_map fst) in Hb. rewrite <- B in Hb. apply in_map_iff in Hb. destruct Hb as (b' & Eb & Hb). rewrite <- Eb. apply Lt; auto. }
  destruct e as [t now y|t m|t|now| | |id ids|id| |x0|d]; cbn [allowed] in A1.
  - destruct A1 as (acc & blk & -> & _). destruct acc; [|eapply Skip; reflexivity]. cbn [s_next s_pend s_bufs] in *. exists gs. cbn [accepted msgs flat_map app]. fold (msgs xs). rewrite <- E, <- app_assoc. repeat split; auto.
  - destruct A1 as (b & ->). eapply Skip; reflexivity.
  - destruct A1 as (b & ->). eapply Skip; reflexivity.
  - destruct A1 as (b & -> & _). eapply Skip; reflexivity.
  - destruct A1 as (id & n & -> & Hn & Hid). cbn [s_next s_pend s_bufs] in *. exists (firstn n (s_pend q) :: gs). cbn [accepted msgs flat_map app concat]. fold (msgs xs). rewrite <- app_assoc, <- E, app_assoc, firstn_skipn. split; [reflexivity|]. split; [|split].
    + constructor; [|exact C]. split; [|split; [|reflexivity]]; cbn [fst snd].
      * intros Z. apply (f_equal (@length _)) in Z. rewrite firstn_length in Z. cbn in Z. lia.
      * rewrite firstn_length. lia.
    + cbn [map]. constructor; [exact So|]. apply Forall_forall. intros i Hi. apply in_map_iff in Hi. destruct Hi as (m & <- & Hm). apply (Lt m (id, map Some (firstn n (s_pend q)))); [exact Hm|]. apply in_or_app. right. left. reflexivity.
    + intros m b [<-|Hm] Hb; [exact (Hid b Hb)|]. apply Lt; [exact Hm|]. apply in_or_app. auto.
  - subst x. eapply Skip; reflexivity.
  - subst x. eapply Skip; try reflexivity. apply on_buf_fst.
  - subst x. eapply Skip; try reflexivity. apply on_buf_fst.
  - contradiction.
  - subst x. eapply Skip; reflexivity.
  - subst x. eapply Skip; reflexivity.
Qed.
Lemma run_len es : forall s s' xs, l_run s es = Some (s', xs) -> length xs = length es.
Proof. induction es as [|e es IH]; intros s s' xs H; cbn in H; [injection H as _ <-; reflexivity|]. destruct (l_step s e) as [[s1 x]|]; [|discriminate]. destruct (l_run s1 es) as [[s2 ys]|] eqn:R; [|discriminate]. injection H as _ <-. cbn. rewrite (IH _ _ _ R). reflexivity. Qed.
(** The accepted samples, in order, are the samples of the notifications in order, followed by those still pending; the buffer ids increase. *)
Theorem C39_exactly_once : forall max timeout es s xs, l_run (l_new max timeout) es = Some (s, xs) -> all_fit (s_init timeout) es xs -> (2 * N.of_nat (length es) + 2 < 2 ^ 64)%N -> Forall not_reset es ->
  exists gs, accepted es xs = concat gs ++ s_pend (s_after (s_init timeout) es xs) /\ Forall2 carries (msgs xs) gs /\ StronglySorted N.lt (map m_id (msgs xs)).
Proof.
  intros max timeout es s xs R F L Nr. destruct (C39_learning _ _ _ _ _ R F L) as [A _]. destruct (delivery es _ _ A (run_len _ _ _ _ R) Nr) as (gs & E & C & So & _). exists gs. auto.
Qed.
Print Assumptions C39_exactly_once.

(** ** Everything is delivered: whatever the state, the transmit thread, running alone with the timeout elapsed, delivers all pending samples. *)
Definition transmit (now : N) (e : lev) : Prop := e = ETake now \/ e = ESend \/ e = EDone.
Lemma l_run_app es1 : forall s es2, l_run s (es1 ++ es2) = match l_run s es1 with Some (s1, xs1) => match l_run s1 es2 with Some (s2, xs2) => Some (s2, xs1 ++ xs2) | None => None end | None => None end.
Proof.
  induction es1 as [|e es1 IH]; intros s es2; cbn [app l_run]; [destruct (l_run s es2) as [[? ?]|]; reflexivity|]. destruct (l_step s e) as [[s1 x]|]; [|reflexivity]. rewrite IH.
  destruct (l_run s1 es1) as [[s2 ys]|]; [|reflexivity]. destruct (l_run s2 es2) as [[s3 zs]|]; reflexivity.
Qed.
Lemma s_after_app es1 : forall q xs1 es2 xs2, length xs1 = length es1 -> s_after q (es1 ++ es2) (xs1 ++ xs2) = s_after (s_after q es1 xs1) es2 xs2.
Proof. induction es1 as [|e es1 IH]; intros q xs1 es2 xs2 L; destruct xs1 as [|x xs1]; try discriminate; [reflexivity|]. cbn. apply IH. injection L as L. exact L. Qed.
Lemma pend_bound n s q : Good n s q -> (N.of_nat (length (s_pend q)) <= n)%N.
Proof.
  intros (tq & cur & I). pose proof (iv_fn _ _ _ _ _ I) as Fn. rewrite (FI_size _ _ _ _ (iv_fi _ _ _ _ _ I)) in Fn. rewrite (iv_pend _ _ _ _ _ I), app_length. unfold closed, opened in Fn. rewrite !live_app, !app_length in Fn.
  assert (H : forall i (l : list sample), length (live match l with [] => [] | _ :: _ => [(i, map Some l)] end) = length l) by (intros i [|y l]; [reflexivity|]; cbn [live flat_map snd]; rewrite somes_map, app_nil_r; reflexivity).
  rewrite !H in Fn. lia.
Qed.
Lemma drain k : forall n s q now, Good n s q -> length (s_pend q) <= k -> (n + 8 * N.of_nat k + 8 < 2 ^ 64)%N -> (0 < s_timeout q)%N -> (s_latest q + s_timeout q <= now)%N ->
  exists es s' xs, Forall (transmit now) es /\ l_run s es = Some (s', xs) /\ s_pend (s_after q es xs) = [] /\ s_bufs (s_after q es xs) <> [] \/ s_pend q = [].
Proof.
  induction k as [|k IH]; intros n s q now G Lk Ln T La.
  { exists [], s, []. right. destruct (s_pend q); [reflexivity|cbn in Lk; lia]. }
  destruct (s_pend q) as [|y0 p0] eqn:Ep; [exists [], s, []; right; reflexivity|].
  assert (Round : forall n s q pre, s_ph q = STook -> Good n s q -> (n + 4 < 2 ^ 64)%N -> pre = s_pend q -> exists s2 xs2, l_run s [ESend; EDone] = Some (s2, xs2) /\ Good (n + 4) s2 (s_after q [ESend; EDone] xs2) /\
     length (s_pend (s_after q [ESend; EDone] xs2)) < length pre /\ s_ph (s_after q [ESend; EDone] xs2) = SIdle /\ s_timeout (s_after q [ESend; EDone] xs2) = s_timeout q /\ s_latest (s_after q [ESend; EDone] xs2) = s_latest q /\ s_bufs (s_after q [ESend; EDone] xs2) <> []).
  { clear. intros n s q pre Ph G Ln ->. destruct (step_ok n s q ESend G Ph ltac:(lia)) as (s1 & x1 & E1 & (id & m & -> & Hm & _) & G1).
    destruct (step_ok _ s1 _ EDone G1 eq_refl ltac:(lia)) as (s2 & x2 & E2 & A2 & G2). cbn [allowed] in A2. subst x2. exists s2. eexists. cbn [l_run]. rewrite E1, E2. split; [reflexivity|]. cbn [s_after s_next s_pend s_ph s_timeout s_latest s_bufs] in *.
    split; [replace (n + 4)%N with (n + 2 + 2)%N by lia; exact G2|]. split; [rewrite skipn_length; lia|]. repeat split. intros Z. apply app_eq_nil in Z. destruct Z. discriminate. }
  assert (Fin : forall n s2 q2, Good n s2 q2 -> length (s_pend q2) <= k -> (n + 8 * N.of_nat k + 8 < 2 ^ 64)%N -> s_timeout q2 = s_timeout q -> s_latest q2 = s_latest q -> s_bufs q2 <> [] ->
     exists es s' xs, Forall (transmit now) es /\ l_run s2 es = Some (s', xs) /\ s_pend (s_after q2 es xs) = [] /\ s_bufs (s_after q2 es xs) <> []).
  { intros n2 s2 q2 G2 L2 Ln2 Et El Nb. rewrite <- Et in T. rewrite <- Et, <- El in La. destruct (IH n2 s2 q2 now G2 L2 Ln2 T La) as (es & s' & xs & [H|H]); [exists es, s', xs; tauto|]. exists [], s2, []. cbn. repeat split; auto. }
  destruct (s_ph q) eqn:Ph.
  - destruct (step_ok n s q (ETake now) G Ph ltac:(lia)) as (s1 & x1 & E1 & (b & -> & _ & Ab) & G1). rewrite (Ab ltac:(rewrite Ep; discriminate) T La) in *.
    set (q1 := s_next q (ETake now) (OTook true)) in *. destruct (Round _ s1 q1 (s_pend q) eq_refl G1 ltac:(lia) eq_refl) as (s2 & xs2 & R2 & G2 & P2 & Ph2 & T2 & La2 & B2).
    destruct (Fin _ s2 _ G2 ltac:(rewrite Ep in P2; cbn [length] in P2, Lk; lia) ltac:(lia) T2 La2 B2) as (es & s' & xs & Fe & Re & Pe & Be).
    exists ((ETake now :: [ESend; EDone]) ++ es), s', ((OTook true :: xs2) ++ xs). left. split; [apply Forall_app; split; [repeat (apply Forall_cons; [unfold transmit; auto|]); apply Forall_nil|exact Fe]|]. rewrite l_run_app. cbn [l_run] in *. rewrite E1.
    pose proof (run_len [ESend; EDone] s1 s2 xs2) as Lx. cbn [l_run] in Lx. destruct (l_step s1 ESend) as [[sa xa]|]; [|discriminate]. destruct (l_step sa EDone) as [[sb xb]|]; [|discriminate]. injection R2 as -> <-. rewrite Re. split; [reflexivity|].
    change (s_pend (s_after (s_after q1 [ESend; EDone] [xa; xb]) es xs) = [] /\ s_bufs (s_after (s_after q1 [ESend; EDone] [xa; xb]) es xs) <> []). auto.
  - destruct (Round _ s _ (s_pend q) Ph G ltac:(lia) eq_refl) as (s2 & xs2 & R2 & G2 & P2 & Ph2 & T2 & La2 & B2).
    destruct (Fin _ s2 _ G2 ltac:(rewrite Ep in P2; cbn [length] in P2, Lk; lia) ltac:(lia) T2 La2 B2) as (es & s' & xs & Fe & Re & Pe & Be).
    exists ([ESend; EDone] ++ es), s', (xs2 ++ xs). left. split; [apply Forall_app; split; [repeat (apply Forall_cons; [unfold transmit; auto|]); apply Forall_nil|exact Fe]|]. rewrite l_run_app, R2, Re. split; [reflexivity|]. rewrite s_after_app by (exact (run_len _ _ _ _ R2)). auto.
  - destruct (step_ok n s q EDone G Ph ltac:(lia)) as (s0 & x0 & E0 & A0 & G0). cbn [allowed] in A0. subst x0.
    destruct (step_ok _ s0 _ (ETake now) G0 eq_refl ltac:(lia)) as (s1 & x1 & E1 & (b & -> & _ & Ab) & G1). cbn [s_next s_pend s_timeout s_latest] in Ab. rewrite (Ab ltac:(rewrite Ep; discriminate) T La) in *.
    set (q1 := s_next (s_next q EDone ONone) (ETake now) (OTook true)) in *.
    destruct (Round _ s1 q1 (s_pend q) eq_refl G1 ltac:(lia) eq_refl) as (s2 & xs2 & R2 & G2 & P2 & Ph2 & T2 & La2 & B2).
    destruct (Fin _ s2 _ G2 ltac:(rewrite Ep in P2; cbn [length] in P2, Lk; lia) ltac:(lia) T2 La2 B2) as (es & s' & xs & Fe & Re & Pe & Be).
    exists ((EDone :: ETake now :: [ESend; EDone]) ++ es), s', ((ONone :: OTook true :: xs2) ++ xs). left. split; [apply Forall_app; split; [repeat (apply Forall_cons; [unfold transmit; auto|]); apply Forall_nil|exact Fe]|]. rewrite l_run_app. cbn [l_run] in *. rewrite E0, E1.
    destruct (l_step s1 ESend) as [[sa xa]|]; [|discriminate]. destruct (l_step sa EDone) as [[sb xb]|]; [|discriminate]. injection R2 as -> <-. rewrite Re. split; [reflexivity|].
    change (s_pend (s_after (s_after q1 [ESend; EDone] [xa; xb]) es xs) = [] /\ s_bufs (s_after (s_after q1 [ESend; EDone] [xa; xb]) es xs) <> []). auto.
Qed.
Theorem C39_all_delivered : forall max timeout es s xs now, l_run (l_new max timeout) es = Some (s, xs) -> all_fit (s_init timeout) es xs -> (20 * N.of_nat (length es) + 16 < 2 ^ 64)%N ->
  let q := s_after (s_init timeout) es xs in (0 < s_timeout q)%N -> (s_latest q + s_timeout q <= now)%N ->
  exists more s' ys, Forall (transmit now) more /\ l_run s more = Some (s', ys) /\ s_pend (s_after q more ys) = [].
Proof.
  intros max timeout es s xs now R F L q T La. assert (G0 : Good 0 (l_new max timeout) (s_init timeout)) by (exists [], []; apply Inv_new).
  destruct (run_ok es 0 _ _ _ _ G0 R F ltac:(lia)) as [_ G]. fold q in G. pose proof (pend_bound _ _ _ G) as Pb.
  destruct (drain (length (s_pend q)) _ s q now G (le_n _) ltac:(lia) T La) as (more & s' & ys & [(H1 & H2 & H3 & _)|H]); [exists more, s', ys; auto|]. exists [], s, []. auto.
Qed.
Print Assumptions C39_all_delivered.

(** ** Suppressed until acknowledged: after the buffer holding it is acknowledged, a sample can be learned again. *)
Theorem C39_learn_again : forall max timeout es s xs id l y t now, l_run (l_new max timeout) es = Some (s, xs) -> all_fit (s_init timeout) es xs -> (2 * N.of_nat (length es) + 6 < 2 ^ 64)%N ->
  let q := s_after (s_init timeout) es xs in
  In (id, l) (s_bufs q) -> In (Some y) l -> fits q (EAckBuf id) -> ~ In t (s_wait q) -> y <> [] ->
  (exists s', l_step s (EAdd t now y) = Some (s', OAdd false false)) /\
  exists s1 s2 b, l_run s [EAckBuf id; EAdd t now y] = Some (s2, [ONone; OAdd true b]) /\ l_step s (EAckBuf id) = Some (s1, ONone).
Proof.
  intros max timeout es s xs id l y t now R F L q Il Iy Fa Nt Ny. assert (G0 : Good 0 (l_new max timeout) (s_init timeout)) by (exists [], []; apply Inv_new).
  destruct (run_ok es 0 _ _ _ _ G0 R F ltac:(lia)) as [_ G]. fold q in G. split.
  - destruct (step_ok _ s q (EAdd t now y) G (conj Nt Ny) ltac:(lia)) as (s' & x & E & (acc & blk & -> & A & B) & _). exists s'. rewrite E. destruct acc; [exfalso; apply (proj1 A eq_refl); right; exists (id, l); auto|]. destruct blk; [discriminate (B eq_refl)|reflexivity].
  - destruct (step_ok _ s q (EAckBuf id) G Fa ltac:(lia)) as (s1 & x1 & E1 & A1 & G1). cbn [allowed] in A1. subst x1. set (q1 := s_next q (EAckBuf id) ONone) in *.
    destruct (step_ok _ s1 q1 (EAdd t now y) G1 (conj Nt Ny) ltac:(lia)) as (s2 & x2 & E2 & (acc & blk & -> & A & B) & _). exists s1, s2, blk. cbn [l_run]. rewrite E1, E2. split; [|reflexivity].
    replace acc with true; [reflexivity|]. symmetry. apply A. clear A B E2. intros O.
    destruct G as (tq & cur & I). pose proof (Inv_ids _ _ _ _ _ I) as D. destruct (in_split_id _ _ _ Il D) as (B1 & B2 & Eb & On). pose proof (fi_l _ _ _ _ (iv_fi _ _ _ _ _ I)) as Dl.
    unfold closed in Dl. rewrite Eb, <- !app_assoc in Dl. cbn [app] in Dl. rewrite live_mid in Dl.
    assert (Yl : In y (somes l)) by (apply somes_In; exact Iy).
    assert (Np : ~ In y (live B1) /\ ~ In y (live (B2 ++ match tq with [] => [] | _ :: _ => [((l_id s - 1)%N, map Some tq)] end ++ opened (l_id s) cur))).
    { split; intros J.
      - clear - Dl J Yl. induction (live B1) as [|z r IH]; [contradiction|]. cbn in Dl. inversion Dl as [|? ? D1 D2]; subst. destruct J as [->|J]; [apply D1; rewrite !in_app_iff; auto|auto].
      - apply NoDup_app_r in Dl. clear - Dl J Yl. induction (somes l) as [|z r IH]; [contradiction|]. cbn in Dl. inversion Dl as [|? ? D1 D2]; subst. destruct Yl as [->|K]; [apply D1; rewrite in_app_iff; auto|auto]. }
    destruct Np as [N1 N2]. rewrite !live_app, !in_app_iff in N2. destruct O as [O|(b & Ib & O)]; cbn [q1 s_next s_pend s_bufs] in *.
    + apply N2. rewrite (iv_pend _ _ _ _ _ I) in O. apply in_app_or in O. destruct O as [O|O].
      * right. left. destruct tq as [|z tq]; [contradiction|]. cbn [live flat_map snd]. rewrite somes_map, app_nil_r. exact O.
      * right. right. destruct cur as [|z cur]; [contradiction|]. cbn [opened live flat_map snd]. rewrite somes_map, app_nil_r. exact O.
    + unfold q1 in Ib. cbn [s_next s_bufs] in Ib. rewrite On in Ib. apply in_app_or in Ib. destruct Ib as [Ib|[<-|Ib]].
      * apply N1. apply live_In. eauto.
      * cbn [snd] in O. apply in_map_iff in O. destruct O as (? & O & _). discriminate.
      * apply N2. left. apply live_In. eauto.
Qed.
Print Assumptions C39_learn_again.

(** ** Ids without gaps *)
Lemma run_inv (K : lst -> sl -> Prop) (C : lev -> Prop) : (forall n s q e s' x, Good n s q -> K s q -> C e -> fits q e -> l_step s e = Some (s', x) -> allowed q e x -> K s' (s_next q e x)) ->
  forall es n s q s' xs, Good n s q -> K s q -> l_run s es = Some (s', xs) -> all_fit q es xs -> Forall C es -> (n + 2 * N.of_nat (length es) < 2 ^ 64)%N -> K s' (s_after q es xs).
Proof.
  intros St es. induction es as [|e es IH]; intros n s q s' xs G Ks R F Fc Ln; cbn [l_run] in R.
  - injection R as <- <-. exact Ks.
  - destruct (l_step s e) as [[s1 x]|] eqn:E; [|discriminate]. destruct (l_run s1 es) as [[s2 ys]|] eqn:R2; [|discriminate]. injection R as <- <-. cbn [all_fit] in F. destruct F as [F1 F2]. cbn [length] in Ln. inversion Fc as [|? ? C1 C2]; subst.
    destruct (step_ok n s q e G F1 ltac:(lia)) as (s1' & x' & E' & A & G'). rewrite E in E'. injection E' as <- <-. cbn [s_after].
    eapply IH; [exact G'|eapply St; eauto|exact R2|exact F2|exact C2|lia].
Qed.
Definition in_line (s : lst) : nat := match l_ph s, l_tmp s with PSent, _ => 0 | _, [] => 0 | _, _ => 1 end.
Definition steady (e : lev) : Prop := match e with EWake _ | EReset => False | _ => True end.
Definition Kid (s : lst) (q : sl) : Prop := l_id s = N.of_nat (length (s_bufs q) + in_line s).
Lemma on_buf_len id f B : length (on_buf id f B) = length B. Proof. unfold on_buf. apply map_length. Qed.
Lemma swap_line n s q cur : Inv n s q [] cur -> l_tmp s = [] -> l_ph s = PIdle -> (n + 1 < 2 ^ 64)%N -> cur <> [] -> Kid s q -> l_id (swap s) = N.of_nat (length (s_bufs q) + 1) /\ l_tmp (swap s) <> [].
Proof.
  intros I E Ph Ln Nc K. unfold Kid, in_line in K. rewrite Ph, E in K. pose proof (iv_id _ _ _ _ _ I). cbn [swap l_id l_tmp]. rewrite N.mod_small by lia. split; [lia|]. rewrite (iv_buf _ _ _ _ _ I). intros Z. apply Nc. apply concat_nil; [exact (iv_ne _ _ _ _ _ I)|exact Z].
Qed.
Lemma full_line n s q tq cur t s' b : Inv n s q tq cur -> (n + 1 < 2 ^ 64)%N -> cur <> [] -> Kid s q -> process_full s t = (s', b) -> l_id s' = N.of_nat (length (s_bufs q) + in_line s').
Proof.
  intros I Ln Nc K. unfold process_full. destruct (l_tmp s) as [|c tmp] eqn:E; intros H; injection H as <- <-.
  - destruct (tmp_nil _ _ _ _ _ I E) as [-> Ph]. destruct (swap_line _ _ _ _ I E Ph Ln Nc K) as [E1 E2]. rewrite E1. unfold in_line. cbn [swap l_ph] in *. rewrite Ph. destruct (l_tmp (swap s)); [contradiction|reflexivity].
  - exact K.
Qed.
Lemma Kid_step n s q e s' x : Good n s q -> (n + 2 < 2 ^ 64)%N -> Kid s q -> steady e -> fits q e -> l_step s e = Some (s', x) -> allowed q e x -> Kid s' (s_next q e x).
Proof.
  intros (tq & cur & I) Ln K C Fit E A. destruct e as [t now y|t m|t|now| | |id ids|id| |x0|d]; try contradiction; cbn [l_step] in E; unfold Kid.
  - destruct (negb (existsb (Nat.eqb t) (l_wait s))); [|discriminate]. unfold add_sample in E. destruct (existsb _ (l_filter s)); [injection E as <- <-; exact K|]. cbn zeta in E.
    set (s1 := mk_l (l_buf s ++ y) _ _ _ _ _ _ _ _ _ _ _ _ _ _) in E. destruct ((l_n s1 =? 1) && (1 <? l_max s1)); [injection E as <- <-; exact K|]. destruct (l_max s1 <=? l_n s1); [|injection E as <- <-; exact K].
    unfold process_full in E. cbn [s1 l_tmp] in E. destruct (l_tmp s) as [|c tmp] eqn:Et; [|injection E as <- <-; unfold s1, in_line; cbn [set_wait l_ph l_tmp l_id]; unfold Kid, in_line in K; rewrite Et in K; exact K].
    destruct (tmp_nil _ _ _ _ _ I Et) as [-> Ph]. injection E as <- <-. cbn [s_next s_bufs]. unfold Kid, in_line in *. unfold s1. cbn [swap l_ph l_tmp l_id l_buf]. rewrite Ph, Et in *. pose proof (iv_id _ _ _ _ _ I). rewrite N.mod_small by lia.
    destruct Fit as [_ Ny]. destruct (l_buf s ++ y) as [|c0 r0] eqn:Eb; [apply app_eq_nil in Eb; tauto|]. lia.
  - destruct (negb (existsb (Nat.eqb t) (l_wait s))); [|discriminate]. unfold set_max in E. set (s1 := mk_l _ _ _ m _ _ _ _ _ _ _ _ _ _ _) in E. assert (I1 : Inv n s1 q tq cur) by (destruct I; constructor; auto).
    destruct ((0 <? l_n s) && (m <=? l_n s)) eqn:Cn; [|injection E as <- <-; exact K]. apply andb_true_iff in Cn. destruct Cn as [Cn _]. apply Nat.ltb_lt in Cn. rewrite (iv_n _ _ _ _ _ I) in Cn.
    destruct (process_full s1 t) as [s2 b] eqn:P. injection E as <- <-. cbn [s_next s_bufs]. eapply full_line; [exact I1|lia| |exact K|exact P]. intros ->. cbn in Cn. lia.
  - unfold take in E. destruct (l_ph s) eqn:Ph; try discriminate. destruct (l_tmp s) as [|c tmp] eqn:Et.
    + destruct ((l_timeout s =? 0)%N || (l_n s =? 0) || (now <? l_started s + l_timeout s)%N) eqn:Cn; [injection E as <- <-; exact K|]. rewrite !orb_false_iff, Nat.eqb_neq in Cn. destruct Cn as [[_ Cn] _].
      destruct (tmp_nil _ _ _ _ _ I Et) as [-> _]. rewrite (iv_n _ _ _ _ _ I) in Cn. assert (Nc : cur <> []) by (intros ->; apply Cn; reflexivity). destruct (swap_line _ _ _ _ I Et Ph ltac:(lia) Nc K) as [E1 E2].
      injection E as <- <-. cbn [s_next s_bufs l_id]. unfold in_line. cbn [l_ph l_tmp]. cbn [swap l_tmp l_id] in E1, E2. destruct (l_buf s); [contradiction|]. exact E1.
    + injection E as <- <-. unfold Kid, in_line in *. cbn [s_next s_bufs l_id l_ph l_tmp]. rewrite Ph, Et in *. exact K.
  - unfold send in E. destruct (l_ph s) as [|k|] eqn:Ph; try discriminate. injection E as <- <-. pose proof (iv_ph _ _ _ _ _ I) as P. rewrite Ph in P. destruct (s_ph q) eqn:Sp; try contradiction. destruct P as (Pt & _ & Nt). unfold Kid, in_line in *. cbn [s_next s_bufs set_ph l_id l_ph l_tmp]. rewrite Ph in K.
    destruct (l_tmp s) eqn:Et; [exfalso; apply Nt; apply concat_nil; [exact (Forall_app_l _ _ _ (iv_ne _ _ _ _ _ I))|congruence]|]. rewrite app_length. cbn [length]. lia.
  - unfold done in E. destruct (l_ph s) eqn:Ph; try discriminate. injection E as <- <-. unfold Kid, in_line in *. cbn [s_next s_bufs l_id l_ph l_tmp]. rewrite Ph in K. exact K.
  - destruct (ack s id ids) as [s1|] eqn:Ea; [|discriminate]. injection E as <- <-. cbn [s_next s_bufs]. rewrite on_buf_len. unfold ack in Ea. destruct (l_old s id) as [fp|]; [|injection Ea as <-; exact K]. destruct (ack_loop _ _ _ _ _) as [[[? ?] ?]|]; [|discriminate]. injection Ea as <-. exact K.
  - destruct (ack_buffer s id) as [s1|] eqn:Ea; [|discriminate]. injection E as <- <-. cbn [s_next s_bufs]. rewrite on_buf_len. unfold ack_buffer in Ea. destruct (l_old s id) as [fp|]; [|injection Ea as <-; exact K]. destruct (if _ : bool then _ else _); [|discriminate]. injection Ea as <-. exact K.
  - injection E as <- <-. exact K.
  - unfold set_dest in E. destruct (l_ph s) eqn:Ph; try discriminate. injection E as <- <-. unfold Kid, in_line in *. cbn [s_next s_bufs l_id l_ph l_tmp]. rewrite Ph in K. exact K.
Qed.
Lemma consec es : forall n s q s' xs, Good n s q -> Kid s q -> l_run s es = Some (s', xs) -> all_fit q es xs -> Forall steady es -> (n + 2 * N.of_nat (length es) + 2 < 2 ^ 64)%N ->
  forall i m, nth_error (msgs xs) i = Some m -> m_id m = N.of_nat (length (s_bufs q) + i).
Proof.
  induction es as [|e es IH]; intros n s q s' xs G Ks R F Fc Ln i m Hm; cbn [l_run] in R.
  - injection R as <- <-. destruct i; discriminate.
  - destruct (l_step s e) as [[s1 x]|] eqn:E; [|discriminate]. destruct (l_run s1 es) as [[s2 ys]|] eqn:R2; [|discriminate]. injection R as <- <-. cbn [all_fit] in F. destruct F as [F1 F2]. cbn [length] in Ln. inversion Fc as [|? ? C1 C2]; subst.
    destruct (step_ok n s q e G F1 ltac:(lia)) as (s1' & x' & E' & A & G'). rewrite E in E'. injection E' as <- <-. pose proof (Kid_step n s q e s1 x G ltac:(lia) Ks C1 F1 E A) as K1.
    pose proof (IH _ _ _ _ _ G' K1 R2 F2 C2 ltac:(lia)) as H.
    assert (Skip : length (s_bufs (s_next q e x)) = length (s_bufs q) -> msgs (x :: ys) = msgs ys -> m_id m = N.of_nat (length (s_bufs q) + i)) by (intros Q1 Q2; rewrite Q2 in Hm; rewrite <- Q1; exact (H i m Hm)).
    destruct e as [t now y|t mm|t|now| | |id ids|id| |x0|d]; try contradiction; cbn [allowed] in A; cbn [s_next s_bufs] in Skip.
    + destruct A as (acc & blk & -> & _). apply Skip; reflexivity.
    + destruct A as (b & ->). apply Skip; reflexivity.
    + destruct A as (b & -> & _). apply Skip; reflexivity.
    + clear Skip. destruct G as (tq & cur & I). pose proof (iv_ph _ _ _ _ _ I) as P. cbn [fits] in F1. rewrite F1 in P. cbn [l_step] in E. unfold send in E. destruct (l_ph s) as [|k|] eqn:Ph; try discriminate. injection E as <- <-. destruct P as (Pt & _ & Nt).
      pose proof (iv_tq _ _ _ _ _ I Nt) as L1. pose proof (iv_id _ _ _ _ _ I) as L2. unfold Kid, in_line in Ks. rewrite Ph in Ks.
      assert (Id : ((l_id s + (2 ^ 64 - 1)) mod 2 ^ 64 = l_id s - 1)%N). { replace (l_id s + (2 ^ 64 - 1))%N with (l_id s - 1 + 1 * 2 ^ 64)%N by lia. rewrite N.mod_add by discriminate. apply N.mod_small. lia. }
      destruct (l_tmp s) eqn:Et; [exfalso; apply Nt; apply concat_nil; [exact (Forall_app_l _ _ _ (iv_ne _ _ _ _ _ I))|congruence]|].
      destruct i as [|i]; cbn [msgs flat_map app nth_error] in Hm.
      * injection Hm as <-. unfold m_id. cbn [fst snd]. transitivity (l_id s - 1)%N; [exact Id|lia].
      * fold (msgs ys) in Hm. rewrite (H i m Hm). cbn [s_next s_bufs]. rewrite app_length. cbn [length]. lia.
    + subst x. apply Skip; reflexivity.
    + subst x. apply Skip; [apply on_buf_len|reflexivity].
    + subst x. apply Skip; [apply on_buf_len|reflexivity].
    + subst x. apply Skip; reflexivity.
    + subst x. apply Skip; reflexivity.
Qed.
(** When no blocked producer resumes, the buffer ids of the notifications are 0, 1, 2, ... *)
Theorem C39_consecutive_ids : forall max timeout es s xs, l_run (l_new max timeout) es = Some (s, xs) -> all_fit (s_init timeout) es xs -> (2 * N.of_nat (length es) + 2 < 2 ^ 64)%N -> Forall steady es ->
  forall i m, nth_error (msgs xs) i = Some m -> m_id m = N.of_nat i.
Proof. intros max timeout es s xs R F L St i m H. assert (G0 : Good 0 (l_new max timeout) (s_init timeout)) by (exists [], []; apply Inv_new). exact (consec es 0 _ _ _ _ G0 eq_refl R F St ltac:(lia) i m H). Qed.
Print Assumptions C39_consecutive_ids.

(** ** Not before the buffer is full or the timeout has elapsed *)
Definition plain (e : lev) : Prop := match e with EWake _ | EReset | EMax _ _ | ETimeout _ => False | _ => True end.
Definition Kt (H : list lev) (M : nat) (T : N) (s : lst) (q : sl) : Prop :=
  l_max s = M /\ l_timeout s = T /\ (l_ph s = PIdle -> l_tmp s <> [] -> M <= l_ntmp s) /\
  (l_n s <> 0 -> exists t y r, In (EAdd t (l_started s) y) H /\ skipn (length (s_pend q) - l_n s) (s_pend q) = y :: r).
Lemma skip_cur {A} (a b : list A) : skipn (length (a ++ b) - length b) (a ++ b) = b.
Proof. rewrite app_length. replace (length a + length b - length b) with (length a) by lia. rewrite skipn_app, Nat.sub_diag, skipn_all. reflexivity. Qed.
Lemma Kt_step H M T n s q e s' x : 1 < M -> Good n s q -> Kt H M T s q -> plain e /\ In e H -> fits q e -> l_step s e = Some (s', x) -> allowed q e x -> Kt H M T s' (s_next q e x).
Proof.
  intros HM (tq & cur & I) (K1 & K2 & K3 & K4) [C Ie] Fit E A. pose proof (iv_pend _ _ _ _ _ I) as Pe. pose proof (iv_n _ _ _ _ _ I) as Nn.
  destruct e as [t now y|t m|t|now| | |id ids|id| |x0|d]; try contradiction; cbn [l_step] in E.
  - destruct (negb (existsb (Nat.eqb t) (l_wait s))); [|discriminate]. unfold add_sample in E. destruct (existsb _ (l_filter s)); [injection E as <- <-; repeat split; auto|]. cbn zeta in E.
    set (s1 := mk_l (l_buf s ++ y) _ _ _ _ _ _ _ _ _ _ _ _ _ _) in E.
    assert (Cur : l_n s <> 0 -> exists t0 y0 r0, In (EAdd t0 (l_started s) y0) H /\ skipn (length (s_pend q ++ [y]) - (l_n s + 1)) (s_pend q ++ [y]) = y0 :: r0).
    { intros Z. destruct (K4 Z) as (t0 & y0 & r0 & H0 & S0). exists t0, y0, (r0 ++ [y]). split; [exact H0|]. rewrite Pe, Nn in *. rewrite skip_cur in S0. rewrite <- app_assoc. replace (length cur + 1) with (length (cur ++ [y])) by (rewrite app_length; reflexivity). rewrite skip_cur, S0. reflexivity. }
    destruct ((l_n s1 =? 1) && (1 <? l_max s1)) eqn:C1.
    + injection E as <- <-. unfold s1. split; [exact K1|]. split; [exact K2|]. split; [exact K3|]. cbn [l_n l_started s_next s_pend]. intros _. apply andb_true_iff in C1. destruct C1 as [C1 _]. apply Nat.eqb_eq in C1. cbn [s1 l_n] in C1.
      exists t, y, []. split; [exact Ie|]. assert (Ec : cur = []) by (destruct cur; [reflexivity|cbn in Nn; lia]). subst cur. rewrite Pe, app_nil_r, C1. change 1 with (length [y]). apply skip_cur.
    + assert (Z : l_n s <> 0). { intros Z. apply andb_false_iff in C1. cbn [s1 l_n l_max] in C1. rewrite Z, K1 in C1. destruct C1 as [C1|C1]; [discriminate|]. apply Nat.ltb_ge in C1. lia. }
      destruct (l_max s1 <=? l_n s1) eqn:C2.
      * apply Nat.leb_le in C2. unfold process_full in E. cbn [s1 l_tmp l_n l_max] in *. destruct (l_tmp s) as [|c tmp] eqn:Et; injection E as <- <-.
        -- unfold s1. split; [exact K1|]. split; [exact K2|]. cbn [swap l_ph l_tmp l_ntmp l_n]. split; [intros _ _; lia|intros Z2; exfalso; apply Z2; reflexivity].
        -- unfold s1. split; [exact K1|]. split; [exact K2|]. cbn [set_wait l_ph l_tmp l_ntmp l_n l_started s_next s_pend]. split; [intros; auto|intros _; exact (Cur Z)].
      * injection E as <- <-. unfold s1. split; [exact K1|]. split; [exact K2|]. split; [exact K3|]. cbn [l_n l_started s_next s_pend]. intros _. exact (Cur Z).
  - unfold take in E. destruct (l_ph s) eqn:Ph; try discriminate. destruct (l_tmp s) as [|c tmp] eqn:Et.
    + destruct ((l_timeout s =? 0)%N || (l_n s =? 0) || (now <? l_started s + l_timeout s)%N) eqn:Cn; injection E as <- <-.
      * repeat split; auto.
      * split; [exact K1|]. split; [exact K2|]. cbn [l_ph l_n swap]. split; [discriminate|intros Z; exfalso; apply Z; reflexivity].
    + injection E as <- <-. split; [exact K1|]. split; [exact K2|]. split; [discriminate|exact K4].
  - unfold send in E. destruct (l_ph s) as [|k|] eqn:Ph; try discriminate. injection E as <- <-. pose proof (iv_ph _ _ _ _ _ I) as P. rewrite Ph in P. destruct (s_ph q) eqn:Sp; try contradiction. destruct P as (Pt & -> & Nt).
    split; [exact K1|]. split; [exact K2|]. split; [discriminate|]. cbn [set_ph l_n l_started s_next s_pend]. intros Z. destruct (K4 Z) as (t0 & y0 & r0 & H0 & S0). exists t0, y0, r0. split; [exact H0|].
    rewrite Pe, Nn in *. rewrite skip_cur in S0. rewrite skipn_app, skipn_all, Nat.sub_diag. cbn [app skipn]. rewrite Nat.sub_diag. exact S0.
  - unfold done in E. destruct (l_ph s) eqn:Ph; try discriminate. injection E as <- <-. split; [exact K1|]. split; [exact K2|]. split; [cbn; congruence|exact K4].
  - destruct (ack s id ids) as [s1|] eqn:Ea; [|discriminate]. injection E as <- <-. unfold ack in Ea. destruct (l_old s id) as [fp|]; [|injection Ea as <-; repeat split; auto]. destruct (ack_loop _ _ _ _ _) as [[[? ?] ?]|]; [|discriminate]. injection Ea as <-. repeat split; auto.
  - destruct (ack_buffer s id) as [s1|] eqn:Ea; [|discriminate]. injection E as <- <-. unfold ack_buffer in Ea. destruct (l_old s id) as [fp|]; [|injection Ea as <-; repeat split; auto]. destruct (if _ : bool then _ else _); [|discriminate]. injection Ea as <-. repeat split; auto.
  - unfold set_dest in E. destruct (l_ph s) eqn:Ph; try discriminate. injection E as <- <-. split; [exact K1|]. split; [exact K2|]. split; [cbn; intros _; exact (K3 eq_refl)|exact K4].
Qed.
Theorem C39_not_early : forall max timeout es s xs now s', 1 < max -> l_run (l_new max timeout) es = Some (s, xs) -> all_fit (s_init timeout) es xs -> (2 * N.of_nat (length es) + 2 < 2 ^ 64)%N -> Forall plain es ->
  let q := s_after (s_init timeout) es xs in l_step s (ETake now) = Some (s', OTook true) ->
  max <= length (s_pend q) \/ (0 < timeout)%N /\ exists t t0 y, In (EAdd t t0 y) es /\ In y (s_pend q) /\ (t0 + timeout <= now)%N.
Proof.
  intros max timeout es s xs now s' HM R F L Pl q E. assert (G0 : Good 0 (l_new max timeout) (s_init timeout)) by (exists [], []; apply Inv_new).
  assert (K : Kt es max timeout s q).
  { unfold q. eapply (run_inv (Kt es max timeout) (fun e => plain e /\ In e es)); [|exact G0| |exact R|exact F| |lia].
    - intros. eapply Kt_step; eauto.
    - repeat split; cbn; try (intros; contradiction).
    - apply Forall_forall. intros e He. rewrite Forall_forall in Pl. auto. }
  destruct (run_ok es 0 _ _ _ _ G0 R F ltac:(lia)) as [_ (tq & cur & I)]. fold q in I. destruct K as (K1 & K2 & K3 & K4). pose proof (iv_pend _ _ _ _ _ I) as Pe. pose proof (iv_n _ _ _ _ _ I) as Nn. pose proof (iv_ph _ _ _ _ _ I) as P.
  cbn [l_step] in E. unfold take in E. destruct (l_ph s) eqn:Ph; try discriminate. destruct (s_ph q); try contradiction. destruct P as [Pt Pn]. destruct (l_tmp s) as [|c tmp] eqn:Et.
  - right. destruct ((l_timeout s =? 0)%N || (l_n s =? 0) || (now <? l_started s + l_timeout s)%N) eqn:Cn; [discriminate|]. rewrite !orb_false_iff, Nat.eqb_neq, N.eqb_neq, N.ltb_ge, K2 in Cn. destruct Cn as [[C1 C2] C3]. split; [lia|].
    destruct (K4 C2) as (t & y & r & H0 & S0). exists t, (l_started s), y. split; [exact H0|]. split; [|exact C3]. rewrite <- (firstn_skipn (length (s_pend q) - l_n s) (s_pend q)). apply in_or_app. right. rewrite S0. left. reflexivity.
  - left. assert (Nt : tq <> []) by (intros ->; discriminate). rewrite Pe, app_length, <- (Pn Nt). specialize (K3 eq_refl ltac:(discriminate)). lia.
Qed.
Print Assumptions C39_not_early.

(** ** Blocked producers *)
(** With one producing thread, and no reset, a blocked producer always has a wake-up to come: something is still to be sent, or it was notified. *)
Definition only (t : nat) (e : lev) : Prop := match e with EAdd u _ _ | EMax u _ => u = t | EReset => False | _ => True end.
Definition Kw (t : nat) (s : lst) (q : sl) : Prop := l_wait s = [] \/ (l_wait s = [t] /\ (l_tmp s <> [] \/ 0 < l_sig s)).
Lemma Kw_step t n s q e s' x : Good n s q -> Kw t s q -> only t e -> fits q e -> l_step s e = Some (s', x) -> allowed q e x -> Kw t s' (s_next q e x).
Proof.
  intros (tq & cur & I) K C Fit E A. pose proof (iv_w _ _ _ _ _ I) as W. unfold Kw.
  destruct e as [u now y|u m|u|now| | |id ids|id| |x0|d]; try contradiction; cbn [l_step only fits] in *.
  - subst u. destruct Fit as [Nw _]. rewrite W in Nw. assert (Kn : l_wait s = []) by (destruct K as [K|[K _]]; [exact K|rewrite K in Nw; exfalso; apply Nw; left; reflexivity]).
    rewrite Kn in E. cbn [existsb negb] in E. unfold add_sample in E. destruct (existsb _ (l_filter s)); [injection E as <- <-; auto|]. cbn zeta in E.
    set (s1 := mk_l (l_buf s ++ y) _ _ _ _ _ _ _ _ _ _ _ _ _ _) in E. destruct ((l_n s1 =? 1) && (1 <? l_max s1)); [injection E as <- <-; auto|]. destruct (l_max s1 <=? l_n s1); [|injection E as <- <-; auto].
    unfold process_full in E. cbn [s1 l_tmp] in E. destruct (l_tmp s) as [|c tmp] eqn:Et; injection E as <- <-; [left; exact Kn|]. right. cbn [set_wait l_wait l_tmp s1]. rewrite Kn. split; [reflexivity|]. left. rewrite ?Et. discriminate.
  - subst u. rewrite W in Fit. assert (Kn : l_wait s = []) by (destruct K as [K|[K _]]; [exact K|rewrite K in Fit; exfalso; apply Fit; left; reflexivity]).
    rewrite Kn in E. cbn [existsb negb] in E. unfold set_max in E. destruct ((0 <? l_n s) && (m <=? l_n s)); [|injection E as <- <-; auto].
    unfold process_full in E. cbn [l_tmp] in E. destruct (l_tmp s) as [|c tmp] eqn:Et; injection E as <- <-; [left; exact Kn|]. right. cbn [set_wait l_wait l_tmp]. rewrite Kn. split; [reflexivity|]. left. rewrite ?Et. discriminate.
  - rewrite W in Fit. destruct K as [K|[K Kt']]; [rewrite K in Fit; contradiction|]. unfold wake in E. rewrite K in *. destruct Fit as [<-|[]]. cbn [existsb] in E. rewrite Nat.eqb_refl in E. cbn [orb] in E.
    destruct (l_tmp s) as [|c tmp] eqn:Et; injection E as <- <-; cbn [swap set_wait l_wait l_tmp l_sig filter negb]; rewrite ?Nat.eqb_refl; cbn [negb]; [left; reflexivity|]. right. split; [reflexivity|]. left. rewrite ?Et. discriminate.
  - unfold take in E. destruct (l_ph s) eqn:Ph; try discriminate. destruct (l_tmp s) as [|c tmp] eqn:Et.
    + destruct K as [K|[K [K'|K']]]; [|contradiction|]; (destruct (_ || _); injection E as <- <-; cbn [swap l_wait l_tmp l_sig]; rewrite K; auto).
    + injection E as <- <-. cbn [l_wait l_tmp l_sig]. rewrite <- ?Et. exact K.
  - unfold send in E. destruct (l_ph s) eqn:Ph; try discriminate. injection E as <- <-. exact K.
  - unfold done in E. destruct (l_ph s) eqn:Ph; try discriminate. injection E as <- <-. cbn [l_wait l_tmp l_sig]. destruct K as [K|[K _]]; [left; exact K|]. right. rewrite K. cbn [length]. split; [reflexivity|]. right. lia.
  - destruct (ack s id ids) as [s1|] eqn:Ea; [|discriminate]. injection E as <- <-. unfold ack in Ea. destruct (l_old s id) as [fp|]; [|injection Ea as <-; exact K]. destruct (ack_loop _ _ _ _ _) as [[[? ?] ?]|]; [|discriminate]. injection Ea as <-. exact K.
  - destruct (ack_buffer s id) as [s1|] eqn:Ea; [|discriminate]. injection E as <- <-. unfold ack_buffer in Ea. destruct (l_old s id) as [fp|]; [|injection Ea as <-; exact K]. destruct (if _ : bool then _ else _); [|discriminate]. injection Ea as <-. exact K.
  - injection E as <- <-. exact K.
  - unfold set_dest in E. destruct (l_ph s) eqn:Ph; try discriminate. injection E as <- <-. exact K.
Qed.
Theorem C39_one_producer_not_stranded : forall t max timeout es s xs, l_run (l_new max timeout) es = Some (s, xs) -> all_fit (s_init timeout) es xs -> (2 * N.of_nat (length es) + 2 < 2 ^ 64)%N -> Forall (only t) es ->
  l_wait s <> [] -> l_tmp s <> [] \/ 0 < l_sig s.
Proof.
  intros t max timeout es s xs R F L O Nw. assert (G0 : Good 0 (l_new max timeout) (s_init timeout)) by (exists [], []; apply Inv_new).
  assert (K : Kw t s (s_after (s_init timeout) es xs)). { eapply (run_inv (Kw t) (only t)); [|exact G0|left; reflexivity|exact R|exact F|exact O|lia]. intros. eapply Kw_step; eauto. }
  destruct K as [K|[_ K]]; [contradiction|exact K].
Qed.
Print Assumptions C39_one_producer_not_stranded.

(** ** A history meeting the hypotheses *)
Definition sa : sample := [1; 2]%N.  Definition sb : sample := [3; 4]%N.  Definition sc : sample := [5; 6]%N.  Definition sd : sample := [7; 8]%N.
Fixpoint out_of (s : lst) (es : list lev) : list lout := match es with [] => [] | e :: r => match l_step s e with Some (s', x) => x :: out_of s' r | None => [] end end.
Lemma all_acked_no l x : In (Some x) l -> ~ all_acked l. Proof. intros I A. discriminate (A _ I). Qed.
Ltac fit_now := cbn [all_fit fits s_next s_wait s_ph s_bufs s_pend s_init s_dest s_timeout s_latest];
  repeat match goal with |- _ /\ _ => split end; auto; try (intros Hin; cbn in Hin; intuition congruence); try discriminate; try (cbn; tauto).
Definition ex_es : list lev :=
  [EDest 9; EAdd 1 0 sa; EAdd 1 1 sa; EAdd 2 1 sb; EAdd 1 2 sc; ETake 3; ESend; EDone; ETake 5; EAckBuf 0; EAdd 1 6 sa; EAdd 2 6 sd; ETake 7; ESend; EDone; EAck 1 [1%Z]; EAdd 2 20 sa; EAdd 2 20 sc; ETake 40; ESend; EDone].
Example C39_nonvacuous : exists s xs, l_run (l_new 2 10) ex_es = Some (s, xs) /\ all_fit (s_init 10) ex_es xs /\
  msgs xs = [(Some 9, 0, 2%nat, [1; 2; 3; 4]); (Some 9, 1, 2%nat, [5; 6; 1; 2]); (Some 9, 2, 2%nat, [7; 8; 1; 2])]%N /\ s_bufs (s_after (s_init 10) ex_es xs) = [(0, [None; None]); (1, [Some sc; None]); (2, [Some sd; Some sa])]%N.
Proof.
  eexists. eexists. split; [vm_compute; reflexivity|]. split; [|split; vm_compute; reflexivity]. unfold ex_es. fit_now.
  - exists [Some sa; Some sb]. split; [left; reflexivity|]. right. left. intros o [<-|[<-|[]]]; discriminate.
  - exists [Some sc; Some sa]. split; [right; left; reflexivity|]. right. cbn [ack_fits Z.ltb Z.compare]. split; [eapply all_acked_no; left; reflexivity|]. split; [intros _; eexists; reflexivity|]. exact I.
Qed.

(** ** What the code does not do *)
(** Ids are not consecutive: a producer blocked on a full buffer, which the timeout sent in the meantime, swaps an empty buffer when it resumes, and uses up an id. *)
Theorem C39_consecutive_ids_refuted :
  ~ (forall t max timeout es s xs, l_run (l_new max timeout) es = Some (s, xs) -> all_fit (s_init timeout) es xs -> Forall (only t) es -> forall i m, nth_error (msgs xs) i = Some m -> m_id m = N.of_nat i).
Proof.
  set (es := [EAdd 1 0 sa; EAdd 1 0 sb; EAdd 1 1 sc; EAdd 1 2 sd; ETake 3; ESend; EDone; ETake 20; ESend; EDone; EWake 1; EAdd 1 30 [9%N]; ETake 50; ESend]).
  assert (R : exists s xs, l_run (l_new 2 10) es = Some (s, xs) /\ xs = out_of (l_new 2 10) es) by (eexists; eexists; vm_compute; split; reflexivity).
  destruct R as (s & xs & R & Ex). vm_compute in Ex. assert (Ft : all_fit (s_init 10) es xs) by (subst xs; unfold es; clear; fit_now).
  assert (On : Forall (only 1) es) by (clear; repeat (apply Forall_cons; [cbn; auto|]); apply Forall_nil).
  intros H. specialize (H 1 2 10%N es s xs R Ft On 2). subst xs. specialize (H _ eq_refl). vm_compute in H. discriminate H.
Qed.
Print Assumptions C39_consecutive_ids_refuted.
(** With several producers a wake-up is lost: one notification per sent buffer, but several producers can be waiting for the same one.  The last of them waits although there is nothing left to send. *)
Theorem C39_several_producers_stranded_refuted :
  ~ (forall max timeout es s xs, l_run (l_new max timeout) es = Some (s, xs) -> all_fit (s_init timeout) es xs -> Forall not_reset es -> l_wait s <> [] -> l_tmp s <> [] \/ 0 < l_sig s).
Proof.
  set (es := [EAdd 1 0 sa; EAdd 1 0 sb; EAdd 2 0 sc; EAdd 3 0 sd; ETake 1; ESend; EDone; EWake 1; ETake 2; ESend; EDone; EWake 2]).
  assert (R : exists s xs, l_run (l_new 1 0) es = Some (s, xs) /\ l_wait s = [3] /\ l_tmp s = [] /\ l_sig s = 0 /\ xs = out_of (l_new 1 0) es) by (eexists; eexists; vm_compute; repeat split; reflexivity).
  destruct R as (s & xs & R & W & T & G & Ex). vm_compute in Ex. assert (Ft : all_fit (s_init 0) es xs) by (subst xs; unfold es; clear; fit_now). intros H. destruct (H 1 0%N es s xs R Ft) as [X|X].
  - repeat (apply Forall_cons; [exact I|]). apply Forall_nil.
  - rewrite W. discriminate.
  - contradiction.
  - lia.
Qed.
Print Assumptions C39_several_producers_stranded_refuted.
(** A reset strands a blocked producer. *)
Theorem C39_reset_strands_producer_refuted :
  ~ (forall t max timeout es s xs, l_run (l_new max timeout) es = Some (s, xs) -> Forall (fun e => only t e \/ e = EReset) es -> l_wait s <> [] -> l_tmp s <> [] \/ 0 < l_sig s).
Proof.
  intros H. set (es := [EAdd 1 0 sa; EAdd 1 0 sb; EReset; ETake 5]).
  assert (R : exists s xs, l_run (l_new 1 0) es = Some (s, xs) /\ l_wait s = [1] /\ l_tmp s = [] /\ l_sig s = 0) by (eexists; eexists; vm_compute; repeat split; reflexivity).
  destruct R as (s & xs & R & W & T & G). destruct (H 1 1 0%N es s xs R) as [X|X].
  - repeat (apply Forall_cons; [cbn; auto|]). apply Forall_nil.
  - rewrite W. discriminate.
  - contradiction.
  - lia.
Qed.
Print Assumptions C39_reset_strands_producer_refuted.
(** A reset between the end of a transmission and the transmit thread taking the lock again loses samples: the new samples are cleared without being sent. *)
Theorem C39_reset_loses_samples_refuted :
  ~ (forall max timeout es es' s xs, l_run (l_new max timeout) (es ++ EReset :: es') = Some (s, xs) -> Forall not_reset es' ->
      exists gs, accepted es' (skipn (length es + 1) xs) = concat gs ++ s_pend (s_after (s_init timeout) es' (skipn (length es + 1) xs)) /\ exists p, l_tmp s ++ l_buf s = concat p /\ s_pend (s_after (s_init timeout) es' (skipn (length es + 1) xs)) = p).
Proof.
  intros H. destruct (H 1 0%N [EAdd 1 0 sa; ETake 1; ESend] [EAdd 1 2 sb; EDone] _ _ ltac:(vm_compute; reflexivity)) as (gs & E & p & E2 & E3); [repeat constructor|].
  vm_compute in E2, E3. subst p. vm_compute in E2. discriminate.
Qed.
Print Assumptions C39_reset_loses_samples_refuted.
(** Acknowledging is undefined behaviour when a sample is acknowledged twice, when a list of samples goes on after the last sample of its buffer, and when a buffer is acknowledged after some of its samples. *)
Theorem C39_acks_refuted :
  ~ (forall max timeout es s xs id ids, l_run (l_new max timeout) es = Some (s, xs) -> all_fit (s_init timeout) es xs -> (exists l, In (id, l) (s_bufs (s_after (s_init timeout) es xs))) ->
      exists s', l_step s (EAck id ids) = Some (s', ONone)) /\
  ~ (forall max timeout es s xs id, l_run (l_new max timeout) es = Some (s, xs) -> all_fit (s_init timeout) es xs -> (exists l, In (id, l) (s_bufs (s_after (s_init timeout) es xs))) ->
      exists s', l_step s (EAckBuf id) = Some (s', ONone)) /\
  exists s xs, l_run (l_new 1 0) [EAdd 1 0 sa; ETake 1; ESend; EDone] = Some (s, xs) /\ l_step s (EAck 0 [0%Z; 7%Z]) = None.
Proof.
  split; [|split].
  - set (es := [EAdd 1 0 sa; EAdd 1 0 sb; ETake 1; ESend; EDone]).
    assert (R : exists s xs, l_run (l_new 2 0) es = Some (s, xs) /\ l_step s (EAck 0 [0%Z; 0%Z]) = None /\ xs = out_of (l_new 2 0) es) by (eexists; eexists; vm_compute; repeat split; reflexivity).
    destruct R as (s & xs & R & E & Ex). vm_compute in Ex. assert (Ft : all_fit (s_init 0) es xs) by (subst xs; unfold es; clear; fit_now). intros H. destruct (H 2 0%N es s xs 0%N [0%Z; 0%Z] R Ft) as (s' & E'); [subst xs; eexists; left; reflexivity|]. congruence.
  - set (es := [EAdd 1 0 sa; EAdd 1 0 sb; EAdd 1 0 sc; ETake 1; ESend; EDone; EAck 0 [0%Z]]).
    assert (R : exists s xs, l_run (l_new 2 0) es = Some (s, xs) /\ l_step s (EAckBuf 0) = None /\ xs = out_of (l_new 2 0) es) by (eexists; eexists; vm_compute; repeat split; reflexivity).
    destruct R as (s & xs & R & E & Ex). vm_compute in Ex. assert (Ft : all_fit (s_init 0) es xs).
    2: { intros H. destruct (H 2 0%N es s xs 0%N R Ft) as (s' & E'); [subst xs; eexists; left; reflexivity|congruence]. }
    subst xs. unfold es. clear. fit_now. exists [Some sa; Some sb]. split; [left; reflexivity|]. right. cbn [ack_fits Z.ltb Z.compare]. split; [eapply all_acked_no; left; reflexivity|]. split; [intros _; eexists; reflexivity|]. exact I.
  - eexists. eexists. split; vm_compute; reflexivity.
Qed.
Print Assumptions C39_acks_refuted.
