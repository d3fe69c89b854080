(** Proofs about threads holding register locks (RegModel) *)
From Coq Require Import List Arith NArith ZArith Bool Lia.
From Verif Require Import Base PhvModel RegModel RegSpec.
Import ListNotations.

(** ** A call executed alone *)
Definition agree (L : list nat) (c c' : content) : Prop := forall a i, In a L -> c a i = c' a i.
Lemma alone_agree L p : within L p -> forall c c', agree L c c' -> agree L (fst (alone p c)) (fst (alone p c')) /\ snd (alone p c) = snd (alone p c').
Proof.
  induction p as [|a i k IH|a i v k IH]; cbn [within alone]; intros W c c' A.
  - split; [exact A|reflexivity].
  - destruct W as [I W]. specialize (IH (c a i) (W _) c c' A). rewrite <- (A a i I). destruct (alone (k (c a i)) c) as [d l], (alone (k (c a i)) c') as [d' l']. cbn in *. destruct IH as [B E]. subst. split; [exact B|]. reflexivity.
  - destruct W as [I W]. apply IH; [exact W|]. intros b j Ib. destruct ((b =? a) && (j =? i)); [reflexivity|]. apply A. exact Ib.
Qed.
Lemma alone_out L p : within L p -> forall c a i, ~ In a L -> fst (alone p c) a i = c a i.
Proof.
  induction p as [|a i k IH|a i v k IH]; cbn [within alone]; intros W c b j N.
  - reflexivity.
  - destruct W as [I W]. specialize (IH (c a i) (W _) c b j N). destruct (alone (k (c a i)) c) as [d l]. exact IH.
  - destruct W as [I W]. rewrite IH by auto. destruct (Nat.eqb_spec b a) as [->|]; [contradiction|]. reflexivity.
Qed.

(** ** Serial executions *)
Fixpoint replay (c : content) (l : list (nat * acts)) : content * list (list Z) :=
  match l with [] => (c, []) | (t, p) :: r => let '(c', x) := alone p c in let '(c'', xs) := replay c' r in (c'', x :: xs) end.

(** ** The invariant.  [G]: the content after the calls that entered, each executed alone in the order of entering; [fut]: what the last call of a running thread reads in that execution *)
Record inv (G : content) (fut : nat -> list Z) (s : mem) : Prop := mk_inv {
  i_own : forall a t, m_own s a = Some t -> exists L p, (m_thr s t = TLocking L p \/ exists log, m_thr s t = TRunning L p log) /\ In a L;
  i_run : forall t L p log, m_thr s t = TRunning L p log -> within L p /\ (forall a, In a L -> m_own s a = Some t) /\
            agree L (fst (alone p (m_val s))) G /\ fut t = log ++ snd (alone p (m_val s));
  i_lock : forall t L p, m_thr s t = TLocking L p -> within L p;
  i_free : forall a i, (forall t L p log, m_thr s t = TRunning L p log -> ~ In a L) -> m_val s a i = G a i }.
Lemma inv_start c : inv c (fun _ => []) (m_start c).
Proof. constructor; cbn; try discriminate. auto. Qed.
Lemma upd_eq {A} (f : nat -> A) k v : upd f k v k = v. Proof. unfold upd. rewrite Nat.eqb_refl. reflexivity. Qed.
Lemma upd_neq {A} (f : nat -> A) k v j : j <> k -> upd f k v j = f j. Proof. unfold upd. destruct (Nat.eqb_spec j k); congruence. Qed.
Lemma owns_eq s t a : owns s t a = true <-> m_own s a = Some t.
Proof. unfold owns. destruct (m_own s a) as [u|]; [|split; discriminate]. rewrite Nat.eqb_eq. split; congruence. Qed.
(** Two running threads hold different arrays *)
Lemma inv_disjoint G fut s t u L p log L' p' log' a : inv G fut s -> m_thr s t = TRunning L p log -> m_thr s u = TRunning L' p' log' -> In a L -> In a L' -> t = u.
Proof. intros I T U A B. destruct (i_run _ _ _ I _ _ _ _ T) as (_ & O & _). destruct (i_run _ _ _ I _ _ _ _ U) as (_ & O' & _). specialize (O a A). specialize (O' a B). congruence. Qed.
Definition entered (s : mem) (e : tev) : option (nat * acts) := match e with TEnter t => match m_thr s t with TLocking L p => Some (t, p) | _ => None end | _ => None end.
Lemma step_inv G fut s e s' x : inv G fut s -> call_within e -> t_step s e = Some (s', x) ->
  exists G' fut', inv G' fut' s' /\
    match entered s e with
    | Some (t, p) => G' = fst (alone p G) /\ fut' = upd fut t (snd (alone p G))
    | None => G' = G /\ fut' = fut
    end /\
    match x with Some (t, log) => log = fut t | None => True end.
Proof.
  intros I W H. destruct e as [t L p|t a|t a|t|t|t|a]; cbn [t_step] in H; cbn [entered].
  - destruct (m_thr s t) as [|L0 p0|L0 p0 log] eqn:T; try discriminate. injection H as <- <-. exists G, fut. split; [|auto]. constructor; cbn.
    + intros a u O. destruct (i_own _ _ _ I a u O) as (L1 & p1 & X & Y). destruct (Nat.eq_dec u t) as [->|N]; [|exists L1, p1; rewrite upd_neq; auto]. rewrite T in X. destruct X as [X|[? X]]; discriminate X.
    + intros u L1 p1 log R. destruct (Nat.eq_dec u t) as [->|N]; [rewrite upd_eq in R; discriminate|]. rewrite upd_neq in R by exact N. apply (i_run _ _ _ I). exact R.
    + intros u L1 p1 R. destruct (Nat.eq_dec u t) as [->|N]; [rewrite upd_eq in R; injection R as <- <-; exact W|]. rewrite upd_neq in R by exact N. eapply (i_lock _ _ _ I). exact R.
    + intros a i F. apply (i_free _ _ _ I). intros u L1 p1 log R. apply (F u L1 p1 log). rewrite upd_neq; [exact R|]. intros ->. congruence.
  - destruct (m_thr s t) as [|L p|L p log] eqn:T; try discriminate. destruct (m_own s a) as [u|] eqn:O; [discriminate|]. destruct (existsb (Nat.eqb a) L) eqn:Ex; [|discriminate]. injection H as <- <-.
    apply existsb_exists in Ex. destruct Ex as (b & Ib & Eb). apply Nat.eqb_eq in Eb. subst b. exists G, fut. split; [|auto]. constructor; cbn.
    + intros b u O'. destruct (Nat.eq_dec b a) as [->|N].
      * rewrite upd_eq in O'. injection O' as <-. exists L, p. auto.
      * rewrite upd_neq in O' by exact N. apply (i_own _ _ _ I). exact O'.
    + intros u L1 p1 log R. destruct (i_run _ _ _ I _ _ _ _ R) as (A & B & C). split; [exact A|split; [|exact C]]. intros b Jb. specialize (B b Jb). rewrite upd_neq; [exact B|]. intros ->. congruence.
    + apply (i_lock _ _ _ I).
    + apply (i_free _ _ _ I).
  - destruct (m_thr s t) as [|L p|L p log] eqn:T; try discriminate. destruct (owns s t a) eqn:O; [|discriminate]. injection H as <- <-. apply owns_eq in O. exists G, fut. split; [|auto]. constructor; cbn.
    + intros b u O'. destruct (Nat.eq_dec b a) as [->|N]; [rewrite upd_eq in O'; discriminate|]. rewrite upd_neq in O' by exact N. apply (i_own _ _ _ I). exact O'.
    + intros u L1 p1 log R. destruct (i_run _ _ _ I _ _ _ _ R) as (A & B & C). split; [exact A|split; [|exact C]]. intros b Jb. pose proof (B b Jb) as Bb. rewrite upd_neq; [exact Bb|]. intros ->. rewrite O in Bb. injection Bb as <-. congruence.
    + apply (i_lock _ _ _ I).
    + apply (i_free _ _ _ I).
  - destruct (m_thr s t) as [|L p|L p log] eqn:T; try discriminate. destruct (forallb (owns s t) L) eqn:O; [|discriminate]. injection H as <- <-. rewrite forallb_forall in O.
    assert (Ow : forall a, In a L -> m_own s a = Some t) by (intros a A; apply owns_eq; auto).
    pose proof (i_lock _ _ _ I _ _ _ T) as Wp.
    assert (Ag : agree L (m_val s) G).
    { intros a i A. apply (i_free _ _ _ I). intros u L1 p1 log R J. destruct (i_run _ _ _ I _ _ _ _ R) as (_ & B & _). specialize (B a J). rewrite (Ow a A) in B. injection B as <-. congruence. }
    destruct (alone_agree L p Wp _ _ Ag) as [Ag2 Eq]. exists (fst (alone p G)), (upd fut t (snd (alone p G))). split; [|auto]. constructor; cbn.
    + intros b u O'. destruct (i_own _ _ _ I b u O') as (L1 & p1 & X & Y). destruct (Nat.eq_dec u t) as [->|N].
      * rewrite T in X. destruct X as [X|[? X]]; [|discriminate X]. injection X as <- <-. exists L, p. rewrite upd_eq. eauto.
      * exists L1, p1. rewrite upd_neq by exact N. auto.
    + intros u L1 p1 log R. destruct (Nat.eq_dec u t) as [->|N].
      * rewrite upd_eq in R. injection R as <- <- <-. rewrite upd_eq. cbn. auto.
      * rewrite upd_neq in R by exact N. rewrite upd_neq by exact N. destruct (i_run _ _ _ I _ _ _ _ R) as (A & B & C & D). split; [exact A|split; [exact B|split; [|exact D]]].
        intros b i J. rewrite (alone_out L p Wp); [apply C; exact J|]. intros J2. specialize (B b J). rewrite (Ow b J2) in B. congruence.
    + intros u L1 p1 R. destruct (Nat.eq_dec u t) as [->|N]; [rewrite upd_eq in R; discriminate|]. rewrite upd_neq in R by exact N. eapply (i_lock _ _ _ I). exact R.
    + intros a i F. rewrite (alone_out L p Wp).
      * apply (i_free _ _ _ I). intros u L1 p1 log R. destruct (Nat.eq_dec u t) as [->|N]; [congruence|]. apply (F u L1 p1 log). rewrite upd_neq; auto.
      * apply (F t L p []). apply upd_eq.
  - destruct (m_thr s t) as [|L p|L p log] eqn:T; try discriminate. destruct (i_run _ _ _ I _ _ _ _ T) as (Wp & Ow & Ag & Fu). destruct p as [|a i k|a i v k]; [discriminate| |]; injection H as <- <-; exists G, fut; (split; [|auto]); cbn [within alone] in *.
    + destruct Wp as [Ia Wk]. destruct (alone (k (m_val s a i)) (m_val s)) as [d l] eqn:Al. cbn in Ag, Fu. constructor; cbn.
      * intros b u O'. destruct (i_own _ _ _ I b u O') as (L1 & p1 & X & Y). destruct (Nat.eq_dec u t) as [->|N].
        -- rewrite T in X. destruct X as [X|[? X]]; [discriminate X|]. injection X as <- <- <-. eexists L, _. rewrite upd_eq. eauto.
        -- exists L1, p1. rewrite upd_neq by exact N. auto.
      * intros u L1 p1 log1 R. destruct (Nat.eq_dec u t) as [->|N].
        -- rewrite upd_eq in R. injection R as <- <- <-. rewrite Al. cbn. split; [apply Wk|split; [exact Ow|split; [exact Ag|]]]. rewrite Fu, <- app_assoc. reflexivity.
        -- rewrite upd_neq in R by exact N. apply (i_run _ _ _ I). exact R.
      * intros u L1 p1 R. destruct (Nat.eq_dec u t) as [->|N]; [rewrite upd_eq in R; discriminate|]. rewrite upd_neq in R by exact N. eapply (i_lock _ _ _ I). exact R.
      * intros b j F. apply (i_free _ _ _ I). intros u L1 p1 log1 R. destruct (Nat.eq_dec u t) as [->|N].
        -- rewrite T in R. injection R as <- <- <-. eapply (F t). apply upd_eq.
        -- eapply (F u). rewrite upd_neq by exact N. exact R.
    + destruct Wp as [Ia Wk]. constructor; cbn.
      * intros b u O'. destruct (i_own _ _ _ I b u O') as (L1 & p1 & X & Y). destruct (Nat.eq_dec u t) as [->|N].
        -- rewrite T in X. destruct X as [X|[? X]]; [discriminate X|]. injection X as <- <- <-. eexists L, _. rewrite upd_eq. eauto.
        -- exists L1, p1. rewrite upd_neq by exact N. auto.
      * intros u L1 p1 log1 R. destruct (Nat.eq_dec u t) as [->|N].
        -- rewrite upd_eq in R. injection R as <- <- <-. split; [exact Wk|split; [exact Ow|split; [exact Ag|exact Fu]]].
        -- rewrite upd_neq in R by exact N. destruct (i_run _ _ _ I _ _ _ _ R) as (A & B & C & D).
           assert (Ag1 : agree L1 (upd2 (m_val s) a i v) (m_val s)).
           { intros b j J. unfold upd2. destruct (Nat.eqb_spec b a) as [->|]; [|reflexivity]. exfalso. apply N. specialize (B a J). rewrite (Ow a Ia) in B. congruence. }
           destruct (alone_agree L1 p1 A _ _ Ag1) as [X Y]. split; [exact A|split; [exact B|split]]; [|rewrite Y; exact D]. intros b j J. rewrite (X b j J). apply C. exact J.
      * intros u L1 p1 R. destruct (Nat.eq_dec u t) as [->|N]; [rewrite upd_eq in R; discriminate|]. rewrite upd_neq in R by exact N. eapply (i_lock _ _ _ I). exact R.
      * intros b j F. unfold upd2. destruct (Nat.eqb_spec b a) as [->|Nb]; cbn [andb].
        -- exfalso. apply (F t L k log); [apply upd_eq|exact Ia].
        -- apply (i_free _ _ _ I). intros u L1 p1 log1 R. destruct (Nat.eq_dec u t) as [->|N].
           ++ rewrite T in R. injection R as <- <- <-. eapply (F t). apply upd_eq.
           ++ eapply (F u). rewrite upd_neq by exact N. exact R.
  - destruct (m_thr s t) as [|L p|L p log] eqn:T; try discriminate. destruct p; try discriminate. injection H as <- <-. destruct (i_run _ _ _ I _ _ _ _ T) as (Wp & Ow & Ag & Fu). cbn in Ag, Fu. exists G, fut. split; [|split; [auto|rewrite Fu; symmetry; apply app_nil_r]]. constructor; cbn.
    + intros b u O'. unfold release in O'. destruct (owns s t b) eqn:Ob; [discriminate|]. destruct (Nat.eq_dec u t) as [->|N].
      * apply owns_eq in O'. congruence.
      * destruct (i_own _ _ _ I b u O') as (L1 & p1 & X & Y). exists L1, p1. rewrite upd_neq by exact N. auto.
    + intros u L1 p1 log1 R. destruct (Nat.eq_dec u t) as [->|N]; [rewrite upd_eq in R; discriminate|]. rewrite upd_neq in R by exact N. destruct (i_run _ _ _ I _ _ _ _ R) as (A & B & C).
      split; [exact A|split; [|exact C]]. intros b J. specialize (B b J). unfold release. destruct (owns s t b) eqn:Ob; [|exact B]. apply owns_eq in Ob. congruence.
    + intros u L1 p1 R. destruct (Nat.eq_dec u t) as [->|N]; [rewrite upd_eq in R; discriminate|]. rewrite upd_neq in R by exact N. eapply (i_lock _ _ _ I). exact R.
    + intros b i F. destruct (in_dec Nat.eq_dec b L) as [J|J]; [apply Ag; exact J|]. apply (i_free _ _ _ I). intros u L1 p1 log1 R. destruct (Nat.eq_dec u t) as [->|N].
      * rewrite T in R. injection R as <- <- <-. exact J.
      * eapply (F u). rewrite upd_neq by exact N. exact R.
  - destruct W.
Qed.

(** ** Traces: what entered, per thread, and what came out *)
(** the call of [t] that was announced and did not enter yet; that entered and did not end yet *)
Definition pending (s : mem) (t : nat) : list acts := match m_thr s t with TLocking L p => [p] | _ => [] end.
Definition live (s : mem) (fut : nat -> list Z) (t : nat) : list (list Z) := match m_thr s t with TRunning _ _ _ => [fut t] | _ => [] end.
Lemma step_calls s e s' x : t_step s e = Some (s', x) -> forall t,
  pending s t ++ calls_of t [e] = match entered s e with Some (u, p) => if u =? t then [p] else [] | None => [] end ++ pending s' t.
Proof.
  intros H t. destruct e as [u L p|u a|u a|u|u|u|a]; cbn [t_step] in H; cbn [calls_of flat_map entered].
  - destruct (m_thr s u) eqn:T; try discriminate. injection H as <- <-. unfold pending. cbn. unfold upd. rewrite (Nat.eqb_sym t u). destruct (Nat.eqb_spec u t) as [->|]; cbn; rewrite ?app_nil_r; [rewrite T|]; reflexivity.
  - destruct (m_thr s u) eqn:T; try discriminate. destruct (m_own s a); try discriminate. destruct (existsb _ _); [|discriminate]. injection H as <- <-. rewrite app_nil_r. reflexivity.
  - destruct (m_thr s u) eqn:T; try discriminate. destruct (owns s u a); [|discriminate]. injection H as <- <-. rewrite app_nil_r. reflexivity.
  - destruct (m_thr s u) eqn:T; try discriminate. destruct (forallb _ _); [|discriminate]. injection H as <- <-. unfold pending. cbn. unfold upd. rewrite (Nat.eqb_sym t u). destruct (Nat.eqb_spec u t) as [->|]; cbn; rewrite ?app_nil_r; [rewrite T|]; reflexivity.
  - destruct (m_thr s u) eqn:T; try discriminate. destruct p; [discriminate| |]; injection H as <- <-; unfold pending; cbn; unfold upd; rewrite (Nat.eqb_sym t u); destruct (Nat.eqb_spec u t) as [->|]; cbn; rewrite ?app_nil_r; [rewrite T|..]; try reflexivity; rewrite T; reflexivity.
  - destruct (m_thr s u) eqn:T; try discriminate. destruct p; try discriminate. injection H as <- <-. unfold pending; cbn; unfold upd; rewrite (Nat.eqb_sym t u); destruct (Nat.eqb_spec u t) as [->|]; cbn; rewrite ?app_nil_r; [rewrite T|..]; reflexivity.
  - injection H as <- <-. rewrite app_nil_r. reflexivity.
Qed.
Lemma step_results s e s' x fut fut' : t_step s e = Some (s', x) ->
  (match entered s e with Some (u, p) => exists l, fut' = upd fut u l | None => fut' = fut end) ->
  (match x with Some (t, log) => log = fut t | None => True end) -> forall t,
  live s fut t ++ match entered s e with Some (u, p) => if u =? t then [fut' u] else [] | None => [] end = match x with Some (u, log) => if u =? t then [log] else [] | None => [] end ++ live s' fut' t.
Proof.
  intros H F X t. destruct e as [u L p|u a|u a|u|u|u|a]; cbn [t_step] in H; cbn [entered] in *.
  - subst fut'. destruct (m_thr s u) eqn:T; try discriminate. injection H as <- <-. unfold live. cbn. unfold upd. rewrite (Nat.eqb_sym t u). destruct (Nat.eqb_spec u t) as [->|]; cbn; rewrite ?app_nil_r; [rewrite T|]; reflexivity.
  - subst fut'. destruct (m_thr s u) eqn:T; try discriminate. destruct (m_own s a); try discriminate. destruct (existsb _ _); [|discriminate]. injection H as <- <-. rewrite app_nil_r. reflexivity.
  - subst fut'. destruct (m_thr s u) eqn:T; try discriminate. destruct (owns s u a); [|discriminate]. injection H as <- <-. rewrite app_nil_r. reflexivity.
  - destruct (m_thr s u) eqn:T; try discriminate. destruct F as [l ->]. destruct (forallb _ _); [|discriminate]. injection H as <- <-. unfold live. cbn. unfold upd. rewrite Nat.eqb_refl, (Nat.eqb_sym t u). destruct (Nat.eqb_spec u t) as [->|]; cbn; rewrite ?app_nil_r; [rewrite T|]; reflexivity.
  - subst fut'. destruct (m_thr s u) eqn:T; try discriminate. destruct p; [discriminate| |]; injection H as <- <-; unfold live; cbn; unfold upd; rewrite (Nat.eqb_sym t u); destruct (Nat.eqb_spec u t) as [->|]; cbn; rewrite ?app_nil_r; rewrite ?T; reflexivity.
  - subst fut'. destruct (m_thr s u) eqn:T; try discriminate. destruct p; try discriminate. injection H as <- <-. unfold live; cbn; unfold upd; rewrite (Nat.eqb_sym t u); destruct (Nat.eqb_spec u t) as [->|]; cbn; rewrite ?app_nil_r; [rewrite T, X|..]; reflexivity.
  - subst fut'. injection H as <- <-. rewrite app_nil_r. reflexivity.
Qed.
Lemma run_snoc es : forall s e s2 xs, t_run s (es ++ [e]) = Some (s2, xs) -> exists s1 xs1 x, t_run s es = Some (s1, xs1) /\ t_step s1 e = Some (s2, x) /\ xs = xs1 ++ match x with Some y => [y] | None => [] end.
Proof.
  induction es as [|a es IH]; intros s e s2 xs H; cbn [app t_run] in *.
  - destruct (t_step s e) as [[s1 x]|] eqn:E; [|discriminate]. cbn in H. injection H as <- <-. exists s, [], x. repeat split; auto; destruct x; reflexivity.
  - destruct (t_step s a) as [[s1 x]|] eqn:E; [|discriminate]. cbn [bind fst snd] in *. destruct (t_run s1 (es ++ [e])) as [[s3 ys]|] eqn:R; [|discriminate]. cbn in H. injection H as <- <-.
    destruct (IH _ _ _ _ R) as (s4 & xs1 & y & R1 & E1 & ->). rewrite R1. exists s4, (match x with Some z => z :: xs1 | None => xs1 end), y. cbn. repeat split; auto. destruct x; reflexivity.
Qed.
Lemma of_thread_app t a b : of_thread t (a ++ b) = of_thread t a ++ of_thread t b. Proof. apply flat_map_app. Qed.
Lemma calls_app t a b : calls_of t (a ++ b) = calls_of t a ++ calls_of t b. Proof. apply flat_map_app. Qed.
Lemma results_app t a b : results_of t (a ++ b) = results_of t a ++ results_of t b. Proof. apply flat_map_app. Qed.
Lemma run_serial c es : forall s xs, t_run (m_start c) es = Some (s, xs) -> Forall call_within es ->
  exists G fut ser, inv G fut s /\ serial c ser G /\
    (forall t, calls_of t es = map fst (of_thread t ser) ++ pending s t) /\ (forall t, map snd (of_thread t ser) = results_of t xs ++ live s fut t).
Proof.
  induction es as [|e es IH] using rev_ind; intros s xs R W.
  - cbn in R. injection R as <- <-. exists c, (fun _ => []), []. split; [apply inv_start|]. split; [constructor; auto|]. split; reflexivity.
  - destruct (run_snoc _ _ _ _ _ R) as (s1 & xs1 & x & R1 & E & ->). apply Forall_app in W. destruct W as [W1 W2]. inversion W2 as [|? ? We _]; subst.
    destruct (IH _ _ R1 W1) as (G & fut & ser & I & S & C & O). destruct (step_inv _ _ _ _ _ _ I We E) as (G' & fut' & I' & En & X).
    exists G', fut'. destruct (entered s1 e) as [[t p]|] eqn:Ee.
    + destruct En as [-> ->]. exists (ser ++ [(t, p, snd (alone p G))]). split; [exact I'|]. split; [|split].
      * eapply s_snoc; [exact S| |reflexivity]. destruct (alone p G); reflexivity.
      * intros u. rewrite calls_app, C, <- app_assoc, (step_calls _ _ _ _ E u), Ee, of_thread_app, map_app. cbn. rewrite <- app_assoc. f_equal. destruct (t =? u); reflexivity.
      * intros u. rewrite of_thread_app, map_app, O, results_app, <- !app_assoc. f_equal.
        assert (X' : match x with Some (t, log) => log = fut t | None => True end) by exact X.
        assert (F2 : match entered s1 e with Some (u, p0) => exists l, upd fut t (snd (alone p G)) = upd fut u l | None => upd fut t (snd (alone p G)) = fut end) by (rewrite Ee; eauto).
        pose proof (step_results _ _ _ _ fut (upd fut t (snd (alone p G))) E F2 X' u) as Q. rewrite Ee in Q. rewrite upd_eq in Q.
        transitivity (live s1 fut u ++ (if t =? u then [snd (alone p G)] else [])); [f_equal; cbn; destruct (t =? u); reflexivity|]. rewrite Q. f_equal. destruct x as [[v log]|]; cbn; [destruct (v =? u); reflexivity|reflexivity].
    + destruct En as [-> ->]. exists ser. split; [exact I'|]. split; [exact S|]. split.
      * intros u. rewrite calls_app, C, <- app_assoc, (step_calls _ _ _ _ E u), Ee. reflexivity.
      * intros u. rewrite O, results_app, <- app_assoc. f_equal. assert (F2 : match entered s1 e with Some (u, p0) => exists l, fut = upd fut u l | None => fut = fut end) by (rewrite Ee; reflexivity).
        pose proof (step_results _ _ _ _ fut fut E F2 X u) as Q. rewrite Ee, app_nil_r in Q. rewrite Q. f_equal. destruct x as [[v log]|]; cbn; [destruct (v =? u); reflexivity|reflexivity].
Qed.

(** ** A thread that waits for its locks can always be let in *)
Lemma run_app es1 : forall s es2, t_run s (es1 ++ es2) = (q <- t_run s es1 ;; q' <- t_run (fst q) es2 ;; Some (fst q', snd q ++ snd q')).
Proof.
  induction es1 as [|e es1 IH]; intros s es2; cbn [app t_run].
  - cbn. destruct (t_run s es2) as [[a b]|]; reflexivity.
  - destruct (t_step s e) as [[s1 x]|]; [|reflexivity]. cbn [bind fst snd]. rewrite IH. destruct (t_run s1 es1) as [[s2 ys]|]; [|reflexivity]. cbn [bind fst snd]. destruct (t_run s2 es2) as [[s3 zs]|]; [|reflexivity]. cbn. destruct x; reflexivity.
Qed.
(** a running thread can be run to its end; nothing else changes *)
Lemma finish_thread p : forall s u L log, m_thr s u = TRunning L p log -> exists es s' xs, t_run s es = Some (s', xs) /\ Forall call_within es /\ m_thr s' u = TIdle /\
  (forall t, t <> u -> m_thr s' t = m_thr s t) /\ (forall a, m_own s' a = if owns s u a then None else m_own s a).
Proof.
  induction p as [|a i k IH|a i v k IH]; intros s u L log T.
  - exists [TExit u]. cbn [t_run t_step]. rewrite T. cbn. eexists _, _. split; [reflexivity|]. split; [repeat constructor|]. cbn. split; [apply upd_eq|]. split; [|reflexivity]. intros t N. apply upd_neq. exact N.
  - destruct (IH (m_val s a i) (mk_mem (m_own s) (m_val s) (upd (m_thr s) u (TRunning L (k (m_val s a i)) (log ++ [m_val s a i])))) u L (log ++ [m_val s a i])) as (es & s' & xs & R & W & A & B & C); [cbn; apply upd_eq|].
    exists (TAccess u :: es), s', xs. split; [cbn [t_run t_step]; rewrite T; cbn [bind fst snd]; rewrite R; reflexivity|]. split; [constructor; [exact I|exact W]|]. split; [exact A|]. split; [|exact C]. intros t N. rewrite B by exact N. cbn. apply upd_neq. exact N.
  - destruct (IH (mk_mem (m_own s) (upd2 (m_val s) a i v) (upd (m_thr s) u (TRunning L k log))) u L log) as (es & s' & xs & R & W & A & B & C); [cbn; apply upd_eq|].
    exists (TAccess u :: es), s', xs. split; [cbn [t_run t_step]; rewrite T; cbn [bind fst snd]; rewrite R; reflexivity|]. split; [constructor; [exact I|exact W]|]. split; [exact A|]. split; [|exact C]. intros t N. rewrite B by exact N. cbn. apply upd_neq. exact N.
Qed.
Definition sound (s : mem) : Prop := forall a t, m_own s a = Some t -> exists L p, (m_thr s t = TLocking L p \/ exists log, m_thr s t = TRunning L p log) /\ In a L.
Lemma grab_one s t L p a : sound s -> m_thr s t = TLocking L p -> In a L -> exists es s' xs, t_run s es = Some (s', xs) /\ Forall call_within es /\ sound s' /\ m_thr s' t = TLocking L p /\ m_own s' a = Some t /\
  (forall b, m_own s b = Some t -> m_own s' b = Some t).
Proof.
  intros So T Ia. assert (Ex : existsb (Nat.eqb a) L = true) by (apply existsb_exists; exists a; split; [exact Ia|apply Nat.eqb_refl]).
  assert (Take : forall s, sound s -> m_thr s t = TLocking L p -> m_own s a = None -> exists s', t_step s (TGrab t a) = Some (s', None) /\ sound s' /\ m_thr s' t = TLocking L p /\ m_own s' a = Some t /\ (forall b, m_own s b = Some t -> m_own s' b = Some t)).
  { clear s So T. intros s So T O. cbn [t_step]. rewrite T, O, Ex. eexists. split; [reflexivity|]. cbn. split; [|split; [exact T|split; [apply upd_eq|]]].
    - intros b u O'. destruct (Nat.eq_dec b a) as [->|N]; [cbn in O'; rewrite upd_eq in O'; injection O' as <-; cbn; eauto|]. cbn in O'. rewrite upd_neq in O' by exact N. apply So. exact O'.
    - intros b O'. destruct (Nat.eq_dec b a) as [->|N]; [apply upd_eq|rewrite upd_neq; auto]. }
  destruct (m_own s a) as [u|] eqn:O.
  - destruct (Nat.eq_dec u t) as [->|N]; [exists [], s, []; cbn; repeat split; auto|]. destruct (So a u O) as (L1 & p1 & [U|[log U]] & J).
    + destruct (Take (mk_mem (upd (m_own s) a None) (m_val s) (m_thr s))) as (s' & E & S' & T' & O' & K'); [|exact T|apply upd_eq|].
      { intros b w Ow. cbn in Ow. destruct (Nat.eq_dec b a) as [->|Nb]; [rewrite upd_eq in Ow; discriminate|]. rewrite upd_neq in Ow by exact Nb. apply So. exact Ow. }
      exists [TDrop u a; TGrab t a], s', []. split; [|split; [repeat constructor|split; [exact S'|split; [exact T'|split; [exact O'|]]]]].
      * cbn [t_run]. cbn [t_step] in *. rewrite U. assert (Ow : owns s u a = true) by (apply owns_eq; exact O). rewrite Ow. cbn [bind fst snd]. rewrite E. reflexivity.
      * intros b Ob. apply K'. cbn. rewrite upd_neq; [exact Ob|]. intros ->. congruence.
    + destruct (finish_thread p1 s u L1 log U) as (es & s1 & xs & R & W & A & B & C). assert (Oa : m_own s1 a = None) by (rewrite C; assert (Ow : owns s u a = true) by (apply owns_eq; exact O); rewrite Ow; reflexivity).
      destruct (Take s1) as (s' & E & S' & T' & O' & K'); [|rewrite B by auto; exact T|exact Oa|].
      { intros b w Ow. rewrite C in Ow. destruct (owns s u b) eqn:Ob; [discriminate|]. destruct (So b w Ow) as (L2 & p2 & X & Y). exists L2, p2. split; [|exact Y]. rewrite B; [exact X|]. intros ->. apply owns_eq in Ow. congruence. }
      exists (es ++ [TGrab t a]), s', xs. split; [|split; [apply Forall_app; split; [exact W|repeat constructor]|split; [exact S'|split; [exact T'|split; [exact O'|]]]]].
      * rewrite run_app, R. cbn [bind fst snd t_run]. rewrite E. cbn. rewrite app_nil_r. reflexivity.
      * intros b Ob. apply K'. rewrite C. destruct (owns s u b) eqn:Q; [|exact Ob]. apply owns_eq in Q. congruence.
  - destruct (Take s So T O) as (s' & E & S' & T' & O' & K'). exists [TGrab t a], s', []. split; [cbn [t_run]; rewrite E; reflexivity|]. split; [repeat constructor|auto].
Qed.
Lemma grab_all M : forall s t L p, sound s -> m_thr s t = TLocking L p -> incl M L -> exists es s' xs, t_run s es = Some (s', xs) /\ Forall call_within es /\ sound s' /\ m_thr s' t = TLocking L p /\
  (forall b, In b M \/ m_own s b = Some t -> m_own s' b = Some t).
Proof.
  induction M as [|a M IH]; intros s t L p So T In'.
  - exists [], s, []. cbn. repeat split; auto. intros b [[]|H]; exact H.
  - destruct (grab_one s t L p a So T (In' a (or_introl eq_refl))) as (es & s1 & xs & R & W & S1 & T1 & O1 & K1). destruct (IH s1 t L p S1 T1) as (es2 & s2 & ys & R2 & W2 & S2 & T2 & K2); [intros b B; apply In'; right; exact B|].
    exists (es ++ es2), s2, (xs ++ ys). rewrite run_app, R. cbn [bind fst snd]. rewrite R2. cbn. split; [reflexivity|]. split; [apply Forall_app; auto|]. split; [exact S2|]. split; [exact T2|]. intros b [[<-|B]|B]; apply K2; auto.
Qed.
