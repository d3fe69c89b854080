(** The monitor refines the specification. *)
From Coq Require Import List Arith NArith Lia Bool.
From Verif Require Import Base EntryListModel MatchUnitModel MatchUnitSpec MatchUnitProofs AgeModel AgeSpec.
Import ListNotations.

Section Age.
Context {V : Type}.
(** A table, its specification, the last time recorded *)
Definition trel (last : N) (a : atab V) (s : stt V) : Prop :=
  at_id a = st_id s /\ at_kd a = st_kd s /\ at_nb a = st_nb s /\ (N.of_nat (st_size s) <= 2 ^ 24)%N /\ at_prev a = st_last s /\
  exists cache, MR (st_kd s) (st_nb s) (st_size s) cache last (at_u a) (st_tab s).
Inductive rel : list N -> list (atab V) -> list (stt V) -> Prop :=
| r_nil : rel [] [] []
| r_cons n a s ns l m : trel n a s -> rel ns l m -> rel (n :: ns) (a :: l) (s :: m).
Lemma rel_nth ns l m : rel ns l m -> forall k, match nth_error ns k, nth_error l k, nth_error m k with Some n, Some a, Some s => trel n a s | None, None, None => True | _, _, _ => False end.
Proof. induction 1 as [|n a s ns l m T R IH]; intros [|k]; cbn [nth_error]; [exact I|exact I|exact T|exact (IH k)]. Qed.
Lemma rel_set ns l m : rel ns l m -> forall k n a s, k < length m -> trel n a s -> rel (list_set ns k n) (list_set l k a) (list_set m k s).
Proof.
  induction 1 as [|n a s ns l m T R IH]; intros k n' a' s' Hk T'; [cbn in Hk; lia|]. destruct k as [|k]; cbn [list_set]; constructor; auto. apply IH; auto. cbn in Hk. lia.
Qed.
Lemma rel_len ns l m : rel ns l m -> length ns = length m /\ length l = length m.
Proof. induction 1 as [|n a s ns l m T R [IH1 IH2]]; cbn; lia. Qed.
Lemma found_In h l : found h l = true <-> In h l.
Proof. unfold found. rewrite existsb_exists. split; [intros (x & I & E); apply N.eqb_eq in E; subst; exact I|intros I; exists h; split; [exact I|apply N.eqb_refl]]. Qed.
Lemma filter_unreported r l : filter (fun h => negb (found h r)) l = unreported r l.
Proof.
  unfold unreported. induction l as [|h l IH]; [reflexivity|]. cbn [filter]. rewrite IH. destruct (in_dec N.eq_dec h r) as [I|I].
  - rewrite (proj2 (found_In h r) I). reflexivity.
  - destruct (found h r) eqn:F; [apply found_In in F; contradiction|]. reflexivity.
Qed.
Lemma sweep_inv kd nb size (t : stab V) now x t' : mspec_step kd nb size t (MSweep now) x t' -> t' = t /\ exists l, x = MHandles (map (handle_of t) l) /\ forall i, In i l <-> aged t now i.
Proof. intros H. inversion H; subst. split; [reflexivity|]. eexists. split; [reflexivity|assumption]. Qed.
Lemma sweep_table_eq a now b u (hs : list N) : mu_sweep (at_u a) now = Some (u, MHandles (V := V) hs) -> sweep_table a now [] [] b =
  match unreported (at_prev a) hs with [] => Some (mk_at (at_id a) (at_kd a) (at_nb a) u [], [], [], b, []) | h :: r => Some (mk_at (at_id a) (at_kd a) (at_nb a) u (h :: r), [], [], ((b + 1) mod 2 ^ 64)%N, [(b, at_id a, h :: r)]) end.
Proof. intros E. unfold sweep_table. rewrite E. cbn [app]. destruct hs as [|h0 hs]; [reflexivity|]. rewrite filter_unreported. destruct (unreported (at_prev a) (h0 :: hs)); reflexivity. Qed.
Definition oks (ns : list N) (m : list (stt V)) (es : list (aev V)) : Prop :=
  Forall (ev_fits (length m)) es /\ forall k s n, nth_error m k = Some s -> nth_error ns k = Some n -> ops_ok (st_kd s) (st_nb s) n (proj k es).
Lemma sweeps_ok ns l m : rel ns l m -> forall nows b, length nows = length m -> (forall k n now, nth_error ns k = Some n -> nth_error nows k = Some now -> (n <= now)%N) ->
  exists l' b' msgs m', do_sweep l nows [] [] b = Some (l', [], [], b', msgs) /\ sweeps m nows b msgs m' b' /\ rel ns l' m' /\ map st_kd m' = map st_kd m /\ map st_nb m' = map st_nb m.
Proof.
  induction 1 as [|n a s ns l m T R IH]; intros nows b Ln Le; destruct nows as [|now nows]; cbn in Ln; try lia.
  { exists [], b, [], []. repeat split; auto; constructor. }
  assert (Ln' : length nows = length m) by lia. assert (Le' : forall k n now, nth_error ns k = Some n -> nth_error nows k = Some now -> (n <= now)%N) by (intros k; exact (Le (S k))).
  destruct T as (T1 & T2 & T3 & T4 & T5 & cache & M).
  destruct (step_ok (st_kd s) (st_nb s) (st_size s) cache T4 n (at_u a) (st_tab s) (MSweep now) [] M) as (u' & x & t' & E & Sp & M').
  { split; [|exact I]. exact (Le 0 n now eq_refl eq_refl). }
  cbn [mu_step] in E. cbn [op_time] in M'. rewrite N.max_0_r in M'. destruct (sweep_inv _ _ _ _ _ _ _ Sp) as (-> & l1 & -> & _).
  cbn [do_sweep]. rewrite (sweep_table_eq _ _ b _ _ E), T5. set (hs := map (handle_of (st_tab s)) l1) in *.
  destruct (unreported (st_last s) hs) as [|h r] eqn:U.
  - destruct (IH nows b Ln' Le') as (l' & b' & msgs & m' & E2 & Sw & R2 & K1 & K2).
    exists (mk_at (at_id a) (at_kd a) (at_nb a) u' [] :: l'), b', msgs, (set_last s [] :: m').
    rewrite E2. split; [reflexivity|]. split; [eapply sw_quiet; [exact Sp|exact U|exact Sw]|]. split.
    + constructor; [|exact R2]. repeat split; cbn; auto. exists cache. exact M'.
    + cbn. rewrite K1, K2. auto.
  - destruct (IH nows ((b + 1) mod 2 ^ 64)%N Ln' Le') as (l' & b' & msgs & m' & E2 & Sw & R2 & K1 & K2).
    exists (mk_at (at_id a) (at_kd a) (at_nb a) u' (h :: r) :: l'), b', ((b, st_id s, h :: r) :: msgs), (set_last s (h :: r) :: m').
    rewrite E2, T1. split; [reflexivity|]. split.
    + rewrite <- U. apply sw_report; [exact Sp|rewrite U; discriminate|exact Sw].
    + split; [|cbn; rewrite K1, K2; auto]. constructor; [|exact R2]. repeat split; cbn; auto. exists cache. exact M'.
Qed.
Definition arel (ns : list N) (s : amon V) (p : list (stt V) * N) : Prop := rel ns (am_tabs s) (fst p) /\ am_ent s = [] /\ am_tmp s = [] /\ am_bid s = snd p.
Lemma map_nth_eq {A B} (f : A -> B) l m k a : map f m = map f l -> nth_error m k = Some a -> exists b, nth_error l k = Some b /\ f b = f a.
Proof.
  intros E H. assert (X : nth_error (map f m) k = Some (f a)) by (apply map_nth_error; exact H). rewrite E in X.
  destruct (nth_error l k) as [b|] eqn:Q.
  - rewrite (map_nth_error f k l Q) in X. exists b. split; [reflexivity|congruence].
  - apply nth_error_None in Q. assert (Y : nth_error (map f l) k = None) by (apply nth_error_None; rewrite map_length; exact Q). congruence.
Qed.
Lemma a_step_ok ns s p e es : arel ns s p -> oks ns (fst p) (e :: es) ->
  exists ns' s' x p', a_step s e = Some (s', x) /\ aspec_step p e x p' /\ arel ns' s' p' /\ oks ns' (fst p') es.
Proof.
  intros (R & E1 & E2 & E3) [F O]. inversion F as [|? ? F1 F2]; subst. destruct p as [m b]. cbn [fst snd] in *. destruct e as [k o|nows|]; cbn [ev_fits] in F1; cbn [a_step].
  - pose proof (rel_nth _ _ _ R k) as Rk. destruct (nth_error m k) as [st|] eqn:Nm; [|apply nth_error_None in Nm; lia].
    destruct (nth_error ns k) as [n|] eqn:Nn; destruct (nth_error (am_tabs s) k) as [a|] eqn:Na; try contradiction.
    destruct Rk as (T1 & T2 & T3 & T4 & T5 & cache & M). pose proof (O k st n Nm Nn) as Ok. cbn [proj] in Ok. rewrite Nat.eqb_refl in Ok.
    destruct (step_ok (st_kd st) (st_nb st) (st_size st) cache T4 n (at_u a) (st_tab st) o _ M Ok) as (u' & x & t' & E & Sp & M'). rewrite T2, T3, E.
    exists (list_set ns k (N.max n (op_time o))). eexists. eexists. exists (list_set m k (set_tab st t'), b). split; [reflexivity|]. split; [econstructor; eauto|]. split.
    + split; [|auto]. cbn [am_tabs fst]. apply rel_set; [exact R|exact F1|]. repeat split; cbn; auto. exists cache. exact M'.
    + split; [cbn [fst]; rewrite list_set_length; exact F2|]. cbn [fst]. intros j sj nj Hs Hn. destruct (Nat.eq_dec j k) as [->|Nj].
      * rewrite nth_error_list_set_eq in Hs by exact F1. rewrite nth_error_list_set_eq in Hn by (apply rel_len in R; lia). injection Hs as <-. injection Hn as <-. cbn. exact (proj2 Ok).
      * rewrite nth_error_list_set_neq in Hs by congruence. rewrite nth_error_list_set_neq in Hn by congruence. pose proof (O j sj nj Hs Hn) as Oj. cbn [proj] in Oj. rewrite (proj2 (Nat.eqb_neq k j)) in Oj by congruence. exact Oj.
  - rewrite E1, E2, E3. destruct (sweeps_ok _ _ _ R nows b F1) as (l' & b' & msgs & m' & E & Sw & R' & K1 & K2).
    { intros k n now Hn Hw. assert (exists st, nth_error m k = Some st) as [st Hs]. { destruct (nth_error m k) eqn:Q; [eauto|]. pose proof (rel_nth _ _ _ R k) as Rk. rewrite Q, Hn in Rk. destruct (nth_error (am_tabs s) k); contradiction. }
      pose proof (O k st n Hs Hn) as Ok. cbn [proj] in Ok. rewrite Hw in Ok. exact (proj1 Ok). }
    rewrite E. exists ns. eexists. eexists. exists (m', b'). split; [reflexivity|]. split; [constructor; exact Sw|]. split; [split; [exact R'|auto]|].
    split; cbn [fst].
    + replace (length m') with (length m); [exact F2|]. apply rel_len in R, R'. lia.
    + intros k st n Hs Hn. destruct (map_nth_eq st_kd m m' k st K1 Hs) as (st0 & H0 & Q1). destruct (map_nth_eq st_nb m m' k st K2 Hs) as (st1 & H1 & Q2). rewrite H0 in H1. injection H1 as <-.
      pose proof (O k st0 n H0 Hn) as Ok. cbn [proj] in Ok. rewrite <- Q1, <- Q2.
      destruct (nth_error nows k) as [w|] eqn:Hw; [destruct Ok as [_ Ok]; cbn [op_time] in Ok; rewrite N.max_0_r in Ok; exact Ok|exact Ok].
  - exists ns. eexists. eexists. exists (map (fun s => set_last s []) m, 0%N). split; [reflexivity|]. split; [constructor|]. split.
    + split; [|auto]. cbn. clear - R. induction R as [|n a s0 ns l m T R IH]; constructor; auto. destruct T as (T1 & T2 & T3 & T4 & T5 & cache & M). repeat split; cbn; auto. exists cache. exact M.
    + split; cbn [fst]; [rewrite map_length; exact F2|]. intros k st n Hs Hn. destruct (nth_error m k) as [s0|] eqn:Q.
      * rewrite (map_nth_error _ k m Q) in Hs. injection Hs as <-. exact (O k s0 n Q Hn).
      * apply nth_error_None in Q. rewrite (proj2 (nth_error_None _ _)) in Hs by (rewrite map_length; exact Q). discriminate.
Qed.
Lemma a_run_ok es : forall ns s p, arel ns s p -> oks ns (fst p) es -> exists s' xs p', a_run s es = Some (s', xs) /\ aspec_run p es xs p'.
Proof.
  induction es as [|e es IH]; intros ns s p R O; cbn [a_run]; [eexists; eexists; eexists; split; [reflexivity|constructor]|].
  destruct (a_step_ok _ _ _ _ _ R O) as (ns' & s' & x & p' & E & Sp & R' & O'). rewrite E. destruct (IH _ _ _ R' O') as (s'' & xs & p'' & E2 & Sp2). rewrite E2.
  eexists; eexists; eexists. split; [reflexivity|]. econstructor; eauto.
Qed.
Lemma new_ok cfg es : hist_ok cfg es -> arel (repeat 0%N (length cfg)) (@a_new V cfg) (s_new cfg) /\ oks (repeat 0%N (length cfg)) (fst (@s_new V cfg)) es.
Proof.
  intros [F H]. split.
  - split; [|auto]. assert (H' : forall k id kd nb size cache, nth_error cfg k = Some (id, kd, nb, size, cache) -> (N.of_nat size <= 2 ^ 24)%N) by (intros; eapply H; eauto). clear F H.
    cbn [a_new s_new am_tabs fst]. induction cfg as [|[[[[id kd] nb] size] cache] cfg IH]; cbn; constructor.
    + pose proof (H' 0 id kd nb size cache eq_refl) as Hs. repeat split; cbn; auto. exists cache. apply MR_new.
    + apply IH. intros k. exact (H' (S k)).
  - split; cbn [s_new fst]; [rewrite map_length; exact F|]. intros k s n Hs Hn. apply nth_error_In in Hn. apply repeat_spec in Hn. subst n.
    destruct (nth_error cfg k) as [[[[[id kd] nb] size] cache]|] eqn:Q.
    + rewrite (map_nth_error _ k cfg Q) in Hs. injection Hs as <-. cbn. eapply H; eauto.
    + apply nth_error_None in Q. rewrite (proj2 (nth_error_None _ _)) in Hs by (rewrite map_length; exact Q). discriminate.
Qed.

(** ** Reading the specification *)
Lemma run_app (p : list (stt V) * N) es xs p' : aspec_run p es xs p' -> forall es1 es2, es = es1 ++ es2 -> exists xs1 xs2 q, xs = xs1 ++ xs2 /\ length xs1 = length es1 /\ aspec_run p es1 xs1 q /\ aspec_run q es2 xs2 p'.
Proof.
  induction 1 as [s|s e x s' es xs s'' St R IH]; intros es1 es2 E.
  - destruct es1; [|discriminate]. cbn in E. subst. exists [], [], s. repeat split; constructor.
  - destruct es1 as [|e1 es1]; cbn in E.
    + subst. exists [], (x :: xs), s. repeat split; [constructor|econstructor; eauto].
    + injection E as <- E. destruct (IH _ _ E) as (xs1 & xs2 & q & -> & L & R1 & R2). exists (x :: xs1), xs2, q. repeat split; [cbn; lia|econstructor; eauto|exact R2].
Qed.
Definition keeps_id (a b : stt V) : Prop := st_id a = st_id b /\ st_kd a = st_kd b /\ st_nb a = st_nb b /\ st_size a = st_size b.
Lemma sweeps_nth (l : list (stt V)) nows b m l' b' : sweeps l nows b m l' b' -> forall k s, nth_error l k = Some s -> exists now hs s',
  nth_error nows k = Some now /\ nth_error l' k = Some s' /\ keeps_id s s' /\ st_tab s' = st_tab s /\ st_last s' = unreported (st_last s) hs /\
  mspec_step (st_kd s) (st_nb s) (st_size s) (st_tab s) (MSweep now) (MHandles hs) (st_tab s).
Proof.
  induction 1 as [b|s0 l now nows b m l' b' hs Sp U Sw IH|s0 l now nows b m l' b' hs Sp U Sw IH]; intros k s Hk.
  - destruct k; discriminate.
  - destruct k as [|k]; [|exact (IH k s Hk)]. cbn in Hk. injection Hk as <-. exists now, hs. eexists. split; [reflexivity|]. split; [reflexivity|]. repeat split; auto.
  - destruct k as [|k]; [|exact (IH k s Hk)]. cbn in Hk. injection Hk as <-. exists now, hs. eexists. split; [reflexivity|]. split; [reflexivity|]. repeat split; auto.
Qed.
Lemma sweeps_len (l : list (stt V)) nows b m l' b' : sweeps l nows b m l' b' -> length l' = length l.
Proof. induction 1; cbn; lia. Qed.
Lemma sweeps_ids (l : list (stt V)) nows b m l' b' : sweeps l nows b m l' b' -> map st_id l' = map st_id l.
Proof. induction 1; cbn; congruence. Qed.
Lemma reported_other m id : (forall x, In x m -> snd (fst x) <> id) -> reported id m = [].
Proof.
  unfold reported. induction m as [|x m IH]; intros H; [reflexivity|]. cbn [flat_map]. destruct (N.eqb_spec (snd (fst x)) id) as [E|_]; [exfalso; exact (H x (or_introl eq_refl) E)|].
  apply IH. intros y Hy. exact (H y (or_intror Hy)).
Qed.
Lemma sweeps_msg_ids (l : list (stt V)) nows b m l' b' : sweeps l nows b m l' b' -> forall x, In x m -> In (snd (fst x)) (map st_id l).
Proof. induction 1 as [|s l now nows b m l' b' hs Sp U Sw IH|s l now nows b m l' b' hs Sp U Sw IH]; intros x I; cbn; [contradiction|right; auto|destruct I as [<-|I]; [left; reflexivity|right; auto]]. Qed.
Lemma sweeps_reported (l : list (stt V)) nows b m l' b' : sweeps l nows b m l' b' -> NoDup (map st_id l) -> forall k s', nth_error l' k = Some s' -> reported (st_id s') m = st_last s'.
Proof.
  induction 1 as [b|s0 l now nows b m l' b' hs Sp U Sw IH|s0 l now nows b m l' b' hs Sp U Sw IH]; intros D k s' Hk; cbn [map] in D; inversion D as [|? ? D1 D2]; subst || clear D.
  - destruct k; discriminate.
  - destruct k as [|k]; [|exact (IH D2 k s' Hk)]. cbn in Hk. injection Hk as <-. cbn [set_last st_id st_last]. apply reported_other. intros x I E. apply D1. rewrite <- E. eapply sweeps_msg_ids; eauto.
  - cbn [reported flat_map fst snd]. destruct k as [|k].
    + cbn in Hk. injection Hk as <-. cbn [set_last st_id st_last]. rewrite N.eqb_refl. fold (reported (st_id s0) m). rewrite reported_other, app_nil_r; [reflexivity|].
      intros x I E. apply D1. rewrite <- E. eapply sweeps_msg_ids; eauto.
    + cbn in Hk. fold (reported (st_id s') m). rewrite (IH D2 k s' Hk). destruct (N.eqb_spec (st_id s0) (st_id s')) as [E|_]; [|reflexivity].
      exfalso. apply D1. rewrite E. rewrite <- (sweeps_ids _ _ _ _ _ _ Sw). apply in_map. eapply nth_error_In; eauto.
Qed.
(** Each table goes through its own history *)
Lemma run_proj (p : list (stt V) * N) es xs p' : aspec_run p es xs p' -> forall k s, nth_error (fst p) k = Some s -> exists outs s', nth_error (fst p') k = Some s' /\ keeps_id s s' /\
  mspec_run (st_kd s) (st_nb s) (st_size s) (st_tab s) (proj k es) outs (st_tab s').
Proof.
  induction 1 as [q|q e x q' es xs q'' St R IH]; intros k s Hs.
  { exists [], s. repeat split; auto. constructor. }
  inversion St as [l b j o sj y t Hj Sp|l b nows m l' b' Sw|l b]; subst; cbn [fst] in *; cbn [proj].
  - destruct (Nat.eqb_spec j k) as [->|Nj].
    + rewrite Hj in Hs. injection Hs as ->. assert (Hk : nth_error (list_set l k (set_tab s t)) k = Some (set_tab s t)) by (apply nth_error_list_set_eq; apply nth_error_Some; congruence).
      destruct (IH k _ Hk) as (outs & s' & H' & Kp & Mr). exists (y :: outs), s'. split; [exact H'|]. split; [exact Kp|]. econstructor; [exact Sp|exact Mr].
    + assert (Hk : nth_error (list_set l j (set_tab sj t)) k = Some s) by (rewrite nth_error_list_set_neq by congruence; exact Hs). exact (IH k s Hk).
  - destruct (sweeps_nth _ _ _ _ _ _ Sw k s Hs) as (now & hs & s1 & Hn & H1 & (K1 & K2 & K3 & K4) & T1 & _ & Sp). rewrite Hn.
    destruct (IH k s1 H1) as (outs & s' & H' & (Q1 & Q2 & Q3 & Q4) & Mr). rewrite <- K2, <- K3, <- K4, T1 in Mr. exists (MHandles hs :: outs), s'. split; [exact H'|]. split; [repeat split; congruence|]. econstructor; [exact Sp|exact Mr].
  - assert (Hk : nth_error (map (fun s => set_last s []) l) k = Some (set_last s [])) by (apply (map_nth_error (fun s => set_last s []) k l Hs)). exact (IH k _ Hk).
Qed.
(** Between sweeps nothing is forgotten *)
Definition no_sweep (e : aev V) : Prop := match e with AOp _ _ => True | _ => False end.
Lemma run_keeps_last (p : list (stt V) * N) es xs p' : aspec_run p es xs p' -> Forall no_sweep es -> forall k s, nth_error (fst p) k = Some s -> exists s', nth_error (fst p') k = Some s' /\ st_last s' = st_last s.
Proof.
  induction 1 as [q|q e x q' es xs q'' St R IH]; intros F k s Hs; [eauto|]. inversion F as [|? ? F1 F2]; subst. inversion St as [l b j o sj y t Hj Sp|l b nows m l' b' Sw|l b]; subst; cbn in F1; try contradiction. cbn [fst] in *.
  destruct (Nat.eq_dec j k) as [->|Nj].
  - rewrite Hj in Hs. injection Hs as ->. assert (Hk : nth_error (list_set l k (set_tab s t)) k = Some (set_tab s t)) by (apply nth_error_list_set_eq; apply nth_error_Some; congruence). exact (IH F2 k _ Hk).
  - assert (Hk : nth_error (list_set l j (set_tab sj t)) k = Some s) by (rewrite nth_error_list_set_neq by congruence; exact Hs). exact (IH F2 k s Hk).
Qed.
Lemma run_ids (p : list (stt V) * N) es xs p' : aspec_run p es xs p' -> map st_id (fst p') = map st_id (fst p).
Proof.
  induction 1 as [q|q e x q' es xs q'' St R IH]; [reflexivity|]. rewrite IH. inversion St as [l b j o sj y t Hj Sp|l b nows m l' b' Sw|l b]; subst; cbn [fst].
  - clear - Hj. revert j Hj. induction l as [|a l IH]; intros [|j] Hj; cbn in *; try discriminate; [injection Hj as ->; reflexivity|rewrite (IH _ Hj); reflexivity].
  - eapply sweeps_ids; eauto.
  - rewrite map_map. reflexivity.
Qed.
End Age.
