From Coq Require Import List Arith NArith ZArith Bool Lia Reals Lra.
From Flocq Require Import Core BinarySingleNaN Relative.
From Verif Require Import Base MeterModel PiResModel PiRateModel PiRateSpec PiRateProofs PiRateProofs2 MSaveModel MSaveSpec MSaveProofs MSaveProofs2.
Import ListNotations.
Close Scope R_scope.
Close Scope Z_scope.

Notation pair r := (mt_rate r, mt_burst r).
(** * Loading *)
Lemma load_loop_ok (cfgs : list (dbl * N)) : forall rs idx, length rs = idx + length cfgs ->
  map (fun r => pair r) (load_loop d_gt rs idx cfgs) =
  map (fun r => pair r) (firstn idx rs) ++ map (fun c => (Some (fst c), snd c)) cfgs.
Proof.
  induction cfgs as [|c cfgs IH]; intros rs idx L; cbn [load_loop map length] in *.
  - rewrite app_nil_r, firstn_all2 by lia. reflexivity.
  - set (r' := mkRate (Some (fst c)) (snd c) (snd c) 0%N (S idx)).
    assert (E : fst (set_rate d_gt rs idx c) = list_set rs idx r').
    { unfold set_rate. fold r'. destruct idx; [reflexivity|]. destruct (nth_error _ _) as [[[r|] ? ? ? ?]|]; try reflexivity. destruct (d_gt _ _); reflexivity. }
    rewrite E, IH by (rewrite list_set_length; lia).
    assert (F : firstn (S idx) (list_set rs idx r') = firstn idx rs ++ [r']).
    { clearbody r'. clear -L. revert idx L. induction rs as [|x rs IH]; intros [|idx] L; cbn in *; try lia; auto. f_equal. apply IH. lia. }
    rewrite F, map_app, <- app_assoc. reflexivity.
Qed.

Section Rel.
Variable rel : dbl -> dbl -> Prop.
Definition survives (f : dbl) : Prop := exists s g, d_print f = Some s /\ d_scan s = Some g /\ rel f g.
Definition prel (p p' : option dbl * N) : Prop :=
  snd p' = snd p /\ exists f g, fst p = Some f /\ fst p' = Some g /\ rel f g.

Lemma rates_ok l : Forall (fun p : option dbl * N => exists f, fst p = Some f /\ survives f) l ->
  exists t l', save_rates l = Some t /\ (forall rest, load_rates (length l) (t ++ rest) = Some (l', rest)) /\
    Forall2 prel l (map (fun c => (Some (fst c), snd c)) l').
Proof.
  induction l as [|[r b] l IH]; intros H.
  - exists [], []. cbn. auto.
  - inversion H as [|? ? (f & E & s & g & P & S & R) H']; subst. cbn [fst] in E. subst r.
    destruct (IH H') as (t & l' & A & B & C). exists (KRate s :: KBurst b :: t), ((g, b) :: l').
    cbn [save_rates length load_rates app map fst snd]. rewrite P, A. split; auto. split.
    + intros rest. rewrite S, B. reflexivity.
    + constructor; auto. split; auto. exists f, g. auto.
Qed.
Lemma rev_Forall {A} (P : A -> Prop) l : Forall P (rev l) -> Forall P l.
Proof. intros H. rewrite <- (rev_involutive l). apply Forall_rev. auto. Qed.
Lemma Forall2_rev' {A B} (P : A -> B -> Prop) l l' : Forall2 P l l' -> Forall2 P (rev l) (rev l').
Proof.
  induction 1 as [|x y l l' H _ IH]; [constructor|]. cbn [rev]. apply Forall2_app; auto.
Qed.
Lemma F2_length {A B} (P : A -> B -> Prop) l l' : Forall2 P l l' -> length l = length l'.
Proof. induction 1; cbn; congruence. Qed.
Lemma meter_ok m m0 : all_rates survives m -> length (mt_rates m) = length (mt_rates m0) ->
  exists t m', m_save m = Some t /\ (forall rest, m_load m0 (t ++ rest) = Some (m', rest)) /\
    mt_conf m' = mt_conf m /\ Forall2 prel (mt_get_rates m) (mt_get_rates m') /\ length (mt_rates m') = length (mt_rates m0).
Proof.
  unfold all_rates, mt_get_rates, m_save, mt_dump. destruct (mt_conf m) eqn:C; intros H L.
  - apply rev_Forall in H. destruct (rates_ok _ H) as (t & l' & A & B & D). rewrite A.
    exists (KConf true :: t), (mt_load d_gt m0 (Some l')). split; auto. rewrite map_length in B.
    assert (LL : length l' = length (mt_rates m0)).
    { apply F2_length in D. rewrite !map_length in D. lia. }
    assert (E : map (fun r => pair r) (load_loop d_gt (mt_rates m0) 0 l') = map (fun c => (Some (fst c), snd c)) l').
    { rewrite load_loop_ok by lia. reflexivity. }
    split; [|split; [reflexivity|split]].
    + intros rest. cbn [m_load app]. rewrite <- L, B. reflexivity.
    + cbn [mt_load mt_conf mt_rates]. apply Forall2_rev'. rewrite E. auto.
    + cbn [mt_load mt_rates]. apply (f_equal (@length _)) in E. rewrite !map_length in E. lia.
  - exists [KConf false], (mt_load d_gt m0 None). split; auto. split; [reflexivity|]. split; [reflexivity|]. split; [constructor|reflexivity].
Qed.
Lemma array_ok ms : forall ms0, Forall (all_rates survives) ms -> same_shape ms ms0 ->
  exists t ms', ma_save ms = Some t /\ (forall rest, ma_load ms0 (t ++ rest) = Some (ms', rest)) /\
    Forall2 (fun m m' => mt_conf m' = mt_conf m /\ Forall2 prel (mt_get_rates m) (mt_get_rates m')) ms ms' /\ same_shape ms' ms0.
Proof.
  induction ms as [|m ms IH]; intros ms0 F S; inversion S as [|? m0 ? r0 S1 S2]; subst.
  - exists [], []. cbn. auto.
  - inversion F as [|? ? F1 F2]; subst. destruct (meter_ok m m0 F1 S1) as (t1 & m' & A & B & C & D & L).
    destruct (IH r0 F2 S2) as (t2 & ms' & A2 & B2 & C2 & D2). exists (t1 ++ t2), (m' :: ms').
    cbn [ma_save ma_load]. rewrite A, A2. split; auto. split; [|split; constructor; auto].
    intros rest. rewrite <- app_assoc, B, B2. reflexivity.
Qed.
End Rel.

(** * A meter is saved as it was if its rates print as they did *)
Lemma save_eq m m' : mt_conf m' = mt_conf m -> Forall2 (prel (fun f g => d_print g = d_print f)) (mt_get_rates m) (mt_get_rates m') ->
  m_save m' = m_save m.
Proof.
  unfold mt_get_rates, m_save, mt_dump. intros C. rewrite C. destruct (mt_conf m); auto. intros H.
  apply Forall2_rev' in H. rewrite !rev_involutive in H.
  set (l := map _ (mt_rates m)) in *. set (l' := map _ (mt_rates m')) in *. clearbody l l'.
  assert (E : save_rates l' = save_rates l); [|rewrite E; reflexivity].
  induction H as [|[r b] [r' b'] l l' (B & f & g & E1 & E2 & P) H IH]; auto. cbn [fst snd] in *. subst.
  cbn [save_rates]. rewrite P, IH. reflexivity.
Qed.
Lemma saves_eq ms ms' : Forall2 (fun m m' => mt_conf m' = mt_conf m /\ Forall2 (prel (fun f g => d_print g = d_print f)) (mt_get_rates m) (mt_get_rates m')) ms ms' ->
  ma_save ms' = ma_save ms.
Proof. induction 1 as [|m m' ms ms' [A B] _ IH]; auto. cbn [ma_save]. rewrite (save_eq m m' A B), IH. reflexivity. Qed.

Definition rel_any (f g : dbl) : Prop := d_print g = d_print f /\ six_digits g /\ (Rabs (B2R g - B2R f) <= B2R f / 199999)%R.
Lemma usual_survives f : usual f -> survives rel_any f.
Proof.
  intros [->|(F & B)].
  - exists DZero, (B754_zero false). split; [reflexivity|]. split; [reflexivity|]. split; [reflexivity|]. split; [left; reflexivity|].
    cbn. rewrite Rminus_diag_eq by auto. rewrite Rabs_R0. Lra.lra.
  - destruct (any_ok f) as (s & g & A & C & D & E & G & N); auto. { split; auto. Lra.lra. }
    exists s, g. split; auto. split; auto. split; [congruence|]. split; auto. destruct N as [N1 N2]. apply Rabs_le. Lra.lra.
Qed.
Lemma six_survives f : six_digits f -> survives (fun f g => g = f) f.
Proof. intros H. destruct (six_ok f H) as (s & A & B). exists s, f. auto. Qed.
Lemma Forall2_imp {A B} (P Q : A -> B -> Prop) l l' : (forall a b, P a b -> Q a b) -> Forall2 P l l' -> Forall2 Q l l'.
Proof. intros H. induction 1; constructor; auto. Qed.
Lemma prel_imp (P Q : dbl -> dbl -> Prop) a b : (forall f g, P f g -> Q f g) -> prel P a b -> prel Q a b.
Proof. intros H (A & f & g & B & C & D). split; auto. exists f, g. auto. Qed.
Lemma prel_eq l l' : Forall2 (prel (fun f g => g = f)) l l' -> l' = l.
Proof. induction 1 as [|[a b] [a' b'] l l' (E & f & g & F & G & H) _ IH]; auto. cbn in *. subst. reflexivity. Qed.
Lemma all_rates_imp (P Q : dbl -> Prop) m : (forall f, P f -> Q f) -> all_rates P m -> all_rates Q m.
Proof. unfold all_rates. intros H. apply Forall_impl. intros p (f & A & B). eauto. Qed.

(** * Histories of the PI *)
Section Pi.
Variables (nr : nat) (P : N -> Prop).
Definition rated (r : mrate dbl) : Prop := exists n, P n /\ mt_rate r = Some (rate_of n).
Definition minv (m : meter dbl) : Prop :=
  length (mt_rates m) = nr /\ Forall (fun r => mt_rate r = None \/ rated r) (mt_rates m) /\
  (mt_conf m = true -> Forall rated (mt_rates m)).
Lemma set_inv m a b c d m' x : P a -> P c -> minv m -> mt_set_rates d_gt m [(rate_of a, b); (rate_of c, d)] = (m', x) -> minv m'.
Proof.
  intros A C I. unfold mt_set_rates. destruct I as (L & F & G). destruct (mt_rates m) as [|r1 [|r2 [|r3 l]]] eqn:E; cbn [length Nat.eqb negb].
  1,2,4: intros [= <- <-]; unfold minv; rewrite E; auto.
  assert (R1 : rated (mkRate (Some (rate_of a)) b b 0%N 1)) by (exists a; auto).
  assert (R2 : rated (mkRate (Some (rate_of c)) d d 0%N 2)) by (exists c; auto).
  cbn [set_loop set_rate list_set fst snd nth_error]. cbn in L. destruct (d_gt _ _); intros [= <- <-]; unfold minv; cbn; repeat split; auto.
Qed.
Lemma exec_inv m len pre t m' x : minv m -> mt_execute tokens_tot m len pre t = Some (m', x) -> minv m'.
Proof.
  intros (L & F & G) E. pose proof (exec_known m len pre t m' x E) as K.
  assert (C : mt_conf m' = mt_conf m).
  { revert E. unfold mt_execute. destruct (mt_conf m) eqn:C; cbn [negb]; [|intros [= <- <-]; auto]. destruct (ex_loop _ _ _ _) as [[? ?]|]; [intros [= <- <-]; auto|discriminate]. }
  split; [|split].
  - apply (f_equal (@length _)) in K. rewrite !map_length in K. congruence.
  - apply (Forall_mapped (@mt_rate dbl) (fun r => r = None \/ exists n, P n /\ r = Some (rate_of n)) _ _ K). exact F.
  - rewrite C. intros C'. apply (Forall_mapped (@mt_rate dbl) (fun r => exists n, P n /\ r = Some (rate_of n)) _ _ K). exact (G C').
Qed.
Lemma Forall_set {A} (Q : A -> Prop) l i x : Forall Q l -> Q x -> Forall Q (list_set l i x).
Proof.
  intros F X. revert i. induction F as [|a l H F IH]; intros [|i]; cbn; auto.
Qed.
Lemma step_inv ms o ms' x : rates_in P o -> Forall minv ms -> pm_step ms o = Some (ms', x) -> Forall minv ms' /\ length ms' = length ms.
Proof.
  intros R F. destruct o as [i s|i|i len pre t]; cbn [pm_step rates_in] in *.
  - destruct (nth_error ms i) as [m|] eqn:E; [|intros [= <- <-]; auto].
    assert (M : minv m) by (rewrite Forall_forall in F; eapply F, nth_error_In; eauto).
    unfold from_spec. destruct (is_default s) eqn:D.
    + intros [= <- <-]. rewrite list_set_length. split; auto. apply Forall_set; auto. destruct M as (A & B & C). unfold minv, mt_reset. cbn [mt_rates mt_conf]. split; auto. split; auto. discriminate.
    + destruct R as [->|[A B]]; [discriminate|]. destruct (mt_set_rates _ _ _) as [m' c] eqn:S. intros [= <- <-]. rewrite list_set_length.
      split; auto. apply Forall_set; auto. eapply set_inv; [| | |exact S]; auto.
  - destruct (nth_error ms i); [|intros [= <- <-]; auto]. destruct (spec_back _); [intros [= <- <-]; auto|discriminate].
  - destruct (nth_error ms i) as [m|] eqn:E; [|discriminate]. destruct (_ && _); [discriminate|].
    assert (M : minv m) by (rewrite Forall_forall in F; eapply F, nth_error_In; eauto).
    destruct (mt_execute _ _ _ _ _) as [[m' c]|] eqn:X; [|discriminate]. intros [= <- <-]. rewrite list_set_length. split; auto.
    apply Forall_set; auto. eapply exec_inv; eauto.
Qed.
Lemma run_inv ops : forall ms ms' outs, Forall (rates_in P) ops -> Forall minv ms -> pm_run ms ops = Some (ms', outs) ->
  Forall minv ms' /\ length ms' = length ms.
Proof.
  induction ops as [|o ops IH]; intros ms ms' outs R F; cbn [pm_run]; [intros [= <- <-]; auto|].
  inversion R as [|? ? R1 R2]; subst. destruct (pm_step ms o) as [[m1 x]|] eqn:S; [|discriminate].
  destruct (step_inv _ _ _ _ R1 F S) as [A B]. destruct (pm_run m1 ops) as [[m2 xs]|] eqn:E; [|discriminate].
  intros [= <- <-]. destruct (IH m1 m2 xs R2 A E). split; auto. congruence.
Qed.
Lemma new_inv bytes size : Forall minv (pm_new bytes nr size).
Proof.
  apply Forall_forall. intros m H. apply repeat_spec in H. subst m. unfold minv, mt_new. cbn [mt_rates mt_conf]. rewrite repeat_length.
  split; auto. split; [|discriminate]. apply Forall_forall. intros r H. apply repeat_spec in H. subst. auto.
Qed.
Lemma minv_rates (Q : dbl -> Prop) m : (forall n, P n -> Q (rate_of n)) -> minv m -> all_rates Q m.
Proof.
  intros H (_ & _ & G). unfold all_rates, mt_get_rates. destruct (mt_conf m); [|constructor]. specialize (G eq_refl).
  apply Forall_rev. apply Forall_map. eapply Forall_impl; [|exact G]. intros r (n & A & B). exists (rate_of n). cbn. auto.
Qed.
Lemma minv_shape bytes size ms : Forall minv ms -> length ms = size -> same_shape ms (pm_new bytes nr size).
Proof.
  intros F <-. induction F as [|m ms (A & _) _ IH]; cbn; constructor; auto. cbn [mt_new mt_rates]. rewrite repeat_length. auto.
Qed.
End Pi.

(** * Integer rates *)
Open Scope R_scope.
Lemma rate_zero : rate_of 0 = B754_zero false. Proof. reflexivity. Qed.
Lemma rate_pos r : (0 < r)%N -> (r < 2 ^ 53)%N -> pos_dbl (rate_of r) /\ B2R (rate_of r) = RN (IZR (Z.of_N r) / 1000000) /\
  / 10000000 <= B2R (rate_of r) <= IZR (2 ^ 64).
Proof.
  intros R0 R1. destruct (rate_of_ok r ltac:(lia)) as [E F]. destruct (d_of_ok r ltac:(lia)) as [E2 _].
  rewrite int_exact in E2 by lia. rewrite E2 in E. destruct (rate_of_near r ltac:(lia)) as [[N1 N2] _]. pose proof u_pos as U.
  assert (A : 1 <= IZR (Z.of_N r)) by (apply IZR_le; lia). assert (B : IZR (Z.of_N r) <= IZR (2 ^ 53)) by (apply IZR_le; lia).
  assert (UU : 0 <= 2 * u + u * u <= / 2). { assert (0 <= u * u <= u * / 9007199254740000) by (split; [apply Rmult_le_pos|apply Rmult_le_compat_l]; lra). lra. }
  set (c := 2 * u + u * u) in *. set (x := IZR (Z.of_N r) / 1000000) in *.
  assert (X : / 1000000 <= x) by (unfold x; lra). assert (0 <= x * c <= x * / 2) by (split; [apply Rmult_le_pos|apply Rmult_le_compat_l]; lra).
  assert (/ 10000000 <= B2R (rate_of r) <= IZR (2 ^ 64)).
  { split; [lra|]. apply Rle_trans with (2 * x); [lra|]. unfold x. change (2 ^ 53)%Z with 9007199254740992%Z in B. change (2 ^ 64)%Z with 18446744073709551616%Z. lra. }
  split; [split; auto; lra|]. auto.
Qed.
Lemma usual_rate r : (r < 2 ^ 51)%N -> usual (rate_of r).
Proof.
  intros R. destruct (N.eq_dec r 0) as [->|N]; [left; apply rate_zero|right]. destruct (rate_pos r) as ([A _] & _ & B & C); try lia. split; auto. split; auto. lra.
Qed.
Lemma six_rate r : (r < 2 ^ 53)%N -> six_digits_int r -> six_digits (rate_of r).
Proof.
  intros R (k & j & K & E). destruct (N.eq_dec r 0) as [->|N]; [left; apply rate_zero|right].
  destruct (rate_pos r) as ([A _] & B & _); try lia. exists (Z.of_N k), (Z.of_N j - 6)%Z.
  assert (K0 : (0 < k)%N) by (destruct (N.eq_dec k 0); [subst k; cbn in E; lia|lia]). split; [lia|].
  assert (J : (j <= 16)%N).
  { destruct (N.le_gt_cases j 16) as [|G]; auto. exfalso. assert (10 ^ 17 <= 10 ^ j)%N by (apply N.pow_le_mono_r; lia).
    assert (1 * 10 ^ 17 <= r)%N by (subst r; apply N.mul_le_mono; lia). lia. }
  split; [lia|]. split; auto. rewrite B. f_equal.
  rewrite E, N2Z.inj_mul, N2Z.inj_pow, mult_IZR. change (Z.of_N 10 ^ Z.of_N j)%Z with (Zpower r10 (Z.of_N j)). rewrite IZR_Zpower by lia.
  replace (Z.of_N j - 6)%Z with (Z.of_N j + -6)%Z by lia. rewrite bpow_plus. change (bpow r10 (-6)) with (/ 1000000). unfold Rdiv. ring.
Qed.
(** reading back a rate close to one that was set *)
Lemma back_close r (g : dbl) : (r < 2 ^ 51)%N -> is_finite g = true ->
  Rabs (B2R g - B2R (rate_of r)) <= B2R (rate_of r) / 199999 ->
  exists n n', rate_back (Some (rate_of r)) = Some n /\ rate_back (Some g) = Some n' /\ close_rate n n'.
Proof.
  intros R FG C. destruct (back_ok r ltac:(lia)) as (n & E & _ & L1 & L2). exists n.
  assert (NR : (n <= r <= n + 1)%N) by lia.
  destruct (rate_of_near r ltac:(lia)) as [[N1 N2] F]. pose proof u_pos as U. destruct million as [M1 M2].
  assert (UU : 0 <= u * u <= u * / 9007199254740000) by (split; [apply Rmult_le_pos|apply Rmult_le_compat_l]; lra).
  set (c0 := 2 * u + u * u) in *. assert (C0 : 0 <= c0 <= / 1000000000000) by (unfold c0; lra). clearbody c0.
  set (x := IZR (Z.of_N r) / 1000000) in *. assert (P : 0 <= IZR (Z.of_N r) <= IZR (2 ^ 51)) by (split; apply IZR_le; lia).
  assert (X : 0 <= x) by (unfold x; lra). apply Rabs_le_inv in C.
  assert (XC : 0 <= x * c0 <= x * / 1000000000000) by (split; [apply Rmult_le_pos|apply Rmult_le_compat_l]; lra).
  destruct (mult_near g (d_of 1000000) (/ 199998) 0 (/ 199995) x 1000000) as [[A B] D]; auto; try lra.
  - unfold near. lra.
  - rewrite M1. unfold near. lra.
  - unfold x. destruct (int_cases r); [left; lra|right; lra].
  - unfold x. apply Rle_trans with (IZR (2 ^ 51)); [lra|]. apply IZR_le. apply Z.pow_le_mono_r; lia.
  - replace (x * 1000000) with (IZR (Z.of_N r)) in A, B by (unfold x; lra). cbn [rate_back].
    change (2 ^ 51)%Z with 2251799813685248%Z in P.
    destruct (d_to_ok (Bmult mode_NE g (d_of 1000000)) D) as (n' & E1 & E2 & E3).
    { change (2 ^ 64)%Z with 18446744073709551616%Z. lra. }
    exists n'. split; auto. split; auto. unfold close_rate.
    assert (B1 : IZR (199995 * Z.of_N n') <= IZR (199996 * Z.of_N r)) by (rewrite !mult_IZR; lra).
    assert (B2 : IZR (199994 * Z.of_N r) < IZR (199995 * (Z.of_N n' + 1))) by (rewrite !mult_IZR, plus_IZR; lra).
    apply le_IZR in B1. apply lt_IZR in B2. lia.
Qed.

Lemma six_finite g : six_digits g -> is_finite g = true.
Proof. intros [-> |(k & j & _ & _ & F & _)]; auto. Qed.
Lemma spec_close m m' s : (exists n, minv n (fun r => (r < 2 ^ 51)%N) m) ->
  Forall2 (prel rel_any) (mt_get_rates m) (mt_get_rates m') -> spec_back (mt_get_rates m) = Some s ->
  exists s', spec_back (mt_get_rates m') = Some s' /\ close_spec s s'.
Proof.
  intros I H E. assert (AR : Forall (fun p => exists n, (n < 2 ^ 51)%N /\ fst p = Some (rate_of n)) (mt_get_rates m)).
  { destruct I as (nr & _ & _ & G).
    unfold mt_get_rates. destruct (mt_conf m); [|constructor]. apply Forall_rev, Forall_map. eapply Forall_impl; [|exact (G eq_refl)].
    intros r (n & A & B). exists n. auto. }
  clear I. revert AR E H. generalize (mt_get_rates m), (mt_get_rates m'). intros l0 l0' AR E H.
  destruct H as [|p p' l l' H1 H].
  - exists s. split; auto. injection E as <-. unfold close_spec, close_rate. cbn [ms_cir ms_pir ms_cb ms_pb]. rewrite !N.max_id, !N.min_id, !N.sub_diag. split; [|split; [|auto]]; unfold max64; lia.
  - destruct H as [|q q' l l' H2 H]; [destruct p; discriminate|]. inversion AR as [|? ? A1 AR']; subst. inversion AR' as [|? ? A2 _]; subst.
    destruct p as [r0 b0], q as [r1 b1], p' as [r0' b0'], q' as [r1' b1']. cbn [spec_back] in E.
    destruct H1 as (B1 & f1 & g1 & F1 & G1 & _ & S1 & C1), H2 as (B2 & f2 & g2 & F2 & G2 & _ & S2 & C2).
    destruct A1 as (n1 & L1 & A1), A2 as (n2 & L2 & A2). cbn [fst snd] in *. rewrite A1 in F1. rewrite A2 in F2. injection F1 as <-. injection F2 as <-. subst.
    destruct (back_close n1 g1 L1 (six_finite _ S1) C1) as (x1 & y1 & X1 & Y1 & Z1).
    destruct (back_close n2 g2 L2 (six_finite _ S2) C2) as (x2 & y2 & X2 & Y2 & Z2).
    rewrite X1, X2 in E. injection E as <-. eexists. split; [unfold spec_back; rewrite Y1, Y2; reflexivity|]. unfold close_spec. cbn. auto.
Qed.
Lemma F2_nth {A B} (P : A -> B -> Prop) l l' : Forall2 P l l' -> forall i,
  match nth_error l i, nth_error l' i with Some x, Some y => P x y | None, None => True | _, _ => False end.
Proof. induction 1 as [|x y l l' H _ IH]; intros [|i]; cbn; auto. apply IH. Qed.
