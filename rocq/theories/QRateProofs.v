From Coq Require Import List Arith NArith ZArith Znumtheory Bool Lia Reals Lra.
From Flocq Require Import Core BinarySingleNaN Relative.
From Verif Require Import Base PiRateModel PiRateProofs QRateModel.
Import ListNotations.
Open Scope R_scope.

(** * The rates that divide 10^9 *)
Lemma strip p d m : prime p -> (d | p * m)%Z -> (d | m)%Z \/ exists d', d = (p * d')%Z /\ (d' | m)%Z.
Proof.
  intros P H. destruct (Zdivide_dec p d) as [[d' ->]|N].
  - right. exists d'. split; [lia|]. rewrite (Z.mul_comm d' p) in H. apply Z.mul_divide_cancel_l in H; auto.
    destruct P. lia.
  - left. apply Gauss with p; auto. apply rel_prime_sym. apply prime_rel_prime; auto.
Qed.
Lemma strips p m : prime p -> forall n d, (d | p ^ Z.of_nat n * m)%Z -> exists a d', (a <= n)%nat /\ d = (p ^ Z.of_nat a * d')%Z /\ (d' | m)%Z.
Proof.
  intros P. induction n as [|n IH]; intros d H.
  - exists 0%nat, d. split; auto. change (p ^ Z.of_nat 0)%Z with 1%Z in *. rewrite Z.mul_1_l in H. split; [lia|auto].
  - rewrite Nat2Z.inj_succ, Z.pow_succ_r, <- Z.mul_assoc in H by lia. destruct (strip p d _ P H) as [H1|(d1 & -> & H1)].
    + destruct (IH _ H1) as (a & d' & A & B). exists a, d'. split; [lia|auto].
    + destruct (IH _ H1) as (a & d' & A & -> & C). exists (S a), d'. split; [lia|]. split; auto.
      rewrite Nat2Z.inj_succ, Z.pow_succ_r by lia. lia.
Qed.
Lemma prime_5 : prime 5.
Proof.
  apply prime_intro; [lia|]. intros n H. assert (C : (n = 1 \/ n = 2 \/ n = 3 \/ n = 4)%Z) by lia.
  destruct C as [-> | [-> | [-> | ->]]]; apply Zgcd_1_rel_prime; reflexivity.
Qed.
Lemma divisors d : (0 < d)%Z -> (d | 1000000000)%Z -> exists a b, (a <= 9)%nat /\ (b <= 9)%nat /\ d = (2 ^ Z.of_nat a * 5 ^ Z.of_nat b)%Z.
Proof.
  intros P H. change 1000000000%Z with (2 ^ Z.of_nat 9 * (5 ^ Z.of_nat 9 * 1))%Z in H.
  destruct (strips 2 _ prime_2 9 d H) as (a & d1 & A & -> & H1). destruct (strips 5 _ prime_5 9 d1 H1) as (b & d2 & B & -> & H2).
  exists a, b. split; auto. split; auto. apply Z.divide_1_r in H2. destruct H2 as [-> | ->]; [lia|].
  assert (0 < 2 ^ Z.of_nat a)%Z by (apply Z.pow_pos_nonneg; lia). assert (0 < 5 ^ Z.of_nat b)%Z by (apply Z.pow_pos_nonneg; lia). nia.
Qed.
Definition all_exact : bool :=
  forallb (fun a => forallb (fun b => let d := (2 ^ N.of_nat a * 5 ^ N.of_nat b)%N in
    match rate_to_ticks d with Some n => (n =? 1000000000 / d)%N | None => false end) (seq 0 10)) (seq 0 10).
Lemma all_exact_ok : all_exact = true. Proof. vm_compute. reflexivity. Qed.
Lemma exact_case d : (0 < d)%N -> (Z.of_N d | 1000000000)%Z -> rate_to_ticks d = Some (1000000000 / d)%N.
Proof.
  intros P H. destruct (divisors (Z.of_N d) ltac:(lia) H) as (a & b & A & B & E).
  assert (E' : d = (2 ^ N.of_nat a * 5 ^ N.of_nat b)%N).
  { apply N2Z.inj. rewrite E, N2Z.inj_mul, !N2Z.inj_pow, !nat_N_Z. reflexivity. }
  pose proof all_exact_ok as X. unfold all_exact in X. rewrite forallb_forall in X. specialize (X a ltac:(apply in_seq; lia)).
  rewrite forallb_forall in X. specialize (X b ltac:(apply in_seq; lia)). cbv zeta in X. rewrite <- E' in X.
  destruct (rate_to_ticks d); [|discriminate]. apply N.eqb_eq in X. congruence.
Qed.

(** * The others *)
Lemma tiny x : / IZR (2 ^ 100) <= x -> bpow radix2 (-1022) <= x.
Proof.
  intros H. apply Rle_trans with (bpow radix2 (-100)); [apply bpow_le; lia|]. exact H.
Qed.
Lemma giga : B2R (d_of 1000000000) = 1000000000 /\ is_finite (d_of 1000000000) = true.
Proof. destruct (d_of_ok 1000000000 eq_refl) as [E F]. split; auto. rewrite E. apply int_exact. cbn. lia. Qed.
Lemma one : B2R (d_of 1) = 1 /\ is_finite (d_of 1) = true.
Proof. destruct (d_of_ok 1 eq_refl) as [E F]. split; auto. rewrite E. apply int_exact. cbn. lia. Qed.

Lemma ticks_near n : (0 < n)%N -> (n < 2 ^ 64)%N ->
  let f := Bmult mode_NE (Bdiv mode_NE (d_of 1) (d_of n)) (d_of 1000000000) in
  is_finite f = true /\ near (8 * u) (1000000000 / IZR (Z.of_N n)) (B2R f).
Proof.
  intros P H f. pose proof u_pos as U. destruct (d_of_near n H) as [[D1 D2] F]. destruct giga as [G1 G2]. destruct one as [O1 O2].
  set (x := IZR (Z.of_N n)) in *. set (a := B2R (d_of n)) in *.
  assert (X : 1 <= x <= IZR (2 ^ 64)) by (split; apply IZR_le; lia). change (2 ^ 64)%Z with 18446744073709551616%Z in X.
  assert (XU : 0 <= x * u <= x * / 9007199254740000) by (split; [apply Rmult_le_pos|apply Rmult_le_compat_l]; lra).
  assert (A : / 2 <= a <= 36893488147419103232) by lra.
  (* the inverse *)
  assert (IA : near (2 * u) (/ x) (/ a)).
  { assert (XI : 0 < / x) by (apply Rinv_0_lt_compat; lra). assert (AI : 0 < / a) by (apply Rinv_0_lt_compat; lra).
    assert (XX : x * / x = 1) by (apply Rinv_r; lra). assert (AA : a * / a = 1) by (apply Rinv_r; lra).
    unfold near. split.
    - apply Rmult_le_reg_l with a; [lra|]. rewrite AA.
      apply Rle_trans with (x * (1 + u) * (/ x * (1 - 2 * u))); [apply Rmult_le_compat_r; [apply Rmult_le_pos; lra|lra]|].
      replace (x * (1 + u) * (/ x * (1 - 2 * u))) with (x * / x * ((1 + u) * (1 - 2 * u))) by ring. rewrite XX.
      assert (0 <= u * u) by (apply Rmult_le_pos; lra). lra.
    - apply Rmult_le_reg_l with a; [lra|]. rewrite AA.
      apply Rle_trans with (x * (1 - u) * (/ x * (1 + 2 * u))); [|apply Rmult_le_compat_r; [apply Rmult_le_pos; lra|lra]].
      replace (x * (1 - u) * (/ x * (1 + 2 * u))) with (x * / x * ((1 - u) * (1 + 2 * u))) by ring. rewrite XX.
      assert (u * u <= u * / 9007199254740000) by (apply Rmult_le_compat_l; lra). lra. }
  assert (XI : / 18446744073709551616 <= / x <= 1). { split; [apply Rinv_le; lra|]. rewrite <- Rinv_1. apply Rinv_le; lra. }
  assert (AI : / 36893488147419103232 <= / a <= 2). { split; [apply Rinv_le; lra|]. rewrite <- (Rinv_inv 2). apply Rinv_le; lra. }
  assert (TH : / IZR (2 ^ 100) <= / 36893488147419103232). { apply Rinv_le; [lra|]. apply IZR_le. vm_compute. discriminate. }
  assert (R1 : near u (/ a) (RN (/ a))) by (apply RN_near, tiny; lra).
  assert (BD : B2R (Bdiv mode_NE (d_of 1) (d_of n)) = RN (/ a) /\ is_finite (Bdiv mode_NE (d_of 1) (d_of n)) = true).
  { pose proof (Bdiv_correct 53 1024 prec_ok emax_ok mode_NE (d_of 1) (d_of n)) as C. fold a in C. specialize (C ltac:(lra)).
    cbn [round_mode] in C. rewrite O1 in C. unfold Rdiv in C. rewrite Rmult_1_l in C. rewrite Rlt_bool_true in C.
    { destruct C as (C1 & C2 & _). rewrite C1, C2. auto. }
    rewrite Rabs_pos_eq by (apply RN_pos; lra). destruct R1 as [_ R1]. eapply Rle_lt_trans; [exact R1|].
    apply Rle_lt_trans with 4; [|eapply Rlt_trans; [|apply big]].
    - apply Rle_trans with (2 * (1 + u)); [apply Rmult_le_compat_r; lra|lra].
    - apply IZR_lt. vm_compute. reflexivity. }
  destruct BD as [B1 B2].
  assert (UU : 0 <= u * u <= u * / 9007199254740000) by (split; [apply Rmult_le_pos|apply Rmult_le_compat_l]; lra).
  assert (R2 : near (4 * u) (/ x) (RN (/ a))) by (apply near_trans with (a := 2 * u) (b := u) (y := / a); auto; lra).
  assert (R3 : near (4 * u) (/ x * 1000000000) (RN (/ a) * 1000000000)) by (apply near_scale; [lra|auto]).
  assert (R4 : / IZR (2 ^ 100) <= RN (/ a) * 1000000000).
  { destruct R3 as [R3 _]. eapply Rle_trans; [|exact R3]. apply Rle_trans with (/ 18446744073709551616 * 1000000000 * / 2).
    - lra.
    - apply Rmult_le_compat; lra. }
  assert (R5 : near u (RN (/ a) * 1000000000) (RN (RN (/ a) * 1000000000))) by (apply RN_near, tiny; auto).
  assert (R6 : near (8 * u) (/ x * 1000000000) (RN (RN (/ a) * 1000000000))).
  { apply near_trans with (a := 4 * u) (b := u) (y := RN (/ a) * 1000000000); auto; lra. }
  destruct (Bmult_ok (Bdiv mode_NE (d_of 1) (d_of n)) (d_of 1000000000) B2 G2) as [M1 M2].
  - rewrite B1, G1. rewrite Rabs_pos_eq.
    + destruct R6 as [_ R6]. eapply Rle_lt_trans; [exact R6|]. apply Rle_lt_trans with (1000000000 * 2); [apply Rmult_le_compat; lra|].
      eapply Rlt_trans; [|apply big]. rewrite <- mult_IZR. apply IZR_lt. vm_compute. reflexivity.
    + apply RN_pos. eapply Rle_trans; [|exact R4]. left. apply Rinv_0_lt_compat. apply IZR_lt. reflexivity.
  - split; auto. unfold f. rewrite M1, B1, G1. unfold Rdiv. rewrite (Rmult_comm 1000000000 (/ x)). auto.
Qed.

Theorem ticks_floor n : (0 < n)%N -> (n < 2 ^ 64)%N -> rate_to_ticks n = Some (1000000000 / n)%N.
Proof.
  intros P H. destruct (Zdivide_dec (Z.of_N n) 1000000000) as [D|D]; [apply exact_case; auto|].
  destruct (ticks_near n P H) as [F [N1 N2]]. pose proof u_pos as U. cbv zeta in *.
  set (f := Bmult _ _ _) in *. set (x := IZR (Z.of_N n)) in *.
  assert (X : 1 <= x) by (apply IZR_le; lia). assert (XI : 0 < / x <= 1). { split; [apply Rinv_0_lt_compat; lra|]. rewrite <- Rinv_1. apply Rinv_le; lra. }
  assert (XX : x * / x = 1) by (apply Rinv_r; lra).
  pose proof (N.div_mod 1000000000 n ltac:(lia)) as DM. pose proof (N.mod_lt 1000000000 n ltac:(lia)) as ML.
  assert (KB : (1000000000 / n <= 1000000000)%N) by (apply N.div_le_upper_bound; lia).
  set (k := (1000000000 / n)%N) in *. set (md := (1000000000 mod n)%N) in *. clearbody k md.
  assert (M0 : (md <> 0)%N).
  { intros M. apply D. exists (Z.of_N k). lia. }
  assert (Z1 : IZR (Z.of_N k) * x + 1 <= 1000000000). { unfold x. rewrite <- mult_IZR, <- plus_IZR. apply IZR_le. rewrite <- N2Z.inj_mul, N.mul_comm.
 lia. }
  assert (Z2 : 1000000000 + 1 <= (IZR (Z.of_N k) + 1) * x). { unfold x. rewrite <- !plus_IZR, <- mult_IZR. apply IZR_le. rewrite Z.mul_add_distr_r, <- N2Z.inj_mul, (N.mul_comm k n). lia. }
  assert (Y1 : IZR (Z.of_N k) + / x <= 1000000000 / x).
  { apply Rmult_le_reg_r with x; [lra|]. unfold Rdiv. rewrite Rmult_plus_distr_r, !Rmult_assoc, (Rmult_comm (/ x) x), XX. lra. }
  assert (Y2 : 1000000000 / x + / x <= IZR (Z.of_N k) + 1).
  { apply Rmult_le_reg_r with x; [lra|]. unfold Rdiv. rewrite Rmult_plus_distr_r, !Rmult_assoc, (Rmult_comm (/ x) x), XX. lra. }
  assert (E : 1000000000 / x * (8 * u) <= / x * / 2).
  { unfold Rdiv. replace (1000000000 * / x * (8 * u)) with (/ x * (8000000000 * u)) by ring. apply Rmult_le_compat_l; lra. }
  assert (KP : 0 <= IZR (Z.of_N k)) by (apply IZR_le; lia).
  assert (B : IZR (Z.of_N k) < B2R f < IZR (Z.of_N k) + 1) by lra.
  assert (KR : IZR (Z.of_N k) <= 1000000000) by (apply IZR_le; lia).
  unfold rate_to_ticks. destruct (N.eqb_spec n 0); [lia|]. fold f.
  destruct (d_to_ok f F) as (v & E1 & E2 & E3).
  { split; [lra|]. change (2 ^ 64)%Z with 18446744073709551616%Z. lra. }
  rewrite E1. f_equal.
  assert (Z.of_N v < Z.of_N k + 1)%Z by (apply lt_IZR; rewrite plus_IZR; lra).
  assert (Z.of_N k < Z.of_N v + 1)%Z by (apply lt_IZR; rewrite plus_IZR; lra). lia.
Qed.
