From Coq Require Import List Arith NArith ZArith Bool Lia Reals Lra Zpow_facts.
From Flocq Require Import Core BinarySingleNaN Relative.
From Verif Require Import Base MeterModel PiResModel PiRateModel PiRateProofs MSaveModel MSaveSpec.
Import ListNotations.
Open Scope R_scope.

(** * Rounding to an integer *)
Lemma rne_err n d : (0 < d)%Z -> (2 * Z.abs (n - rne n d * d) <= d)%Z.
Proof.
  intros D. pose proof (Z.div_mod n d ltac:(lia)) as E. pose proof (Z.mod_pos_bound n d D) as B. unfold rne.
  set (q := (n / d)%Z) in *. set (r := (n mod d)%Z) in *. clearbody q r. subst n.
  destruct (Z.compare_spec (2 * r) d) as [C|C|C].
  - destruct (Z.even q); [|]; match goal with |- (2 * Z.abs ?x <= _)%Z => assert (x = r \/ x = r - d)%Z by lia end; lia.
  - replace (d * q + r - q * d)%Z with r by lia. lia.
  - replace (d * q + r - (q + 1) * d)%Z with (r - d)%Z by lia. lia.
Qed.
Lemma rne_unique n d k : (0 < d)%Z -> (2 * Z.abs (n - k * d) < d)%Z -> rne n d = k.
Proof.
  intros D H. pose proof (rne_err n d D) as E. set (q := rne n d) in *. clearbody q.
  assert (Z.abs (k - q) * d < d)%Z.
  { replace (Z.abs (k - q) * d)%Z with (Z.abs ((k - q) * d)) by (rewrite Z.abs_mul, (Z.abs_eq d); lia).
    replace ((k - q) * d)%Z with ((n - q * d) - (n - k * d))%Z by lia. lia. }
  assert (Z.abs (k - q) < 1)%Z by nia. lia.
Qed.

(** * The power of ten *)
Notation p10 := (bpow r10).
Lemma p10_pos x : 0 < p10 x. Proof. apply bpow_gt_0. Qed.
Lemma p10_S x : p10 (x + 1) = 10 * p10 x. Proof. rewrite bpow_plus_1. reflexivity. Qed.
Lemma p10_P x : p10 x = 10 * p10 (x - 1). Proof. rewrite <- p10_S. f_equal. lia. Qed.

Definition normal (n d : Z) (s : Z * Z * Z) : Prop :=
  let '(n', d', x) := s in (0 < d')%Z /\ (d' <= n' < 10 * d')%Z /\ IZR n / IZR d = IZR n' / IZR d' * p10 x.
Lemma up_ok f : forall n d x, (0 < d)%Z -> (d <= n)%Z -> (n < d * 2 ^ Z.of_nat f)%Z ->
  let '(n', d', x') := norm_up f n d x in
  (0 < d')%Z /\ (d' <= n' < 10 * d')%Z /\ IZR n / IZR d * p10 x = IZR n' / IZR d' * p10 x'.
Proof.
  induction f as [|f IH]; intros n d x D L F.
  - cbn in F. lia.
  - cbn [norm_up]. destruct (Z.leb_spec (10 * d) n) as [C|C]; [|split; [auto|split; [lia|reflexivity]]].
    specialize (IH n (10 * d)%Z (x + 1)%Z ltac:(lia) C).
    destruct (norm_up f n (10 * d) (x + 1)) as [[n' d'] x']. destruct IH as (A & B & E).
    { rewrite Nat2Z.inj_succ, Z.pow_succ_r in F by lia. assert (0 < 2 ^ Z.of_nat f)%Z by (apply Z.pow_pos_nonneg; lia). nia. }
    split; auto. split; auto. rewrite <- E, p10_S, mult_IZR. assert (0 < IZR d) by (apply IZR_lt; auto). field. lra.
Qed.
Lemma down_ok f : forall n d x, (0 < n)%Z -> (0 < d)%Z -> (n < 10 * d)%Z -> (d < n * 2 ^ Z.of_nat f)%Z ->
  let '(n', d', x') := norm_down f n d x in
  (0 < d')%Z /\ (d' <= n' < 10 * d')%Z /\ IZR n / IZR d * p10 x = IZR n' / IZR d' * p10 x'.
Proof.
  induction f as [|f IH]; intros n d x N D U F.
  - cbn in F. cbn [norm_down]. split; [auto|split; [lia|reflexivity]].
  - cbn [norm_down]. destruct (Z.ltb_spec n d) as [C|C]; [|split; [auto|split; [lia|reflexivity]]].
    specialize (IH (10 * n)%Z d (x - 1)%Z ltac:(lia) D ltac:(lia)).
    destruct (norm_down f (10 * n) d (x - 1)) as [[n' d'] x']. destruct IH as (A & B & E).
    { rewrite Nat2Z.inj_succ, Z.pow_succ_r in F by lia. assert (0 < 2 ^ Z.of_nat f)%Z by (apply Z.pow_pos_nonneg; lia). nia. }
    split; auto. split; auto. rewrite <- E, (p10_P x), mult_IZR. assert (0 < IZR d) by (apply IZR_lt; auto). field. lra.
Qed.
Lemma norm_ok n d : (0 < n)%Z -> (0 < d)%Z -> normal n d (norm n d).
Proof.
  intros N D. unfold norm. destruct (Z.ltb_spec n d) as [C|C].
  - pose proof (down_ok (Z.to_nat (Z.log2 d + 1)) n d 0 N D ltac:(lia)) as H.
    destruct (norm_down _ n d 0) as [[n' d'] x]. destruct H as (A & B & E).
    { rewrite Z2Nat.id by (pose proof (Z.log2_nonneg d); lia). pose proof (Z.log2_spec d D) as [_ L].
      assert (0 < 2 ^ (Z.log2 d + 1))%Z by (apply Z.pow_pos_nonneg; pose proof (Z.log2_nonneg d); lia). rewrite <- Z.add_1_r in L. nia. }
    cbn [bpow] in E. rewrite Rmult_1_r in E. split; auto.
  - pose proof (up_ok (Z.to_nat (Z.log2 n + 1)) n d 0 D C) as H.
    destruct (norm_up _ n d 0) as [[n' d'] x]. destruct H as (A & B & E).
    { rewrite Z2Nat.id by (pose proof (Z.log2_nonneg n); lia). pose proof (Z.log2_spec n N) as [_ L].
      assert (0 < 2 ^ (Z.log2 n + 1))%Z by (apply Z.pow_pos_nonneg; pose proof (Z.log2_nonneg n); lia). rewrite <- Z.add_1_r in L. nia. }
    cbn [bpow] in E. rewrite Rmult_1_r in E. split; auto.
Qed.

(** * Printing *)
Definition dec (q x : Z) : R := IZR q * p10 (x - 5).
Lemma dec_10 x : p10 x = 100000 * p10 (x - 5).
Proof. replace x with (5 + (x - 5))%Z at 1 by lia. rewrite bpow_plus. cbn [bpow]. f_equal. Qed.
(** what is printed is within half a unit of the last digit *)
Lemma print_frac_ok n d : (0 < n)%Z -> (0 < d)%Z -> exists q x, print_frac n d = DNum q x /\
  (100000 <= q < 1000000)%Z /\ Rabs (IZR n / IZR d - dec q x) <= IZR n / IZR d * (/ 200000).
Proof.
  intros N D. unfold print_frac. pose proof (norm_ok n d N D) as H.
  destruct (norm n d) as [[n' d'] x]. destruct H as (D' & B & E).
  pose proof (rne_err (100000 * n') d' D') as R. set (q := rne _ _) in *.
  assert (Q : (100000 <= q <= 1000000)%Z) by nia. clearbody q.
  assert (P : 0 < IZR d') by (apply IZR_lt; auto). pose proof (p10_pos (x - 5)) as PX.
  assert (G : Rabs (IZR n / IZR d - dec q x) <= / 2 * p10 (x - 5)).
  { rewrite E, (dec_10 x). unfold dec.
    replace (IZR n' / IZR d' * (100000 * p10 (x - 5)) - IZR q * p10 (x - 5)) with (IZR (100000 * n' - q * d') / IZR d' * p10 (x - 5)) by (rewrite minus_IZR, !mult_IZR; field; lra).
    rewrite Rabs_mult, (Rabs_pos_eq (p10 _)) by lra. apply Rmult_le_compat_r; [lra|].
    unfold Rdiv. rewrite Rabs_mult, (Rabs_pos_eq (/ IZR d')) by (left; apply Rinv_0_lt_compat; auto). rewrite <- abs_IZR.
    apply IZR_le in R. rewrite mult_IZR in R. apply (Rmult_le_reg_r (IZR d')); auto. rewrite Rmult_assoc, Rinv_l by lra. lra. }
  assert (V : p10 (x - 5) * / 2 <= IZR n / IZR d * / 200000).
  { rewrite E, (dec_10 x). assert (1 <= IZR n' / IZR d').
    { apply (Rmult_le_reg_r (IZR d')); auto. unfold Rdiv. rewrite Rmult_assoc, Rinv_l by lra. rewrite Rmult_1_l, Rmult_1_r. apply IZR_le. lia. }
    assert (1 * p10 (x - 5) <= IZR n' / IZR d' * p10 (x - 5)) by (apply Rmult_le_compat_r; lra).
    set (w := IZR n' / IZR d') in *. clearbody w. lra. }
  destruct (Z.eqb_spec q 1000000) as [->|NE].
  - exists 100000%Z, (x + 1)%Z. split; auto. split; [lia|]. replace (dec 100000 (x + 1)) with (dec 1000000 x); [lra|].
    unfold dec. replace (x + 1 - 5)%Z with (x - 5 + 1)%Z by lia. rewrite p10_S. lra.
  - exists q, x. split; auto. split; [lia|lra].
Qed.
(** a number close to a decimal of six digits is printed as that decimal *)
Lemma p10_between v x y : p10 x <= v < p10 (x + 1) -> p10 y <= v < p10 (y + 1) -> x = y.
Proof.
  intros [A B] [C D]. assert (p10 x < p10 (y + 1)) as H by lra. assert (p10 y < p10 (x + 1)) as K by lra.
  apply lt_bpow in H. apply lt_bpow in K. lia.
Qed.
Lemma print_frac_near n d k y : (0 < n)%Z -> (0 < d)%Z -> (100000 <= k < 1000000)%Z ->
  near u (dec k y) (IZR n / IZR d) -> print_frac n d = DNum k y.
Proof.
  intros N D K [L U]. unfold print_frac. pose proof (norm_ok n d N D) as H.
  destruct (norm n d) as [[n' d'] x]. destruct H as (D' & B & E). pose proof u_pos as UP.
  set (v := IZR n / IZR d) in *.
  assert (P : 0 < IZR d') by (apply IZR_lt; auto). pose proof (p10_pos (y - 5)) as PY. pose proof (p10_pos (x - 5)) as PX.
  assert (K2 : 100000 <= IZR k <= 999999) by (split; apply IZR_le; lia).
  assert (XB : p10 x <= v < p10 (x + 1)).
  { rewrite p10_S. pose proof (p10_pos x) as Q. rewrite E. assert (1 <= IZR n' / IZR d' < 10).
    { split; [apply (Rmult_le_reg_r (IZR d'))|apply (Rmult_lt_reg_r (IZR d'))]; auto; unfold Rdiv; rewrite Rmult_assoc, Rinv_l by lra; rewrite ?Rmult_1_l, Rmult_1_r; [apply IZR_le; lia|].
      rewrite <- mult_IZR. apply IZR_lt. lia. }
    split; [rewrite <- (Rmult_1_l (p10 x)) at 1; apply Rmult_le_compat_r; lra|apply Rmult_lt_compat_r; lra]. }
  unfold dec in L, U.
  assert (KU : IZR k * p10 (y - 5) * u <= 999999 * p10 (y - 5) * u).
  { apply Rmult_le_compat_r; [lra|]. apply Rmult_le_compat_r; lra. }
  assert (UU : p10 (y - 5) * u <= p10 (y - 5) * / 9007199254740000) by (apply Rmult_le_compat_l; lra).
  assert (HI : v < p10 (y + 1)).
  { rewrite p10_S, dec_10. assert (IZR k * p10 (y - 5) <= 999999 * p10 (y - 5)) by (apply Rmult_le_compat_r; lra). lra. }
  (* the scaled number, in terms of v *)
  assert (SC : forall j, (2 * Z.abs (100000 * n' - j * d') < d')%Z <-> Rabs (v - IZR j * p10 (x - 5)) < / 2 * p10 (x - 5)).
  { intros j. rewrite E, (dec_10 x).
    replace (IZR n' / IZR d' * (100000 * p10 (x - 5)) - IZR j * p10 (x - 5)) with (IZR (100000 * n' - j * d') / IZR d' * p10 (x - 5)) by (rewrite minus_IZR, !mult_IZR; field; lra).
    rewrite Rabs_mult, (Rabs_pos_eq (p10 _)) by lra.
    unfold Rdiv. rewrite Rabs_mult, (Rabs_pos_eq (/ IZR d')) by (left; apply Rinv_0_lt_compat; auto). rewrite <- abs_IZR.
    set (z := Z.abs _). split; intros Hz.
    - apply Rmult_lt_compat_r; auto. apply (Rmult_lt_reg_r (IZR d')); auto. rewrite Rmult_assoc, Rinv_l by lra.
      apply IZR_lt in Hz. rewrite mult_IZR in Hz. lra.
    - apply Rmult_lt_reg_r in Hz; auto. apply (Rmult_lt_compat_r (IZR d')) in Hz; auto. rewrite Rmult_assoc, Rinv_l in Hz by lra.
      apply lt_IZR. rewrite mult_IZR. lra. }
  destruct (Rle_or_lt (p10 y) v) as [LO|LO].
  - assert (x = y) by (apply (p10_between v); auto). subst x.
    rewrite (rne_unique _ _ k D').
    + destruct (Z.eqb_spec k 1000000); [lia|reflexivity].
    + apply SC. apply Rabs_def1; lra.
  - assert (k = 100000%Z).
    { rewrite dec_10 in LO. destruct (Z.eq_dec k 100000); auto. exfalso.
      assert (100001 <= IZR k) by (apply IZR_le; lia). assert (100001 * p10 (y - 5) <= IZR k * p10 (y - 5)) by (apply Rmult_le_compat_r; lra). lra. }
    subst k. assert (x = (y - 1)%Z).
    { apply (p10_between v); auto. replace (y - 1 + 1)%Z with y by lia. split; auto.
      assert (p10 y = 10 * p10 (y - 1)) by apply p10_P. assert (p10 y = 100000 * p10 (y - 5)) by apply dec_10. lra. }
    subst x. replace (y - 1 - 5)%Z with (y - 5 - 1)%Z in * by lia. pose proof (p10_P (y - 5)) as PP. pose proof (dec_10 y) as PD.
    rewrite (rne_unique _ _ 1000000 D').
    + rewrite Z.eqb_refl. f_equal. lia.
    + apply SC. apply Rabs_def1; lra.
Qed.
