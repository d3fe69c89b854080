From Coq Require Import List Arith NArith ZArith Bool Lia Reals Lra.
From Flocq Require Import Core BinarySingleNaN Relative.
From Verif Require Import Base MeterModel MeterSpec MeterProofs PiResModel PiRateModel PiRateSpec.
Import ListNotations.
Open Scope R_scope.

(** * Rounding *)
Notation fx := (SpecFloat.fexp 53 1024).
Notation RN := (round radix2 fx ZnearestE).
Definition u : R := bpow radix2 (-53).

Lemma fx_flt : forall e, fx e = FLT_exp (-1074) 53 e.
Proof. intros e. unfold SpecFloat.fexp, FLT_exp, SpecFloat.emin. reflexivity. Qed.

Lemma u_val : u = / IZR (2 ^ 53). Proof. reflexivity. Qed.
Lemma u_pos : 0 < u < / 9007199254740000.
Proof. rewrite u_val. change (2 ^ 53)%Z with 9007199254740992%Z. lra. Qed.

Lemma RN_ge x y : x <= y -> RN x <= RN y.
Proof. apply round_le; typeclasses eauto. Qed.

Lemma RN_near x : bpow radix2 (-1022) <= x -> x * (1 - u) <= RN x <= x * (1 + u).
Proof.
  intros H. assert (P : 0 < x). { eapply Rlt_le_trans; [|exact H]. apply bpow_gt_0. }
  pose proof (relative_error_N_FLT radix2 (-1074) 53 eq_refl (fun x => negb (Z.even x)) x) as E.
  rewrite (Rabs_pos_eq x) in E by lra. specialize (E H).
  change (round radix2 (FLT_exp (-1074) 53) (Znearest (fun x : Z => negb (Z.even x))) x) with (RN x) in E.
  assert (U : / 2 * bpow radix2 (Z.opp 53 + 1) = u).
  { unfold u. change (Z.opp 53 + 1)%Z with (-52)%Z. unfold bpow. change (Z.pow_pos radix2 52) with (4503599627370496)%Z. change (Z.pow_pos radix2 53) with (9007199254740992)%Z. lra. }
  rewrite U in E. apply Rabs_le_inv in E. lra.
Qed.
Lemma RN_0 : RN 0 = 0. Proof. apply round_0. typeclasses eauto. Qed.
Lemma RN_pos x : 0 <= x -> 0 <= RN x. Proof. intros H. rewrite <- RN_0. apply RN_ge. auto. Qed.

Lemma small x : / 100000000 <= x -> bpow radix2 (-1022) <= x.
Proof.
  intros H. apply Rle_trans with (bpow radix2 (-27)); [apply bpow_le; lia|].
  unfold bpow. change (Z.pow_pos radix2 27) with 134217728%Z. lra.
Qed.

(** [y] is [x] up to a relative error of [c] *)
Definition near (c x y : R) : Prop := x * (1 - c) <= y <= x * (1 + c).
Lemma near_trans a b c x y z : 0 <= x -> 0 <= a <= 1 -> 0 <= b <= 1 -> a + b + a * b <= c ->
  near a x y -> near b y z -> near c x z.
Proof.
  intros X A B C [Y1 Y2] [Z1 Z2]. unfold near.
  assert (0 <= y) by (eapply Rle_trans; [|exact Y1]; apply Rmult_le_pos; lra).
  assert (E1 : x * (1 - a) * (1 - b) <= y * (1 - b)) by (apply Rmult_le_compat_r; lra).
  assert (E2 : y * (1 + b) <= x * (1 + a) * (1 + b)) by (apply Rmult_le_compat_r; lra).
  assert (E3 : x * (a + b + a * b) <= x * c) by (apply Rmult_le_compat_l; lra).
  assert (0 <= x * (a * b)) by (apply Rmult_le_pos; [lra|apply Rmult_le_pos; lra]).
  split; lra.
Qed.
Lemma near_scale c x y k : 0 <= k -> near c x y -> near c (x * k) (y * k).
Proof. intros K [A B]. split; [apply (Rmult_le_compat_r k) in A|apply (Rmult_le_compat_r k) in B]; lra. Qed.
Lemma near_RN x : (x = 0 \/ / 100000000 <= x) -> near u x (RN x).
Proof. intros [->|H]; [rewrite RN_0; unfold near; lra|]. apply RN_near, small; auto. Qed.
Lemma near_0 c x y : near c x y -> x = 0 -> y = 0. Proof. intros [A B] ->. lra. Qed.
Lemma near_lb c x y k : near c x y -> 0 <= c <= / 2 -> 0 <= k -> 2 * k <= x -> k <= y.
Proof. intros [A B] C K H. assert (x * (/ 2) <= x * (1 - c)) by (apply Rmult_le_compat_l; lra). lra. Qed.

Lemma big : IZR (2 ^ 200) < bpow radix2 1024.
Proof. change (2 ^ 200)%Z with (Zpower radix2 200). rewrite IZR_Zpower by lia. apply bpow_lt. lia. Qed.

(** * The operations *)
Lemma d_of_ok n : (n < 2 ^ 64)%N -> B2R (d_of n) = RN (IZR (Z.of_N n)) /\ is_finite (d_of n) = true.
Proof.
  intros H. unfold d_of. rewrite N.mod_small by auto.
  pose proof (binary_normalize_correct 53 1024 prec_ok emax_ok mode_NE (Z.of_N n) 0 false) as C. cbv zeta in C.
  cbn [round_mode] in C. unfold F2R in C. cbn [Fnum Fexp bpow] in C. rewrite Rmult_1_r in C.
  rewrite Rlt_bool_true in C. { destruct C as (A & B & _). auto. }
  assert (0 <= IZR (Z.of_N n) <= IZR (2 ^ 64)) as [L1 L2] by (split; apply IZR_le; lia).
  rewrite Rabs_pos_eq by (apply RN_pos; auto). apply RN_ge in L2.
  eapply Rle_lt_trans; [exact L2|].
  assert (near u (IZR (2 ^ 64)) (RN (IZR (2 ^ 64)))) as [_ N2]. { apply near_RN. right. change (2 ^ 64)%Z with 18446744073709551616%Z. lra. }
  eapply Rle_lt_trans; [exact N2|]. eapply Rle_lt_trans; [|apply big]. pose proof u_pos.
  change (2 ^ 64)%Z with 18446744073709551616%Z. apply Rle_trans with (IZR (2 ^ 65)); [change (2 ^ 65)%Z with 36893488147419103232%Z; lra|apply IZR_le; apply Z.pow_le_mono_r; lia].
Qed.
Lemma d_of_near n : (n < 2 ^ 64)%N -> near u (IZR (Z.of_N n)) (B2R (d_of n)) /\ is_finite (d_of n) = true.
Proof.
  intros H. destruct (d_of_ok n H) as [E F]. split; auto. rewrite E. apply near_RN.
  destruct (N.eq_dec n 0) as [->|]; [left; reflexivity|right]. assert (1 <= IZR (Z.of_N n)) by (apply IZR_le; lia). lra.
Qed.
Lemma int_exact z : (Z.abs z <= 2 ^ 53)%Z -> RN (IZR z) = IZR z.
Proof.
  intros H. apply round_generic; [typeclasses eauto|].
  change (generic_format radix2 (FLT_exp (-1074) 53) (IZR z)).
  destruct (Z.eq_dec (Z.abs z) (2 ^ 53)) as [E|E].
  - assert (E' : IZR z = F2R (Float radix2 (Z.sgn z) 53)).
    { unfold F2R. cbn [Fnum Fexp]. rewrite <- (IZR_Zpower radix2 53) by lia. rewrite <- mult_IZR. f_equal. change (radix2 ^ 53)%Z with (2 ^ 53)%Z. lia. }
    rewrite E'. apply generic_format_FLT. exists (Float radix2 (Z.sgn z) 53); cbn [Fnum Fexp]; auto; [|lia].
    change (Zpower radix2 53) with (2 ^ 53)%Z. destruct z; cbn; lia.
  - apply generic_format_FLT. exists (Float radix2 z 0); cbn [Fnum Fexp]; [unfold F2R; cbn; lra|change (Zpower radix2 53) with (2 ^ 53)%Z; lia|lia].
Qed.
Lemma million : B2R (d_of 1000000) = 1000000 /\ is_finite (d_of 1000000) = true.
Proof. destruct (d_of_ok 1000000 eq_refl) as [E F]. split; auto. rewrite E. apply int_exact. cbn. lia. Qed.

Lemma rate_of_ok r : (r < 2 ^ 64)%N -> B2R (rate_of r) = RN (B2R (d_of r) / 1000000) /\ is_finite (rate_of r) = true.
Proof.
  intros H. destruct million as [M1 M2]. destruct (d_of_near r H) as [[D1 D2] F].
  unfold rate_of. pose proof (Bdiv_correct 53 1024 prec_ok emax_ok mode_NE (d_of r) (d_of 1000000)) as C.
  rewrite M1 in C. specialize (C ltac:(lra)). cbn [round_mode] in C.
  rewrite Rlt_bool_true in C. { destruct C as (A & B & _). rewrite B, F. auto. }
  assert (0 <= IZR (Z.of_N r) <= IZR (2 ^ 64)) as [L1 L2] by (split; apply IZR_le; lia). pose proof u_pos as U.
  assert (P : 0 <= B2R (d_of r)). { eapply Rle_trans; [|exact D1]. apply Rmult_le_pos; lra. }
  assert (Q : B2R (d_of r) / 1000000 <= IZR (2 ^ 64)).
  { assert (IZR (Z.of_N r) * (1 + u) <= IZR (2 ^ 64) * (1 + u)) by (apply Rmult_le_compat_r; lra). change (2 ^ 64)%Z with 18446744073709551616%Z in *. lra. }
  rewrite Rabs_pos_eq by (apply RN_pos; unfold Rdiv; apply Rmult_le_pos; lra).
  apply RN_ge in Q. eapply Rle_lt_trans; [exact Q|].
  assert (near u (IZR (2 ^ 64)) (RN (IZR (2 ^ 64)))) as [_ N2]. { apply near_RN. right. change (2 ^ 64)%Z with 18446744073709551616%Z. lra. }
  eapply Rle_lt_trans; [exact N2|]. eapply Rle_lt_trans; [|apply big].
  change (2 ^ 64)%Z with 18446744073709551616%Z. apply Rle_trans with (IZR (2 ^ 65)); [change (2 ^ 65)%Z with 36893488147419103232%Z; lra|apply IZR_le; apply Z.pow_le_mono_r; lia].
Qed.
Lemma int_cases n : IZR (Z.of_N n) = 0 \/ 1 <= IZR (Z.of_N n).
Proof. destruct (N.eq_dec n 0) as [->|]; [left; reflexivity|right]. apply IZR_le; lia. Qed.
Lemma rate_of_near r : (r < 2 ^ 64)%N -> near (2 * u + u * u) (IZR (Z.of_N r) / 1000000) (B2R (rate_of r)) /\ is_finite (rate_of r) = true.
Proof.
  intros H. destruct (rate_of_ok r H) as [E F]. split; auto. rewrite E. destruct (d_of_near r H) as [D _]. pose proof u_pos as U.
  destruct (int_cases r) as [Z|P].
  - pose proof (near_0 _ _ _ D Z) as D0. rewrite D0, Z. unfold Rdiv. rewrite !Rmult_0_l, RN_0. unfold near. lra.
  - apply near_trans with (a := u) (b := u) (y := B2R (d_of r) / 1000000); try lra.
    + apply near_scale; [lra|auto].
    + apply near_RN. right. assert (/ 2 <= B2R (d_of r)) by (apply (near_lb u _ _ _ D); lra). lra.
Qed.

(** The rate times a number of at most 2^64: the product of the code, for reading back and for the
    tokens *)
Lemma Bmult_ok (a b : dbl) : is_finite a = true -> is_finite b = true -> Rabs (RN (B2R a * B2R b)) < bpow radix2 1024 ->
  B2R (Bmult mode_NE a b) = RN (B2R a * B2R b) /\ is_finite (Bmult mode_NE a b) = true.
Proof.
  intros A B L. pose proof (Bmult_correct 53 1024 prec_ok emax_ok mode_NE a b) as C. cbn [round_mode] in C.
  rewrite Rlt_bool_true in C by auto. destruct C as (C1 & C2 & _). rewrite C2, A, B. auto.
Qed.
Lemma Btrunc_ok (f : dbl) : Btrunc f = Ztrunc (B2R f).
Proof.
  apply eq_IZR. rewrite Btrunc_correct. 2: exact prec_ok. all: try exact emax_ok. unfold round, F2R, scaled_mantissa, cexp, FIX_exp. cbn. rewrite !Rmult_1_r. reflexivity.
Qed.

Lemma near_mul a b x x' y y' : 0 <= x -> 0 <= y -> 0 <= a <= 1 -> 0 <= b <= 1 ->
  near a x x' -> near b y y' -> near (a + b + a * b) (x * y) (x' * y').
Proof.
  intros X Y A B N1 N2.
  assert (X' : 0 <= x') by (destruct N1 as [N1 _]; eapply Rle_trans; [|exact N1]; apply Rmult_le_pos; lra).
  apply near_trans with (a := a) (b := b) (y := x' * y); try lra.
  - apply Rmult_le_pos; auto.
  - apply near_scale; auto.
  - rewrite (Rmult_comm x' y), (Rmult_comm x' y'). apply near_scale; auto.
Qed.

Lemma mult_near (a b : dbl) ca cb c x y : is_finite a = true -> is_finite b = true ->
  0 <= x -> 0 <= y -> 0 <= ca <= / 8 -> 0 <= cb <= / 8 -> near ca x (B2R a) -> near cb y (B2R b) ->
  (x * y = 0 \/ / 10000000 <= x * y) -> x * y <= IZR (2 ^ 190) ->
  (ca + cb + ca * cb) + u + (ca + cb + ca * cb) * u <= c ->
  near c (x * y) (B2R (Bmult mode_NE a b)) /\ is_finite (Bmult mode_NE a b) = true.
Proof.
  intros FA FB X Y CA CB NA NB SM BG C. pose proof u_pos as U.
  pose proof (near_mul ca cb x (B2R a) y (B2R b) X Y ltac:(lra) ltac:(lra) NA NB) as M.
  set (d := ca + cb + ca * cb) in *.
  assert (D : 0 <= d <= / 2). { unfold d. assert (0 <= ca * cb <= / 8 * / 8) by (split; [apply Rmult_le_pos|apply Rmult_le_compat]; lra). lra. }
  assert (XY : 0 <= x * y) by (apply Rmult_le_pos; auto).
  assert (R : near u (B2R a * B2R b) (RN (B2R a * B2R b))).
  { apply near_RN. destruct SM as [Z|P]; [left; eapply near_0; eauto|right]. apply (near_lb d _ _ _ M); lra. }
  assert (T : near c (x * y) (RN (B2R a * B2R b))) by (apply near_trans with (a := d) (b := u) (y := B2R a * B2R b); auto; lra).
  assert (T' : near (d + u + d * u) (x * y) (RN (B2R a * B2R b))) by (apply near_trans with (a := d) (b := u) (y := B2R a * B2R b); auto; lra).
  destruct (Bmult_ok a b FA FB) as [E F].
  - destruct T' as [T1 T2]. assert (0 <= d * u <= / 2 * 1) by (split; [apply Rmult_le_pos|apply Rmult_le_compat]; lra).
    assert (K1 : x * y * (1 + (d + u + d * u)) <= x * y * 4) by (apply Rmult_le_compat_l; lra).
    assert (K2 : - (x * y * 4) <= x * y * (1 - (d + u + d * u))).
    { replace (- (x * y * 4)) with (x * y * (-4)) by lra. apply Rmult_le_compat_l; lra. }
    apply Rabs_def1.
    + eapply Rle_lt_trans; [exact T2|]. eapply Rle_lt_trans; [exact K1|]. eapply Rle_lt_trans; [|apply big].
      apply Rle_trans with (IZR (2 ^ 190) * 4); [lra|]. rewrite <- mult_IZR. apply IZR_le. reflexivity || (vm_compute; discriminate).
    + eapply Rlt_le_trans; [|exact T1]. eapply Rlt_le_trans; [|exact K2]. apply Ropp_lt_contravar. eapply Rle_lt_trans; [|apply big].
      apply Rle_trans with (IZR (2 ^ 190) * 4); [lra|]. rewrite <- mult_IZR. apply IZR_le. reflexivity || (vm_compute; discriminate).
  - rewrite E. auto.
Qed.

Lemma d_to_ok (f : dbl) : is_finite f = true -> 0 <= B2R f < IZR (2 ^ 64) ->
  exists n, d_to f = Some n /\ (n < 2 ^ 64)%N /\ IZR (Z.of_N n) <= B2R f < IZR (Z.of_N n) + 1.
Proof.
  intros F [L H]. unfold d_to. rewrite F, Btrunc_ok, Ztrunc_floor by auto.
  assert (A : (0 <= Zfloor (B2R f))%Z) by (apply Zfloor_lub; auto).
  assert (B : (Zfloor (B2R f) < 2 ^ 64)%Z). { apply lt_IZR. eapply Rle_lt_trans; [apply Zfloor_lb|auto]. }
  apply Z.leb_le in A as A'. apply Z.ltb_lt in B as B'. rewrite A', B'. cbn [andb]. eexists. split; [reflexivity|]. split; [lia|].
  rewrite Z2N.id by auto. split; [apply Zfloor_lb|apply Zfloor_ub].
Qed.

Definition u4 : R := 4 * u.
Lemma N_le a b : (a <= b)%N -> IZR (Z.of_N a) <= IZR (Z.of_N b). Proof. intros. apply IZR_le. lia. Qed.

(** Reading back *)
Lemma back_ok r : (r <= 2 ^ 63)%N -> exists n, rate_back (Some (rate_of r)) = Some n /\ (n < 2 ^ 64)%N /\
  (2 ^ 51 * n <= 2 ^ 51 * r + r)%N /\ (2 ^ 51 * r < 2 ^ 51 * n + r + 2 ^ 51)%N.
Proof.
  intros H. pose proof u_pos as U. destruct (rate_of_near r ltac:(lia)) as [N F]. destruct million as [M1 M2].
  assert (P : 0 <= IZR (Z.of_N r) <= IZR (2 ^ 63)) by (split; apply IZR_le; lia).
  assert (UU : 0 <= u * u <= u * / 9007199254740000) by (split; [apply Rmult_le_pos|apply Rmult_le_compat_l]; lra).
  destruct (mult_near (rate_of r) (d_of 1000000) (2 * u + u * u) 0 (4 * u) (IZR (Z.of_N r) / 1000000) 1000000) as [[A B] C]; auto; try lra.
  - rewrite M1. unfold near. lra.
  - destruct (int_cases r); [left; lra|right; lra].
  - rewrite Rmult_0_r, !Rplus_0_r. assert ((2 * u + u * u) * u <= (2 * u + u * u) * / 9007199254740000) by (apply Rmult_le_compat_l; lra). lra.
  - replace (IZR (Z.of_N r) / 1000000 * 1000000) with (IZR (Z.of_N r)) in A, B by lra.
    set (p := B2R _) in A, B. cbn [rate_back].
    assert (Q1 : IZR (Z.of_N r) * (4 * u) <= IZR (2 ^ 63) * (4 * u)) by (apply Rmult_le_compat_r; lra).
    assert (Q0 : 0 <= IZR (Z.of_N r) * (4 * u)) by (apply Rmult_le_pos; lra).
    destruct (d_to_ok (Bmult mode_NE (rate_of r) (d_of 1000000)) C) as (n & E1 & E2 & E3).
    { fold p. split.
      - eapply Rle_trans; [|exact A]. apply Rmult_le_pos; lra.
      - eapply Rle_lt_trans; [exact B|]. change (2 ^ 64)%Z with 18446744073709551616%Z. change (2 ^ 63)%Z with 9223372036854775808%Z in *. lra. }
    exists n. split; auto. split; auto. fold p in E3.
    assert (U4 : 4 * u * IZR (2 ^ 51) = 1). { rewrite u_val. change (2 ^ 53)%Z with 9007199254740992%Z. change (2 ^ 51)%Z with 2251799813685248%Z. lra. }
    assert (W : 0 < IZR (2 ^ 51)) by (change (2 ^ 51)%Z with 2251799813685248%Z; lra).
    assert (V : IZR (Z.of_N r) * (4 * u) * IZR (2 ^ 51) = IZR (Z.of_N r)). { rewrite Rmult_assoc, U4. lra. }
    split.
    + assert (G : (2 ^ 51 * Z.of_N n <= 2 ^ 51 * Z.of_N r + Z.of_N r)%Z).
      { apply le_IZR. rewrite plus_IZR, !mult_IZR. rewrite <- V at 2.
        assert (IZR (2 ^ 51) * IZR (Z.of_N n) <= IZR (2 ^ 51) * (IZR (Z.of_N r) * (1 + 4 * u))) by (apply Rmult_le_compat_l; lra). lra. }
      lia.
    + assert (G : (2 ^ 51 * Z.of_N r < 2 ^ 51 * Z.of_N n + Z.of_N r + 2 ^ 51)%Z).
      { apply lt_IZR. rewrite !plus_IZR, !mult_IZR. rewrite <- V at 2.
        assert (IZR (2 ^ 51) * (IZR (Z.of_N r) * (1 - 4 * u)) < IZR (2 ^ 51) * (IZR (Z.of_N n) + 1)) by (apply Rmult_lt_compat_l; lra). lra. }
      lia.
Qed.

(** The tokens that a rate accrues *)
Lemma tokens_ok r t : (r < 2 ^ 64)%N -> (t < 2 ^ 63)%N -> (r * t <= 2 ^ 50 * 1000000)%N ->
  exists n, tokens (rate_of r) t = Some n /\ (n < 2 ^ 51)%N /\
  (1000000 * n <= r * t + 625000)%N /\ (r * t < 1000000 * n + 1625000)%N.
Proof.
  intros H HT HH. pose proof u_pos as U. destruct (rate_of_near r H) as [N F]. destruct (d_of_near t ltac:(lia)) as [M G].
  assert (PR : 0 <= IZR (Z.of_N r)) by (apply IZR_le; lia). assert (PT : 0 <= IZR (Z.of_N t)) by (apply IZR_le; lia).
  assert (UU : 0 <= u * u <= u * / 9007199254740000) by (split; [apply Rmult_le_pos|apply Rmult_le_compat_l]; lra).
  assert (PP : IZR (Z.of_N t) * (IZR (Z.of_N r) / 1000000) = IZR (Z.of_N (r * t)) / 1000000) by (rewrite N2Z.inj_mul, mult_IZR; lra).
  assert (PB : 0 <= IZR (Z.of_N (r * t)) <= IZR (2 ^ 50 * 1000000)) by (split; apply IZR_le; lia).
  change (2 ^ 50 * 1000000)%Z with 1125899906842624000000%Z in PB.
  unfold tokens.
  destruct (mult_near (d_of t) (rate_of r) u (2 * u + u * u) (5 * u) (IZR (Z.of_N t)) (IZR (Z.of_N r) / 1000000)) as [[A B] C]; auto; try lra.
  - rewrite PP. destruct (int_cases (r * t)); [left; lra|right; lra].
  - assert (K : 0 <= u * (2 * u + u * u) <= / 9007199254740000 * (2 * u + u * u)) by (split; [apply Rmult_le_pos|apply Rmult_le_compat_r]; lra).
    assert ((u + (2 * u + u * u) + u * (2 * u + u * u)) * u <= (u + (2 * u + u * u) + u * (2 * u + u * u)) * / 9007199254740000) by (apply Rmult_le_compat_l; lra).
    lra.
  - rewrite PP in A, B. set (p := B2R _) in A, B. set (e := IZR (Z.of_N (r * t)) / 1000000) in *.
    assert (E0 : 0 <= e <= 1125899906842624) by (unfold e; lra).
    assert (E5 : 0 <= e * (5 * u) <= 5 / 8).
    { split; [apply Rmult_le_pos; lra|]. apply Rle_trans with (1125899906842624 * (5 * u)); [apply Rmult_le_compat_r; lra|].
      rewrite u_val. change (2 ^ 53)%Z with 9007199254740992%Z. lra. }
    destruct (d_to_ok (Bmult mode_NE (d_of t) (rate_of r)) C) as (n & E1 & E2 & E3).
    { fold p. split.
      - eapply Rle_trans; [|exact A]. apply Rmult_le_pos; lra.
      - change (2 ^ 64)%Z with 18446744073709551616%Z. lra. }
    fold p in E3. exists n. split; auto.
    assert (X : (1000000 * Z.of_N n <= Z.of_N (r * t) + 625000)%Z). { apply le_IZR. rewrite plus_IZR, mult_IZR. unfold e in *. lra. }
    assert (Y : (Z.of_N (r * t) < 1000000 * Z.of_N n + 1625000)%Z). { apply lt_IZR. rewrite plus_IZR, mult_IZR. unfold e in *. lra. }
    split; lia.
Qed.

(** [>] on rates *)
Lemma gt_ok a b : is_finite a = true -> is_finite b = true -> d_gt a b = true <-> B2R b < B2R a.
Proof.
  intros A B. unfold d_gt. rewrite Bcompare_correct by auto. destruct (Rcompare_spec (B2R a) (B2R b)); split; try discriminate; auto; lra.
Qed.
Lemma rate_le a b : (a <= b)%N -> (b < 2 ^ 64)%N -> d_gt (rate_of a) (rate_of b) = false.
Proof.
  intros L H. destruct (rate_of_ok a ltac:(lia)) as [A FA]. destruct (rate_of_ok b H) as [B FB].
  destruct (d_gt _ _) eqn:G; auto. apply gt_ok in G; auto. exfalso. rewrite A, B in G.
  destruct (d_of_ok a ltac:(lia)) as [A' _]. destruct (d_of_ok b H) as [B' _]. rewrite A', B' in G.
  assert (RN (RN (IZR (Z.of_N a)) / 1000000) <= RN (RN (IZR (Z.of_N b)) / 1000000)); [|lra].
  apply RN_ge. pose proof (RN_ge _ _ (N_le a b L)). lra.
Qed.
Lemma rate_lt a b : (b < a)%N -> (a < 2 ^ 51)%N -> d_gt (rate_of a) (rate_of b) = true.
Proof.
  intros L H. destruct (rate_of_ok a ltac:(lia)) as [A FA]. destruct (rate_of_ok b ltac:(lia)) as [B FB]. pose proof u_pos as U.
  apply gt_ok; auto. rewrite A, B.
  destruct (d_of_ok a ltac:(lia)) as [A' _]. destruct (d_of_ok b ltac:(lia)) as [B' _]. rewrite A', B', !int_exact by lia.
  assert (NA : near u (IZR (Z.of_N a) / 1000000) (RN (IZR (Z.of_N a) / 1000000))).
  { apply near_RN. destruct (int_cases a); [left; lra|right; lra]. }
  assert (NB : near u (IZR (Z.of_N b) / 1000000) (RN (IZR (Z.of_N b) / 1000000))).
  { apply near_RN. destruct (int_cases b); [left; lra|right; lra]. }
  destruct NA as [NA _], NB as [_ NB].
  assert (0 <= IZR (Z.of_N a) <= IZR (2 ^ 51)) by (split; apply IZR_le; lia).
  assert (0 <= IZR (Z.of_N b) <= IZR (2 ^ 51)) by (split; apply IZR_le; lia).
  assert (IZR (Z.of_N b) + 1 <= IZR (Z.of_N a)) by (rewrite <- plus_IZR; apply IZR_le; lia).
  assert (K : IZR (2 ^ 51) * u = / 4). { rewrite u_val. change (2 ^ 53)%Z with 9007199254740992%Z. change (2 ^ 51)%Z with 2251799813685248%Z. lra. }
  assert (IZR (Z.of_N a) * u <= IZR (2 ^ 51) * u) by (apply Rmult_le_compat_r; lra).
  assert (IZR (Z.of_N b) * u <= IZR (2 ^ 51) * u) by (apply Rmult_le_compat_r; lra).
  lra.
Qed.

(** Accrual is monotone, for every double *)
Lemma tokens_fin f t : is_finite f = true -> (t < 2 ^ 63)%N ->
  tokens f t = (if Rlt_bool (Rabs (RN (B2R (d_of t) * B2R f))) (bpow radix2 1024) then
     let z := Ztrunc (RN (B2R (d_of t) * B2R f)) in
     if (0 <=? z)%Z && (z <? 2 ^ 64)%Z then Some (Z.to_N z) else None else None).
Proof.
  intros F T. unfold tokens, d_to. rewrite Btrunc_ok. destruct (d_of_ok t ltac:(lia)) as [_ G].
  pose proof (Bmult_correct 53 1024 prec_ok emax_ok mode_NE (d_of t) f) as C. cbn [round_mode] in C.
  destruct (Rlt_bool _ _).
  - destruct C as (C1 & C2 & _). rewrite C1, C2, F, G. reflexivity.
  - assert (X : is_finite (Bmult mode_NE (d_of t) f) = false).
    { rewrite <- is_finite_SF_B2SF, C. reflexivity. }
    rewrite X. reflexivity.
Qed.
Lemma tokens_inf f t : is_finite f = false -> tokens f t = None.
Proof.
  intros F. unfold tokens, d_to. replace (is_finite (Bmult mode_NE (d_of t) f)) with false; auto.
  destruct f; try discriminate; destruct (d_of t); reflexivity.
Qed.
Lemma tokens_lt f t n : tokens f t = Some n -> (n < 2 ^ 64)%N.
Proof.
  unfold tokens, d_to. destruct (_ && _ && _)%bool eqn:E; [|discriminate]. intros [= <-].
  apply andb_true_iff in E as [E1 E2]. apply andb_true_iff in E1 as [E0 E1]. lia.
Qed.
Lemma d_of_mono a b : (a <= b)%N -> (b < 2 ^ 64)%N -> 0 <= B2R (d_of a) <= B2R (d_of b).
Proof.
  intros L H. destruct (d_of_ok a ltac:(lia)) as [A _]. destruct (d_of_ok b H) as [B _]. rewrite A, B. split.
  - apply RN_pos. apply IZR_le. lia.
  - apply RN_ge. apply N_le. auto.
Qed.
Lemma tokens_mono : monotone tokens_tot.
Proof.
  intros f t t' L. unfold tokens_tot, max64.
  destruct (N.ltb_spec t' (2 ^ 63)) as [T'|T'].
  2:{ destruct (_ <? _)%N; [|lia]. destruct (tokens f t) eqn:E; [apply tokens_lt in E|]; lia. }
  destruct (N.ltb_spec t (2 ^ 63)) as [T|T]; [|lia].
  destruct (tokens f t') as [n'|] eqn:E'.
  2:{ destruct (tokens f t) eqn:E; [apply tokens_lt in E|]; lia. }
  destruct (is_finite f) eqn:F; [|rewrite tokens_inf in E' by auto; discriminate].
  rewrite (tokens_fin f t' F T') in E'. rewrite (tokens_fin f t F T).
  destruct (d_of_mono t t' L ltac:(lia)) as [D1 D2].
  set (v' := RN (B2R (d_of t') * B2R f)) in *. set (v := RN (B2R (d_of t) * B2R f)) in *.
  destruct (Rlt_bool_spec (Rabs v') (bpow radix2 1024)) as [O'|]; [|discriminate]. cbv zeta in *.
  destruct (andb _ _) eqn:EE in E'; [|discriminate]. injection E' as <-. apply andb_true_iff in EE as [E1 E2].
  apply Z.leb_le in E1. apply Z.ltb_lt in E2. apply Rabs_def2 in O' as [O1 O2].
  destruct (Rle_or_lt 0 (B2R f)) as [P|P].
  - assert (V : 0 <= v <= v').
    { unfold v, v'. split; [apply RN_pos; apply Rmult_le_pos; auto|apply RN_ge; apply Rmult_le_compat_r; auto]. }
    rewrite Rlt_bool_true by (rewrite Rabs_pos_eq; lra).
    assert (Z1 : (0 <= Ztrunc v)%Z) by (rewrite Ztrunc_floor by lra; apply Zfloor_lub; lra).
    assert (Z2 : (Ztrunc v <= Ztrunc v')%Z) by (apply Ztrunc_le; lra).
    assert (Z3 : (0 <=? Ztrunc v)%Z && (Ztrunc v <? 2 ^ 64)%Z = true) by lia. rewrite Z3. lia.
  - assert (V : v' <= v <= 0).
    { unfold v, v'. split; [apply RN_ge; apply Rmult_le_compat_neg_l with (r := B2R f) in D2; lra|]. rewrite <- RN_0. apply RN_ge.
      assert (B2R (d_of t) * B2R f <= 0); [|auto]. replace 0 with (0 * B2R f) by lra. apply Rmult_le_compat_neg_l with (r := B2R f) in D1; lra. }
    rewrite Rlt_bool_true by (apply Rabs_def1; [pose proof (bpow_gt_0 radix2 1024)|]; lra).
    assert (Z1 : (Ztrunc v <= 0)%Z). { replace 0%Z with (Ztrunc 0) by apply Ztrunc_IZR. apply Ztrunc_le. lra. }
    assert (Z2 : (Ztrunc v' <= Ztrunc v)%Z) by (apply Ztrunc_le; lra).
    assert (Z3 : (0 <=? Ztrunc v)%Z && (Ztrunc v <? 2 ^ 64)%Z = true) by lia. rewrite Z3. lia.
Qed.
