From Coq Require Import List Arith NArith ZArith Bool Lia Reals Lra.
From Flocq Require Import Core BinarySingleNaN Relative.
From Verif Require Import Base MeterModel PiResModel PiRateModel PiRateProofs MSaveModel MSaveSpec MSaveProofs.
Import ListNotations.
Open Scope R_scope.

(** * Printing a double *)
Definition pos_dbl (f : dbl) : Prop := is_finite f = true /\ 0 < B2R f.
Lemma pos_shape f : pos_dbl f -> exists n d, (0 < n)%Z /\ (0 < d)%Z /\ B2R f = IZR n / IZR d /\ d_print f = Some (print_frac n d).
Proof.
  intros [F P]. destruct f as [s|s| |s m e H]; try discriminate; [cbn in P; lra|].
  destruct s.
  { exfalso. cbn in P. assert (F2R (Float radix2 (Zneg m) e) < 0) by (apply F2R_lt_0; cbn; lia). cbn in *. lra. }
  unfold d_print. destruct (Z.leb_spec 0 e) as [E|E].
  - exists (Z.pos m * 2 ^ e)%Z, 1%Z. split; [assert (0 < 2 ^ e)%Z by (apply Z.pow_pos_nonneg; lia); lia|]. split; [lia|]. split; [|reflexivity].
    cbn [B2R cond_Zopp]. unfold F2R. cbn [Fnum Fexp]. rewrite mult_IZR. unfold Rdiv. rewrite Rinv_1, Rmult_1_r. f_equal.
    rewrite <- (IZR_Zpower radix2 e E). reflexivity.
  - exists (Z.pos m), (2 ^ (- e))%Z. split; [lia|]. split; [apply Z.pow_pos_nonneg; lia|]. split; [|reflexivity].
    cbn [B2R cond_Zopp]. unfold F2R. cbn [Fnum Fexp]. unfold Rdiv. f_equal.
    change (2 ^ (- e))%Z with (Zpower radix2 (- e)). rewrite IZR_Zpower by lia. rewrite <- bpow_opp. f_equal. lia.
Qed.
Lemma print_ok f : pos_dbl f -> exists q x, d_print f = Some (DNum q x) /\ (100000 <= q < 1000000)%Z /\
  Rabs (B2R f - dec q x) <= B2R f * / 200000.
Proof.
  intros P. destruct (pos_shape f P) as (n & d & N & D & E & Q). destruct (print_frac_ok n d N D) as (q & x & A & B & C).
  exists q, x. rewrite Q, A, E. auto.
Qed.
Lemma print_near f k y : pos_dbl f -> (100000 <= k < 1000000)%Z -> near u (dec k y) (B2R f) -> d_print f = Some (DNum k y).
Proof.
  intros P K N. destruct (pos_shape f P) as (n & d & Hn & D & E & Q). rewrite Q. f_equal. apply print_frac_near; auto. rewrite <- E. auto.
Qed.

(** * Reading *)
Lemma frac_ok n d : Rabs (RN (IZR (Zpos n) / IZR (Zpos d))) < bpow radix2 1024 ->
  B2R (frac_dbl n d) = RN (IZR (Zpos n) / IZR (Zpos d)) /\ is_finite (frac_dbl n d) = true.
Proof.
  intros H. unfold frac_dbl.
  pose proof (proj2 (Bdiv_correct_aux 53 1024 prec_ok emax_ok mode_NE false n 0 false d 0)) as C.
  cbn [cond_Zopp round_mode] in C. unfold F2R in C. cbn [Fnum Fexp bpow] in C. rewrite !Rmult_1_r in C.
  rewrite Rlt_bool_true in C by auto. destruct C as (C1 & C2 & _). rewrite B2R_SF2B, is_finite_SF2B. auto.
Qed.
Lemma p10_range x : (-300 <= x <= 301)%Z -> bpow radix2 (-1022) <= p10 x /\ 2 * p10 x < bpow radix2 1024.
Proof.
  intros [A B].
  assert (L : p10 (-300) <= p10 x) by (apply bpow_le; auto). assert (U : p10 x <= p10 301) by (apply bpow_le; auto).
  split.
  - eapply Rle_trans; [|exact L]. change (-300)%Z with (- (300))%Z. change (-1022)%Z with (- (1022))%Z. rewrite !bpow_opp.
    apply Rinv_le; [apply bpow_gt_0|]. rewrite <- !IZR_Zpower by lia. apply IZR_le. apply Z.leb_le. vm_compute. reflexivity.
  - apply Rle_lt_trans with (2 * p10 301); [lra|]. rewrite <- !IZR_Zpower by lia. rewrite <- mult_IZR. apply IZR_lt. apply Z.ltb_lt. vm_compute. reflexivity.
Qed.
Lemma dec_range q x : (100000 <= q < 1000000)%Z -> p10 x <= dec q x < p10 (x + 1).
Proof.
  intros Q. unfold dec. rewrite p10_S, dec_10. pose proof (p10_pos (x - 5)).
  assert (100000 <= IZR q) by (apply IZR_le; lia). assert (IZR q < 1000000) by (apply IZR_lt; lia).
  split; [apply Rmult_le_compat_r; lra|]. rewrite <- Rmult_assoc. apply Rmult_lt_compat_r; lra.
Qed.
Lemma frac_dec q x : IZR (Zpos (q * Z.to_pos (10 ^ Z.max 0 (x - 5)))) / IZR (Zpos (Z.to_pos (10 ^ Z.max 0 (5 - x)))) = dec (Zpos q) x.
Proof.
  rewrite Pos2Z.inj_mul, mult_IZR. rewrite !Z2Pos.id by (apply Z.pow_pos_nonneg; lia).
  change (10 ^ Z.max 0 (x - 5))%Z with (Zpower r10 (Z.max 0 (x - 5))). change (10 ^ Z.max 0 (5 - x))%Z with (Zpower r10 (Z.max 0 (5 - x))).
  rewrite !IZR_Zpower by lia. unfold dec, Rdiv. rewrite Rmult_assoc. f_equal. rewrite <- bpow_opp, <- bpow_plus. f_equal. lia.
Qed.
Lemma scan_ok q x : (100000 <= q < 1000000)%Z -> (-300 <= x <= 300)%Z ->
  exists f, d_scan (DNum q x) = Some f /\ pos_dbl f /\ B2R f = RN (dec q x) /\ near u (dec q x) (B2R f).
Proof.
  intros Q X. destruct q as [|q|q]; try lia. destruct (dec_range (Zpos q) x Q) as [R1 R2].
  destruct (p10_range x ltac:(lia)) as [L _]. destruct (p10_range (x + 1) ltac:(lia)) as [_ U]. pose proof u_pos as UP.
  assert (N : near u (dec (Zpos q) x) (RN (dec (Zpos q) x))) by (apply RN_near; lra). pose proof (p10_pos x) as PX.
  assert (D : 0 < dec (Zpos q) x) by lra.
  assert (DU : 0 <= dec (Zpos q) x * u <= dec (Zpos q) x * / 9007199254740000) by (split; [apply Rmult_le_pos|apply Rmult_le_compat_l]; lra).
  destruct N as [N1 N2].
  destruct (frac_ok (q * Z.to_pos (10 ^ Z.max 0 (x - 5))) (Z.to_pos (10 ^ Z.max 0 (5 - x)))) as [A B].
  { rewrite frac_dec. rewrite Rabs_pos_eq by lra. lra. }
  rewrite frac_dec in A. unfold d_scan. set (f := frac_dbl _ _) in *. exists f. rewrite B, A. unfold pos_dbl. rewrite A, B.
  split; auto. split; [split; auto; lra|]. split; auto. split; lra.
Qed.

(** * Six digits survive *)
Lemma six_digits_normal k j : (0 < k < 1000000)%Z -> exists q x, (100000 <= q < 1000000)%Z /\ IZR k * p10 j = dec q x /\ (j <= x <= j + 5)%Z.
Proof.
  intros K. unfold dec.
  destruct (Z_lt_le_dec k 10) as [C1|C1]; [exists (k * 100000)%Z, j|
  destruct (Z_lt_le_dec k 100) as [C2|C2]; [exists (k * 10000)%Z, (j + 1)%Z|
  destruct (Z_lt_le_dec k 1000) as [C3|C3]; [exists (k * 1000)%Z, (j + 2)%Z|
  destruct (Z_lt_le_dec k 10000) as [C4|C4]; [exists (k * 100)%Z, (j + 3)%Z|
  destruct (Z_lt_le_dec k 100000) as [C5|C5]; [exists (k * 10)%Z, (j + 4)%Z|exists k, (j + 5)%Z]]]]];
  (split; [lia|split; [|lia]]); rewrite ?mult_IZR.
  - rewrite <- (Z.sub_add 5 j) at 1. rewrite bpow_plus. cbn [bpow]. change (IZR (Z.pow_pos r10 5)) with 100000. lra.
  - replace j with (4 + (j + 1 - 5))%Z at 1 by lia. rewrite bpow_plus. cbn [bpow]. change (IZR (Z.pow_pos r10 4)) with 10000. lra.
  - replace j with (3 + (j + 2 - 5))%Z at 1 by lia. rewrite bpow_plus. cbn [bpow]. change (IZR (Z.pow_pos r10 3)) with 1000. lra.
  - replace j with (2 + (j + 3 - 5))%Z at 1 by lia. rewrite bpow_plus. cbn [bpow]. change (IZR (Z.pow_pos r10 2)) with 100. lra.
  - replace j with (1 + (j + 4 - 5))%Z at 1 by lia. rewrite bpow_plus. cbn [bpow]. change (IZR (Z.pow_pos r10 1)) with 10. lra.
  - f_equal. f_equal. lia.
Qed.
Lemma dbl_eq f g : pos_dbl f -> pos_dbl g -> B2R f = B2R g -> f = g.
Proof.
  intros [F1 F2] [G1 G2] E. apply B2R_inj; auto.
  - destruct f; try discriminate; auto. cbn in F2. lra.
  - destruct g; try discriminate; auto. cbn in G2. lra.
Qed.
Theorem six_ok f : six_digits f -> exists s, d_print f = Some s /\ d_scan s = Some f.
Proof.
  intros [->|(k & j & K & J & F & B)]; [exists DZero; auto|].
  change (round radix2 (FLT_exp (-1074) 53) ZnearestE (IZR k * p10 j)) with (RN (IZR k * p10 j)) in B.
  destruct (six_digits_normal k j K) as (q & x & Q & E & X). rewrite E in B.
  destruct (scan_ok q x Q ltac:(lia)) as (g & S & G & BG & N).
  assert (P : pos_dbl f). { split; auto. rewrite B, <- BG. apply G. }
  exists (DNum q x). split.
  - apply print_near; auto. rewrite B, <- BG. auto.
  - rewrite S. f_equal. apply dbl_eq; auto. congruence.
Qed.

(** * Any rate is close to what is restored, which then survives *)
Theorem any_ok f : pos_dbl f -> / 10000000000 <= B2R f <= IZR (2 ^ 64) ->
  exists s g, d_print f = Some s /\ d_scan s = Some g /\ pos_dbl g /\ six_digits g /\ d_print g = Some s /\
    near (/ 199999) (B2R f) (B2R g).
Proof.
  intros P [L U]. destruct (print_ok f P) as (q & x & A & Q & E). apply Rabs_le_inv in E. destruct (dec_range q x Q) as [D1 D2].
  assert (X : (-12 <= x <= 30)%Z).
  { split.
    - assert (H : p10 (-12) < p10 (x + 1)). { eapply Rlt_trans; [|exact D2]. cbn [bpow]. change (IZR (Z.pow_pos r10 12)) with 1000000000000. lra. }
      apply lt_bpow in H. lia.
    - assert (H : p10 x < p10 30). { eapply Rle_lt_trans; [exact D1|]. cbn [bpow]. change (IZR (Z.pow_pos r10 30)) with 1000000000000000000000000000000. change (2 ^ 64)%Z with 18446744073709551616%Z in U. lra. }
      apply lt_bpow in H. lia. }
  destruct (scan_ok q x Q ltac:(lia)) as (g & S & G & BG & N). exists (DNum q x), g.
  split; auto. split; auto. split; auto. split; [|split].
  - right. exists q, (x - 5)%Z. split; [lia|]. split; [lia|]. split; [apply G|]. rewrite BG. reflexivity.
  - apply print_near; auto.
  - pose proof u_pos. apply near_trans with (a := / 200000) (b := u) (y := dec q x); auto; try lra. unfold near. lra.
Qed.
