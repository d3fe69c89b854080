From Coq Require Import List Arith NArith ZArith Bool Lia Reals Lra.
From Flocq Require Import Core BinarySingleNaN Relative.
From Verif Require Import Base PiRateModel PiRateProofs PiLcfgModel.
Import ListNotations.
Open Scope R_scope.

(** A quotient by 10^6 below 2^32 is not rounded up to the next integer *)
Lemma div_round n k r : (0 <= k)%Z -> (0 <= r < 1000000)%Z -> n = (k * 1000000 + r)%Z -> (n < 2 ^ 32 * 1000000)%Z ->
  IZR k <= RN (IZR n / 1000000) < IZR k + 1.
Proof.
  intros K R -> L. assert (Kb : (k < 2 ^ 32)%Z) by lia. pose proof (IZR_lt _ _ Kb) as Kr. pose proof (IZR_le _ _ K) as K0.
  pose proof (IZR_le _ _ (proj1 R)) as R0. assert (R1 : (r <= 999999)%Z) by lia. apply IZR_le in R1. change (2 ^ 32)%Z with 4294967296%Z in Kr.
  assert (Ex : IZR (k * 1000000 + r) / 1000000 = IZR k + IZR r / 1000000). { rewrite plus_IZR, mult_IZR. field. }
  rewrite Ex. split.
  - rewrite <- (int_exact k) at 1 by lia. apply RN_ge. lra.
  - destruct (Z.eq_dec (k * 1000000 + r) 0) as [Z|Z].
    { assert (k = 0)%Z by lia. assert (r = 0)%Z by lia. subst k r. replace (0 + 0 / 1000000) with 0 by field. rewrite RN_0. lra. }
    assert (P : / 100000000 <= IZR k + IZR r / 1000000).
    { rewrite <- Ex. assert (Q : (1 <= k * 1000000 + r)%Z) by lia. apply IZR_le in Q. lra. }
    destruct (RN_near _ (small _ P)) as [_ U]. pose proof u_pos as [U0 U1].
    assert (X : IZR k + IZR r / 1000000 < 4294967297) by lra.
    assert (Y : (IZR k + IZR r / 1000000) * u <= 4294967297 * / 9007199254740000) by (apply Rmult_le_compat; lra). lra.
Qed.
Lemma small_exact n : (n < 2 ^ 53)%N -> B2R (d_of n) = IZR (Z.of_N n).
Proof. intros H. destruct (d_of_ok n) as [E _]; [change (2 ^ 64)%N with 18446744073709551616%N; change (2 ^ 53)%N with 9007199254740992%N in H; lia|]. rewrite E. apply int_exact. change (2 ^ 53)%Z with 9007199254740992%Z. change (2 ^ 53)%N with 9007199254740992%N in H. lia. Qed.
Lemma ms_ok ns : (ns < 2 ^ 32 * 1000000)%N -> timeout_ms ns = Some (ns / 1000000)%N.
Proof.
  intros H. change (2 ^ 32 * 1000000)%N with 4294967296000000%N in H. unfold timeout_ms, d_to32.
  assert (H64 : (ns < 2 ^ 64)%N) by (change (2 ^ 64)%N with 18446744073709551616%N; lia).
  destruct (rate_of_ok ns H64) as [E F]. rewrite small_exact in E by (change (2 ^ 53)%N with 9007199254740992%N; lia).
  pose proof (N.div_mod ns 1000000 ltac:(lia)) as D. pose proof (N.mod_lt ns 1000000 ltac:(lia)) as M. set (k := (ns / 1000000)%N) in *. set (r := (ns mod 1000000)%N) in *. clearbody k r.
  destruct (div_round (Z.of_N ns) (Z.of_N k) (Z.of_N r) ltac:(lia) ltac:(lia) ltac:(lia) ltac:(change (2 ^ 32 * 1000000)%Z with 4294967296000000%Z; lia)) as [A B]. rewrite <- E in A, B.
  assert (K : (k < 4294967296)%N) by lia. assert (Kr : IZR (Z.of_N k) <= 4294967295) by (apply IZR_le; lia). assert (K0 : 0 <= IZR (Z.of_N k)) by (apply IZR_le; lia).
  assert (Top : B2R (rate_of ns) < IZR (2 ^ 64)) by (change (2 ^ 64)%Z with 18446744073709551616%Z; lra).
  destruct (d_to_ok (rate_of ns) F (conj (Rle_trans _ _ _ K0 A) Top)) as (n & En & _ & N1 & N2). rewrite En.
  assert (n = k) as ->.
  { assert (X : IZR (Z.of_N n) < IZR (Z.of_N k + 1)) by (rewrite plus_IZR; lra). assert (Y : IZR (Z.of_N k) < IZR (Z.of_N n + 1)) by (rewrite plus_IZR; lra). apply lt_IZR in X. apply lt_IZR in Y. lia. }
  assert (Kl : (k <? 2 ^ 32)%N = true) by (apply N.ltb_lt; change (2 ^ 32)%N with 4294967296%N; lia). rewrite Kl. reflexivity.
Qed.
Lemma ms_big ns : (2 ^ 32 * 1000000 <= ns)%N -> (ns < 2 ^ 64)%N -> timeout_ms ns = None.
Proof.
  intros H H64. destruct (rate_of_ok ns H64) as [E F].
  assert (D0 : B2R (d_of 4294967296000000) <= B2R (d_of ns)) by (apply d_of_mono; [exact H|exact H64]).
  rewrite small_exact in D0 by reflexivity. change (Z.of_N 4294967296000000) with 4294967296000000%Z in D0.
  assert (L : IZR 4294967296 <= B2R (rate_of ns)). { rewrite E. rewrite <- (int_exact 4294967296) by (cbn; lia). apply RN_ge. lra. }
  unfold timeout_ms, d_to32. destruct (d_to (rate_of ns)) as [n|] eqn:En; [|reflexivity]. destruct (n <? 2 ^ 32)%N eqn:C; [exfalso|reflexivity]. apply N.ltb_lt in C.
  unfold d_to in En. destruct (_ && _) eqn:G; [|discriminate]. injection En as <-. rewrite Btrunc_ok in *. rewrite Ztrunc_floor in * by lra.
  pose proof (Zfloor_lub 4294967296 _ L) as Q. change (2 ^ 32)%N with 4294967296%N in C. lia.
Qed.
