(** Bit strings (most significant bit first): the common vocabulary of specifications.
    No modelled code in this file. *)
From Coq Require Import List Arith NArith ZArith Lia Bool.
Import ListNotations.

(** The [w] low bits of [x], most significant first. *)
Fixpoint bitsN (w : nat) (x : N) : list bool :=
  match w with
  | O => []
  | S w' => N.testbit x (N.of_nat w') :: bitsN w' x
  end.

(** The number denoted by a bit string, most significant bit first. *)
Fixpoint of_bits_acc (l : list bool) (acc : N) : N :=
  match l with
  | [] => acc
  | b :: t => of_bits_acc t (2 * acc + N.b2n b)
  end.
Definition of_bits (l : list bool) : N := of_bits_acc l 0.

(** A byte string as a bit string. *)
Definition bits_of_bytes (l : list N) : list bool := flat_map (bitsN 8) l.

Definition bytes_ok (l : list N) : Prop := Forall (fun b => (b < 256)%N) l.

(** [p] is a prefix of [l]. *)
Definition is_prefix {A} (p l : list A) : Prop := exists t, l = p ++ t.

Lemma bitsN_length w x : length (bitsN w x) = w.
Proof. induction w; simpl; auto. Qed.

Lemma bitsN_nth w x i d : i < w -> nth i (bitsN w x) d = N.testbit x (N.of_nat (w - 1 - i)).
Proof.
  revert i; induction w as [|w IH]; intros [|i] H; simpl; try lia.
  - do 2 f_equal; lia.
  - rewrite IH by lia. do 2 f_equal; lia.
Qed.

Lemma bitsN_ext w x y : (forall i, i < w -> N.testbit x (N.of_nat i) = N.testbit y (N.of_nat i)) ->
  bitsN w x = bitsN w y.
Proof.
  induction w as [|w IH]; intros H; simpl; auto. f_equal; [apply H; lia|]. apply IH; intros; apply H; lia.
Qed.

Lemma bitsN_inv w x y : bitsN w x = bitsN w y ->
  forall i, i < w -> N.testbit x (N.of_nat i) = N.testbit y (N.of_nat i).
Proof.
  induction w as [|w IH]; simpl; intros H i Hi; [lia|].
  injection H as H1 H2. destruct (Nat.eq_dec i w) as [->|]; auto. apply IH; auto; lia.
Qed.

Lemma testbit_high x w i : (x < 2 ^ N.of_nat w)%N -> w <= i -> N.testbit x (N.of_nat i) = false.
Proof.
  intros H L. rewrite <- (N.mod_small x (2 ^ N.of_nat w)) by auto. apply N.mod_pow2_bits_high. lia.
Qed.

Lemma bitsN_inj w x y : (x < 2 ^ N.of_nat w)%N -> (y < 2 ^ N.of_nat w)%N ->
  bitsN w x = bitsN w y -> x = y.
Proof.
  intros Hx Hy H. apply N.bits_inj. intros n. rewrite <- (N2Nat.id n).
  destruct (Nat.lt_ge_cases (N.to_nat n) w) as [L|L].
  - apply (bitsN_inv w); auto.
  - rewrite !(testbit_high _ w); auto.
Qed.

Lemma bitsN_mod w x : bitsN w (x mod 2 ^ N.of_nat w) = bitsN w x.
Proof. apply bitsN_ext. intros i Hi. apply N.mod_pow2_bits_low. lia. Qed.

Lemma bitsN_app a b x : bitsN (a + b) x = bitsN a (N.shiftr x (N.of_nat b)) ++ bitsN b x.
Proof.
  induction a as [|a IH]; simpl; auto. rewrite IH. f_equal.
  rewrite N.shiftr_spec by lia. f_equal; lia.
Qed.

Lemma bitsN_firstn k w x : k <= w -> firstn k (bitsN w x) = bitsN k (N.shiftr x (N.of_nat (w - k))).
Proof.
  intros H. replace w with (k + (w - k)) at 1 by lia. rewrite bitsN_app.
  rewrite firstn_app, bitsN_length, Nat.sub_diag, firstn_O, app_nil_r.
  apply firstn_all2. rewrite bitsN_length; auto.
Qed.

Lemma bitsN_skipn k w x : k <= w -> skipn k (bitsN w x) = bitsN (w - k) x.
Proof.
  intros H. replace w with (k + (w - k)) at 1 by lia. rewrite bitsN_app.
  rewrite skipn_app, bitsN_length, Nat.sub_diag, skipn_O.
  rewrite skipn_all2 by (rewrite bitsN_length; auto). reflexivity.
Qed.

Lemma of_bits_acc_eq l acc : of_bits_acc l acc = (acc * 2 ^ N.of_nat (length l) + of_bits_acc l 0)%N.
Proof.
  revert acc; induction l as [|b t IH]; intros acc; cbn [of_bits_acc length].
  - rewrite N.pow_0_r; lia.
  - rewrite (IH (2 * acc + N.b2n b)%N), (IH (2 * 0 + N.b2n b)%N).
    rewrite Nat2N.inj_succ, N.pow_succ_r'. lia.
Qed.

Lemma of_bits_cons b l : of_bits (b :: l) = (N.b2n b * 2 ^ N.of_nat (length l) + of_bits l)%N.
Proof. unfold of_bits. cbn [of_bits_acc]. rewrite of_bits_acc_eq. f_equal. Qed.

Lemma of_bits_app a b : of_bits (a ++ b) = (of_bits a * 2 ^ N.of_nat (length b) + of_bits b)%N.
Proof.
  induction a as [|x a IH]; [reflexivity|].
  cbn [app]. rewrite !of_bits_cons, IH, app_length, Nat2N.inj_add, N.pow_add_r. lia.
Qed.

Lemma of_bits_lt l : (of_bits l < 2 ^ N.of_nat (length l))%N.
Proof.
  induction l as [|b l IH]; [reflexivity|].
  rewrite of_bits_cons. cbn [length]. rewrite Nat2N.inj_succ, N.pow_succ_r'.
  destruct b; cbn [N.b2n]; lia.
Qed.

Lemma bitsN_of_bits l : bitsN (length l) (of_bits l) = l.
Proof.
  induction l as [|b l IH]; [reflexivity|].
  cbn [length bitsN]. rewrite of_bits_cons. f_equal.
  - rewrite N.add_comm, (N.mul_comm (N.b2n b)).
    pose proof (of_bits_lt l) as L.
    destruct b; cbn [N.b2n].
    + rewrite N.mul_1_r. apply N.testbit_true.
      rewrite <- (N.mul_1_l (2 ^ _)) at 1. rewrite N.div_add by (apply N.pow_nonzero; lia).
      rewrite N.div_small by auto. reflexivity.
    + rewrite N.mul_0_r, N.add_0_r. apply (testbit_high _ (length l)); auto.
  - transitivity (bitsN (length l) (of_bits l)); [|exact IH]. apply bitsN_ext. intros i Hi.
    rewrite <- (N.mod_pow2_bits_low _ (N.of_nat (length l))) by lia.
    rewrite N.add_comm, N.mod_add by (apply N.pow_nonzero; lia).
    rewrite N.mod_pow2_bits_low by lia. reflexivity.
Qed.

Lemma of_bits_bitsN w x : of_bits (bitsN w x) = (x mod 2 ^ N.of_nat w)%N.
Proof.
  apply (bitsN_inj w).
  - pose proof (of_bits_lt (bitsN w x)) as L. rewrite bitsN_length in L. auto.
  - apply N.mod_lt, N.pow_nonzero; lia.
  - rewrite bitsN_mod. pose proof (bitsN_of_bits (bitsN w x)) as E. rewrite bitsN_length in E. auto.
Qed.

Lemma of_bits_inj a b : length a = length b -> of_bits a = of_bits b -> a = b.
Proof.
  intros L H. rewrite <- (bitsN_of_bits a), <- (bitsN_of_bits b), L, H. reflexivity.
Qed.

Lemma bits_of_bytes_length l : length (bits_of_bytes l) = 8 * length l.
Proof.
  induction l as [|b l IH]; [reflexivity|]. unfold bits_of_bytes in *. cbn [flat_map].
  rewrite app_length, bitsN_length, IH. cbn [length]. lia.
Qed.

Lemma bits_of_bytes_cons b l : bits_of_bytes (b :: l) = bitsN 8 b ++ bits_of_bytes l.
Proof. reflexivity. Qed.

Lemma bits_of_bytes_app a b : bits_of_bytes (a ++ b) = bits_of_bytes a ++ bits_of_bytes b.
Proof. apply flat_map_app. Qed.

Lemma bits_of_bytes_inj a b : bytes_ok a -> bytes_ok b -> bits_of_bytes a = bits_of_bytes b -> a = b.
Proof.
  revert b; induction a as [|x a IH]; intros [|y b] Ha Hb H; auto;
    try (apply (f_equal (@length bool)) in H; rewrite !bits_of_bytes_length in H; cbn in H; lia).
  inversion Ha; inversion Hb; subst. rewrite !bits_of_bytes_cons in H.
  assert (E : bitsN 8 x = bitsN 8 y).
  { apply (f_equal (firstn 8)) in H. rewrite !firstn_app, !bitsN_length, Nat.sub_diag, !firstn_O, !app_nil_r in H.
    rewrite !firstn_all2 in H by (rewrite bitsN_length; auto). auto. }
  rewrite E in H. apply app_inv_head in H.
  f_equal; auto. apply (bitsN_inj 8); auto.
Qed.

Lemma firstn_bits_cons k b l : 8 <= k ->
  firstn k (bits_of_bytes (b :: l)) = bitsN 8 b ++ firstn (k - 8) (bits_of_bytes l).
Proof.
  intros H. rewrite bits_of_bytes_cons, firstn_app, bitsN_length.
  rewrite firstn_all2 by (rewrite bitsN_length; lia). reflexivity.
Qed.

Lemma firstn_bits_cons_low k b l : k <= 8 ->
  firstn k (bits_of_bytes (b :: l)) = bitsN k (N.shiftr b (N.of_nat (8 - k))).
Proof.
  intros H. rewrite bits_of_bytes_cons, firstn_app, bitsN_length.
  replace (k - 8) with 0 by lia. rewrite firstn_O, app_nil_r. apply bitsN_firstn; auto.
Qed.

Lemma shiftr_lt b k w : (b < 2 ^ N.of_nat w)%N -> k <= w -> (N.shiftr b (N.of_nat (w - k)) < 2 ^ N.of_nat k)%N.
Proof.
  intros H L. rewrite N.shiftr_div_pow2. apply N.div_lt_upper_bound; [apply N.pow_nonzero; lia|].
  rewrite <- N.pow_add_r. replace (N.of_nat (w - k) + N.of_nat k)%N with (N.of_nat w) by lia. auto.
Qed.
