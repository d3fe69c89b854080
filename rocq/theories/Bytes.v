(** Big-endian byte strings as numbers (no modelled code in this file). *)
From Coq Require Import List Arith NArith Bool Lia.
From Verif Require Import Bits EntryListSpec EntryListProofs.
Import ListNotations.

(** The [n]-byte big-endian encoding of [x] (modulo [256^n]). *)
Fixpoint be_enc (n : nat) (x : N) : list N :=
  match n with
  | O => []
  | S n' => (x / 256 ^ N.of_nat n') mod 256 :: be_enc n' x
  end%N.

Fixpoint map2 {A B C} (f : A -> B -> C) (a : list A) (b : list B) : list C :=
  match a, b with
  | x :: a', y :: b' => f x y :: map2 f a' b'
  | _, _ => []
  end.

Lemma map2_length {A B C} (f : A -> B -> C) a b : length a = length b -> length (map2 f a b) = length a.
Proof. revert b; induction a as [|x a IH]; intros [|y b] H; simpl in *; auto; try lia. Qed.
Lemma map2_app {A B C} (f : A -> B -> C) a a' b b' : length a = length b ->
  map2 f (a ++ a') (b ++ b') = map2 f a b ++ map2 f a' b'.
Proof. revert b; induction a as [|x a IH]; intros [|y b] H; simpl in *; try lia; auto. f_equal. apply IH. lia. Qed.
Lemma map2_nth {A B C} (f : A -> B -> C) a b i da db dc : length a = length b -> i < length a ->
  nth i (map2 f a b) dc = f (nth i a da) (nth i b db).
Proof.
  revert b i; induction a as [|x a IH]; intros [|y b] [|i] H L; simpl in *; try lia; auto.
  apply IH; lia.
Qed.
Lemma map2_skipn {A B C} (f : A -> B -> C) n a b : skipn n (map2 f a b) = map2 f (skipn n a) (skipn n b).
Proof.
  revert a b; induction n as [|n IH]; intros [|x a] [|y b]; simpl; auto.
  destruct (skipn n a); reflexivity.
Qed.
Lemma map2_firstn {A B C} (f : A -> B -> C) n a b : firstn n (map2 f a b) = map2 f (firstn n a) (firstn n b).
Proof. revert a b; induction n as [|n IH]; intros [|x a] [|y b]; simpl; auto. f_equal; auto. Qed.

Lemma bytes_ok_app a b : bytes_ok (a ++ b) <-> bytes_ok a /\ bytes_ok b.
Proof. apply Forall_app. Qed.
Lemma bytes_ok_cons a b : bytes_ok (a :: b) <-> (a < 256)%N /\ bytes_ok b.
Proof. split; [intros H; inversion H; auto|intros [? ?]; constructor; auto]. Qed.
Lemma bytes_ok_repeat x n : (x < 256)%N -> bytes_ok (repeat x n).
Proof. intros H. apply Forall_forall. intros y Hy. apply repeat_spec in Hy. subst; auto. Qed.
Lemma bytes_ok_concat l : Forall bytes_ok l -> bytes_ok (concat l).
Proof. induction 1; simpl; [constructor|]. apply bytes_ok_app; auto. Qed.

Lemma land_lt_l a b n : (a < 2 ^ n -> N.land a b < 2 ^ n)%N.
Proof.
  intros H. destruct (N.eq_dec (N.land a b) 0) as [E|E].
  - rewrite E. lia.
  - apply N.log2_lt_pow2; [lia|]. pose proof (N.log2_land a b) as L.
    destruct (N.eq_dec a 0) as [->|Ha]; [rewrite N.land_0_l in E; congruence|].
    apply N.log2_lt_pow2 in H; lia.
Qed.
Lemma land_byte_lt a b : (a < 256 -> N.land a b < 256)%N.
Proof. change 256%N with (2 ^ 8)%N. apply land_lt_l. Qed.

Lemma bytes_ok_map2_land a b : bytes_ok a -> bytes_ok (map2 N.land a b).
Proof.
  intros H; revert b; induction H as [|x a Hx _ IH]; intros [|y b]; simpl; try constructor; auto.
  - apply land_byte_lt; auto.
  - apply IH.
Qed.

Lemma be_val_nil : be_val [] = 0%N.
Proof. reflexivity. Qed.

Lemma pow256 n : (256 ^ N.of_nat n = 2 ^ N.of_nat (8 * n))%N.
Proof. replace (N.of_nat (8 * n)) with (8 * N.of_nat n)%N by lia. rewrite N.pow_mul_r. reflexivity. Qed.

Lemma be_val_app a b : be_val (a ++ b) = (be_val a * 256 ^ N.of_nat (length b) + be_val b)%N.
Proof.
  induction a as [|x a IH]; [reflexivity|]. cbn [app]. rewrite !be_val_cons, IH, app_length, Nat2N.inj_add, N.pow_add_r. lia.
Qed.

Lemma be_val_lt2 l : bytes_ok l -> (be_val l < 2 ^ N.of_nat (8 * length l))%N.
Proof. rewrite <- pow256. apply be_val_lt. Qed.

Lemma be_val_inj a b : bytes_ok a -> bytes_ok b -> length a = length b -> be_val a = be_val b -> a = b.
Proof.
  intros Ha; revert b; induction Ha as [|x a Hx Ha IH]; intros [|y b] Hb L E; simpl in L; try lia; auto.
  apply bytes_ok_cons in Hb as [Hy Hb]. rewrite !be_val_cons in E.
  pose proof (be_val_lt _ Ha) as A. pose proof (be_val_lt _ Hb) as B.
  assert (LL : length b = length a) by lia. rewrite LL in B, E.
  set (p := (256 ^ N.of_nat (length a))%N) in *.
  assert (x = y) by (destruct (N.lt_trichotomy x y) as [?|[?|?]]; nia). subst. f_equal. apply IH; auto. lia.
Qed.

Lemma shift_add_testbit a r k i : (r < 2 ^ k)%N ->
  N.testbit (a * 2 ^ k + r) i = if (i <? k)%N then N.testbit r i else N.testbit a (i - k).
Proof.
  intros Hr. destruct (N.ltb_spec i k) as [L|L].
  - rewrite <- (N.mod_pow2_bits_low _ k) by auto.
    rewrite N.add_comm, N.mod_add by (apply N.pow_nonzero; lia). rewrite N.mod_small; auto.
  - replace i with ((i - k) + k)%N at 1 by lia. rewrite <- N.div_pow2_bits.
    rewrite N.add_comm, N.div_add by (apply N.pow_nonzero; lia). rewrite N.div_small by auto. f_equal.
Qed.

Lemma land_split a b r s k : (r < 2 ^ k -> s < 2 ^ k ->
  N.land (a * 2 ^ k + r) (b * 2 ^ k + s) = N.land a b * 2 ^ k + N.land r s)%N.
Proof.
  intros Hr Hs. apply N.bits_inj. intros i.
  rewrite N.land_spec, !shift_add_testbit by (auto; apply land_lt_l; auto).
  destruct (i <? k)%N; rewrite N.land_spec; reflexivity.
Qed.

Lemma be_val_land a b : bytes_ok a -> bytes_ok b -> length a = length b ->
  be_val (map2 N.land a b) = N.land (be_val a) (be_val b).
Proof.
  intros Ha; revert b; induction Ha as [|x a Hx Ha IH]; intros [|y b] Hb L; simpl in L; try lia; auto.
  apply bytes_ok_cons in Hb as [Hy Hb]. cbn [map2]. rewrite !be_val_cons, map2_length, IH by (auto; lia).
  replace (length b) with (length a) by lia.
  rewrite !pow256, land_split; auto. 1: apply be_val_lt2; auto.
  replace (length a) with (length b) by lia. apply be_val_lt2; auto.
Qed.

Lemma be_val_bits l : bytes_ok l -> be_val l = of_bits (bits_of_bytes l).
Proof.
  induction 1 as [|x a Hx Ha IH]; [reflexivity|].
  rewrite be_val_cons, bits_of_bytes_cons, of_bits_app, <- IH, bits_of_bytes_length, of_bits_bitsN, pow256.
  f_equal. f_equal. symmetry. apply N.mod_small. exact Hx.
Qed.

Lemma be_enc_length n x : length (be_enc n x) = n.
Proof. induction n; simpl; auto. Qed.
Lemma be_enc_ok n x : bytes_ok (be_enc n x).
Proof. induction n; simpl; constructor; auto. apply N.mod_lt. lia. Qed.
Lemma be_val_enc n x : be_val (be_enc n x) = (x mod 256 ^ N.of_nat n)%N.
Proof.
  induction n as [|n IH]; cbn [be_enc].
  - cbn. rewrite N.mod_1_r. reflexivity.
  - rewrite be_val_cons, be_enc_length, IH, Nat2N.inj_succ, N.pow_succ_r'.
    rewrite (N.mul_comm 256), N.mod_mul_r by (try apply N.pow_nonzero; lia). lia.
Qed.
Lemma be_enc_val l : bytes_ok l -> be_enc (length l) (be_val l) = l.
Proof.
  intros H. apply be_val_inj; auto using be_enc_ok, be_enc_length.
  rewrite be_val_enc. apply N.mod_small, be_val_lt; auto.
Qed.
Lemma be_enc_of l n v : bytes_ok l -> length l = n -> be_val l = v -> l = be_enc n v.
Proof. intros H <- <-. symmetry. apply be_enc_val; auto. Qed.

Lemma be_val_ones n : be_val (repeat 255%N n) = N.ones (N.of_nat (8 * n)).
Proof.
  induction n as [|n IH]; [reflexivity|]. cbn [repeat]. rewrite be_val_cons, IH, repeat_length, pow256.
  rewrite !N.ones_equiv. replace (8 * S n) with (8 + 8 * n) by lia.
  rewrite Nat2N.inj_add, N.pow_add_r. change (2 ^ N.of_nat 8)%N with 256%N.
  pose proof (N.pow_nonzero 2 (N.of_nat (8 * n))). lia.
Qed.
Lemma be_val_zeros n : be_val (repeat 0%N n) = 0%N.
Proof. induction n as [|n IH]; [reflexivity|]. cbn [repeat]. rewrite be_val_cons, IH. lia. Qed.

(** The first [p] bits of a byte string are its value shifted right. *)
Lemma firstn_bits_val p l : bytes_ok l -> p <= 8 * length l ->
  of_bits (firstn p (bits_of_bytes l)) = N.shiftr (be_val l) (N.of_nat (8 * length l - p)).
Proof.
  intros H L. rewrite be_val_bits by auto.
  rewrite <- (firstn_skipn p (bits_of_bytes l)) at 2. rewrite of_bits_app.
  set (s := skipn p _). assert (length s = 8 * length l - p) as E
    by (unfold s; rewrite skipn_length, bits_of_bytes_length; auto).
  rewrite <- E, N.shiftr_div_pow2, N.div_add_l by (apply N.pow_nonzero; lia).
  rewrite (N.div_small (of_bits s)) by apply of_bits_lt. lia.
Qed.

Lemma prefix_bits_iff p d c : bytes_ok d -> bytes_ok c -> length c = length d -> p <= 8 * length d ->
  is_prefix (firstn p (bits_of_bytes d)) (bits_of_bytes c) <->
  N.shiftr (be_val c) (N.of_nat (8 * length d - p)) = N.shiftr (be_val d) (N.of_nat (8 * length d - p)).
Proof.
  intros Hd Hc L P. rewrite <- L at 1. rewrite <- !firstn_bits_val by (auto; lia).
  assert (LF : length (firstn p (bits_of_bytes d)) = p) by (rewrite firstn_length, bits_of_bytes_length; lia).
  split.
  - intros [t E]. rewrite E, firstn_app, LF, Nat.sub_diag, firstn_O, app_nil_r, firstn_firstn, Nat.min_id. reflexivity.
  - intros E. exists (skipn p (bits_of_bytes c)). rewrite <- (firstn_skipn p (bits_of_bytes c)) at 1. f_equal.
    apply of_bits_inj; auto. rewrite LF, firstn_length, bits_of_bytes_length. lia.
Qed.

Lemma is_prefix_app {A} (a b c d : list A) : length a = length c ->
  is_prefix (a ++ b) (c ++ d) <-> a = c /\ is_prefix b d.
Proof.
  intros L. split.
  - intros [t E]. rewrite <- app_assoc in E. revert c L E. induction a as [|x a IH]; intros [|y c] L E; simpl in *; try lia.
    + split; auto. exists t; auto.
    + injection E as -> E. destruct (IH c) as [-> P]; auto.
  - intros [-> [t ->]]. exists t. rewrite app_assoc. reflexivity.
Qed.
