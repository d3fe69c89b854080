(** Proofs about the Internet checksum. *)
From Coq Require Import List Arith NArith ZArith Bool Lia.
From Verif Require Import Base Bits Bytes EntryListSpec ExtractModel PhvModel ParserModel BufModel CksumModel CksumSpec.
Import ListNotations.
Local Open Scope N_scope.

(** [x] is the one's-complement representation on [m + 1] values of the number [n]. *)
Definition oc (m x n : N) : Prop := x <= m /\ (exists k, n = x + k * m) /\ (x = 0 -> n = 0).
Lemma oc_inj m x y n : 0 < m -> oc m x n -> oc m y n -> x = y.
Proof.
  intros M (A & (k & E) & Z) (A' & (k' & E') & Z'). subst n.
  destruct (N.lt_trichotomy k k') as [L|[->|L]]; [|lia|].
  - assert (k * m + m <= k' * m) by nia. assert (y = 0 /\ x = m) as [-> ->] by lia. specialize (Z' eq_refl). lia.
  - assert (k' * m + m <= k * m) by nia. assert (x = 0 /\ y = m) as [-> ->] by lia. specialize (Z eq_refl). lia.
Qed.
Definition M64 := 18446744073709551615. Definition M32 := 4294967295. Definition M16 := 65535.
Lemma add_c64 x n s : oc M64 x n -> s <= M64 -> oc M64 (add_c 64 x s) (n + s).
Proof.
  intros (A & (k & ->) & Z) S. unfold add_c, M64 in *. change (2 ^ 64) with 18446744073709551616.
  destruct (N.lt_ge_cases (x + s) 18446744073709551616) as [L|L].
  - rewrite (N.mod_small (x + s)) by lia. destruct (N.ltb_spec (x + s) s); [lia|]. split; [lia|]. split; [exists k; lia|lia].
  - replace ((x + s) mod 18446744073709551616) with (x + s - 18446744073709551616); [|apply N.mod_unique with 1; lia].
    destruct (N.ltb_spec (x + s - 18446744073709551616) s); [|lia]. rewrite N.mod_small by lia. split; [lia|]. split; [exists (k + 1); lia|lia].
Qed.
Lemma add_c32 x s : x <= M32 -> s <= M32 -> oc M32 (add_c 32 x s) (x + s).
Proof.
  intros A S. unfold add_c, M32 in *. change (2 ^ 32) with 4294967296.
  destruct (N.lt_ge_cases (x + s) 4294967296) as [L|L].
  - rewrite (N.mod_small (x + s)) by lia. destruct (N.ltb_spec (x + s) s); [lia|]. split; [lia|]. split; [exists 0; lia|lia].
  - replace ((x + s) mod 4294967296) with (x + s - 4294967296); [|apply N.mod_unique with 1; lia].
    destruct (N.ltb_spec (x + s - 4294967296) s); [|lia]. rewrite N.mod_small by lia. split; [lia|]. split; [exists 1; lia|lia].
Qed.
Lemma add_c16 x s : x <= M16 -> s <= M16 -> oc M16 (add_c 16 x s) (x + s).
Proof.
  intros A S. unfold add_c, M16 in *. change (2 ^ 16) with 65536.
  destruct (N.lt_ge_cases (x + s) 65536) as [L|L].
  - rewrite (N.mod_small (x + s)) by lia. destruct (N.ltb_spec (x + s) s); [lia|]. split; [lia|]. split; [exists 0; lia|lia].
  - replace ((x + s) mod 65536) with (x + s - 65536); [|apply N.mod_unique with 1; lia].
    destruct (N.ltb_spec (x + s - 65536) s); [|lia]. rewrite N.mod_small by lia. split; [lia|]. split; [exists 1; lia|lia].
Qed.
Lemma fold_ok sum n : oc M64 sum n -> oc M16 (fold_down sum) n.
Proof.
  intros (A & (k & ->) & Z). unfold fold_down. cbv zeta. change (2 ^ 32) with 4294967296. change (2 ^ 16) with 65536. unfold M64 in *.
  pose proof (N.div_mod sum 4294967296 ltac:(lia)) as D. pose proof (N.mod_lt sum 4294967296 ltac:(lia)) as L. pose proof (N.div_lt_upper_bound sum 4294967296 4294967296 ltac:(lia) ltac:(lia)) as H.
  rewrite (N.mod_small (sum / 4294967296)) by lia. set (lo := sum mod 4294967296) in *. set (hi := sum / 4294967296) in *. clearbody lo hi.
  destruct (add_c32 lo hi ltac:(unfold M32; lia) ltac:(unfold M32; lia)) as (B & (k1 & E1) & Z1). set (t1 := add_c 32 lo hi) in *. clearbody t1. unfold M32 in *.
  pose proof (N.div_mod t1 65536 ltac:(lia)) as D1. pose proof (N.mod_lt t1 65536 ltac:(lia)) as L1. pose proof (N.div_lt_upper_bound t1 65536 65536 ltac:(lia) ltac:(lia)) as H1.
  rewrite (N.mod_small (t1 / 65536)) by lia. set (l1 := t1 mod 65536) in *. set (h1 := t1 / 65536) in *. clearbody l1 h1.
  destruct (add_c16 l1 h1 ltac:(unfold M16; lia) ltac:(unfold M16; lia)) as (C & (k2 & E2) & Z2). set (t3 := add_c 16 l1 h1) in *. clearbody t3. unfold M16 in *.
  split; [lia|]. split; [|lia]. exists (k2 + h1 + k1 * 65537 + (hi + k * 4294967297) * 65537). lia.
Qed.

(** ** Sums of bytes *)
Definition b256 (l : list N) := Forall (fun b => b < 256) l.
(** Little-endian and big-endian sums of 16-bit words, without carries *)
Fixpoint L16 (l : list N) : N := match l with a :: b :: r => a + 256 * b + L16 r | [a] => a | [] => 0 end.
Fixpoint B16 (l : list N) : N := match l with a :: b :: r => 256 * a + b + B16 r | [a] => 256 * a | [] => 0 end.
Lemma pairs_ind (P : list N -> Prop) : P [] -> (forall a, P [a]) -> (forall a b r, P r -> P (a :: b :: r)) -> forall l, P l.
Proof. intros A B C. fix F 1. intros [|a [|b r]]; [exact A|apply B|apply C, F]. Qed.
Lemma LB l : exists k, 256 * L16 l = B16 l + k * M16.
Proof. unfold M16. induction l as [|a|a b r [k E]] using pairs_ind; cbn [L16 B16]; [exists 0; lia|exists 0; lia|]. exists (k + b). lia. Qed.
Lemma LB0 l : L16 l = 0 <-> B16 l = 0.
Proof. induction l as [|a|a b r E] using pairs_ind; cbn [L16 B16]; lia. Qed.
Lemma B16_words l : B16 l = fold_right N.add 0 (words16 l).
Proof. induction l as [|a|a b r E] using pairs_ind; cbn [B16 words16 fold_right]; lia. Qed.
Lemma words_lt l : b256 l -> Forall (fun w => w <= M16) (words16 l).
Proof. unfold M16. induction l as [|a|a b r E] using pairs_ind; intros H; cbn [words16]; [constructor| |]; inversion H as [|? ? H1 H2]; subst; [constructor; auto; lia|]. inversion H2; subst. constructor; auto. lia. Qed.
Lemma oc_sum_ok l : Forall (fun w => w <= M16) l -> oc M16 (oc_sum l) (fold_right N.add 0 l).
Proof.
  intros F. unfold oc_sum. assert (G : forall x n, oc M16 x n -> oc M16 (fold_left oc_add l x) (n + fold_right N.add 0 l)).
  { induction F as [|w l W F IH]; intros x n O; cbn [fold_left fold_right]; [rewrite N.add_0_r; auto|]. rewrite N.add_assoc. apply IH. destruct O as (A & (k & ->) & Z). unfold oc_add, M16 in *. cbv zeta. destruct (N.leb_spec 65536 (x + w)); split; try lia; split; try lia; [exists (k + 1); lia|exists k; lia]. }
  specialize (G 0 0). rewrite N.add_0_l in G. apply G. split; [unfold M16; lia|]. split; auto. exists 0. lia.
Qed.

(** Congruence and zero-preservation between what the code sums and [L16] *)
Definition same (n m : N) : Prop := (exists k, n = m + k * M16) /\ (m = 0 -> n = 0).
Lemma same_add a b c d : same a b -> same c d -> same (a + c) (b + d).
Proof. unfold same, M16. intros [(k & ->) A] [(k' & ->) B]. split; [exists (k + k'); lia|lia]. Qed.
Lemma oc_same x n m : oc M16 x n -> same n m -> oc M16 x m.
Proof.
  unfold oc, same, M16. intros (A & (k & E) & Z) ((k' & E') & Z'). split; auto. split; [|lia].
  destruct (N.lt_ge_cases k k') as [L|L].
  - assert (m = 0 /\ x = 65535 * (k' - k) + 0 \/ m < x) as [[-> B]|B] by lia.
    + lia.
    + exfalso. assert (m = 0) by lia. lia.
  - exists (k - k'). lia.
Qed.
Lemma le_lt l : b256 l -> le l < 256 ^ N.of_nat (length l).
Proof. induction 1 as [|b l B F IH]; cbn [le fold_right length]; [reflexivity|]. fold (le l). rewrite Nat2N.inj_succ, N.pow_succ_r'. lia. Qed.
Lemma L16_app a b r : L16 (a :: b :: r) = a + 256 * b + L16 r.
Proof. reflexivity. Qed.

Lemma oct_ind (P : list N -> Prop) : (forall l, (length l < 8)%nat -> P l) ->
  (forall b0 b1 b2 b3 b4 b5 b6 b7 r, P r -> P (b0 :: b1 :: b2 :: b3 :: b4 :: b5 :: b6 :: b7 :: r)) -> forall l, P l.
Proof. intros A B. fix F 1. intros [|b0 [|b1 [|b2 [|b3 [|b4 [|b5 [|b6 [|b7 r]]]]]]]]; [apply A; cbn; lia..|]. apply B, F. Qed.
Lemma main_short l s : (length l < 8)%nat -> main_loop l s = (s, l).
Proof. intros L. do 8 (destruct l as [|? l]; [reflexivity|]). cbn in L. lia. Qed.
Lemma same_chunk l : same (le l) (L16 l).
Proof.
  unfold same, M16. induction l as [|a|a b r [(k & E) Z]] using pairs_ind; cbn [le fold_right L16] in *.
  - split; [exists 0; lia|lia].
  - split; [exists 0; lia|lia].
  - fold (le r) in *. split; [|lia]. exists (k + le r). lia.
Qed.
Lemma L16_cat2 n l : L16 l = L16 (firstn (2 * n) l) + L16 (skipn (2 * n) l).
Proof.
  revert l. induction n as [|n IH]; intros l; [change (2 * 0)%nat with 0%nat; cbn [firstn skipn L16]; lia|]. replace (2 * S n)%nat with (S (S (2 * n))) by lia. destruct l as [|a [|b r]]; cbn [firstn skipn L16]; [lia|cbn; lia|]. rewrite (IH r). lia.
Qed.
Lemma b256_firstn n l : b256 l -> b256 (firstn n l).
Proof. intros F. apply Forall_forall. intros x IN. eapply (proj1 (Forall_forall _ _) F). rewrite <- (firstn_skipn n l). apply in_or_app. auto. Qed.
Lemma b256_skipn n l : b256 l -> b256 (skipn n l).
Proof. intros F. apply Forall_forall. intros x IN. eapply (proj1 (Forall_forall _ _) F). rewrite <- (firstn_skipn n l). apply in_or_app. auto. Qed.
(** The main loop: the sum represents the bytes consumed *)
Lemma main_ok l : forall s n, b256 l -> oc M64 s n -> exists m, oc M64 (fst (main_loop l s)) (n + m) /\ (length (snd (main_loop l s)) < 8)%nat /\ b256 (snd (main_loop l s)) /\ exists q, L16 l = q + L16 (snd (main_loop l s)) /\ same m q.
Proof.
  induction l as [l L|b0 b1 b2 b3 b4 b5 b6 b7 r IH] using oct_ind; intros s n B O.
  - rewrite main_short by auto. exists 0. cbn [fst snd]. rewrite N.add_0_r. split; auto. split; auto. split; auto. exists 0. split; [lia|]. split; [exists 0; unfold M16; lia|auto].
  - set (c := [b0; b1; b2; b3; b4; b5; b6; b7]). change (main_loop (b0 :: b1 :: b2 :: b3 :: b4 :: b5 :: b6 :: b7 :: r) s) with (main_loop r (add_c 64 s (le c))).
    change (b0 :: b1 :: b2 :: b3 :: b4 :: b5 :: b6 :: b7 :: r) with (c ++ r) in *. apply Forall_app in B as [BC BR]. pose proof (le_lt c BC) as LC. change (256 ^ N.of_nat (length c)) with 18446744073709551616 in LC.
    destruct (IH (add_c 64 s (le c)) (n + le c) BR) as (m & A1 & A2 & A3 & q & A4 & A5); [apply add_c64; auto; unfold M64; lia|].
    exists (le c + m). rewrite N.add_assoc. split; auto. split; auto. split; auto. exists (L16 c + q). split; [|apply same_add; auto; apply same_chunk].
    rewrite (L16_cat2 4 (c ++ r)). change (2 * 4)%nat with (length c). rewrite firstn_app, skipn_app, firstn_all, skipn_all, Nat.sub_diag. cbn [firstn skipn app]. rewrite app_nil_r, A4. lia.
Qed.
(** One step of the tail, [k > 0]: an even number of bytes *)
Lemma tail_ok k s t n : (k <= 3)%nat -> b256 t -> oc M64 s n -> (2 ^ k <= length t)%nat ->
  oc M64 (add_c 64 s (le (firstn (2 ^ k) t))) (n + le (firstn (2 ^ k) t)).
Proof.
  intros K B O L. apply add_c64; auto. pose proof (le_lt (firstn (2 ^ k) t) (b256_firstn _ _ B)) as LL. rewrite firstn_length_le in LL by auto.
  assert (256 ^ N.of_nat (2 ^ k) <= 256 ^ 8). { apply N.pow_le_mono_r; [lia|]. do 4 (destruct k as [|k]; [cbn; lia|]). lia. } change (256 ^ 8) with 18446744073709551616 in *. unfold M64. lia.
Qed.
Lemma cksum_tail s t n : (length t < 8)%nat -> b256 t -> oc M64 s n ->
  exists st m, (st2 <- tail_step (length t) 2 (s, t) ;; st1 <- tail_step (length t) 1 st2 ;; tail_step (length t) 0 st1) = Some st /\ oc M64 (fst st) (n + m) /\ same m (L16 t).
Proof.
  intros L B O. set (len := length t) in *.
  assert (ST : forall k s t n, (k <= 3)%nat -> b256 t -> oc M64 s n -> (if Nat.testbit len k then 2 ^ k <= length t else True)%nat ->
    exists s' t' m, tail_step len k (s, t) = Some (s', t') /\ oc M64 s' (n + m) /\ b256 t' /\ t' = (if Nat.testbit len k then skipn (2 ^ k) t else t) /\ m = (if Nat.testbit len k then le (firstn (2 ^ k) t) else 0)).
  { clearbody len. clear. intros k s t n K B O F. unfold tail_step. cbn [fst snd]. destruct (Nat.testbit len k).
    - rewrite (proj2 (Nat.leb_le _ _) F). eexists. eexists. eexists. split; [reflexivity|]. split; [apply (tail_ok k s t n); auto|]. split; [apply b256_skipn; auto|]. auto.
    - exists s, t, 0. rewrite N.add_0_r. auto 10. }
  assert (LEN : (len = 0 \/ len = 1 \/ len = 2 \/ len = 3 \/ len = 4 \/ len = 5 \/ len = 6 \/ len = 7)%nat) by lia.
  destruct (ST 2%nat s t n ltac:(lia) B O) as (s2 & t2 & m2 & E2 & O2 & B2 & T2 & V2).
  { destruct LEN as [Q|[Q|[Q|[Q|[Q|[Q|[Q|Q]]]]]]]; fold len; rewrite Q; cbn; lia. }
  assert (L2 : length t2 = (if Nat.testbit len 2 then len - 4 else len)%nat). { rewrite T2. destruct (Nat.testbit len 2); auto. rewrite skipn_length. reflexivity. }
  destruct (ST 1%nat s2 t2 _ ltac:(lia) B2 O2) as (s1 & t1 & m1 & E1 & O1 & B1 & T1 & V1).
  { rewrite L2. destruct LEN as [Q|[Q|[Q|[Q|[Q|[Q|[Q|Q]]]]]]]; rewrite Q; cbn; lia. }
  assert (L1 : length t1 = (if Nat.testbit len 1 then length t2 - 2 else length t2)%nat). { rewrite T1. destruct (Nat.testbit len 1); auto. rewrite skipn_length. reflexivity. }
  destruct (ST 0%nat s1 t1 _ ltac:(lia) B1 O1) as (s0 & t0 & m0 & E0 & O0 & B0 & T0 & V0).
  { rewrite L1, L2. destruct LEN as [Q|[Q|[Q|[Q|[Q|[Q|[Q|Q]]]]]]]; rewrite Q; cbn; lia. }
  rewrite E2. cbn [bind]. rewrite E1. cbn [bind]. rewrite E0. exists (s0, t0), (m2 + m1 + m0). split; auto. cbn [fst]. split; [rewrite !N.add_assoc; auto|].
  assert (LL0 : L16 t1 = m0 + 0).
  { rewrite V0. assert (length t1 = if Nat.testbit len 0 then 1 else 0)%nat as LT by (rewrite L1, L2; destruct LEN as [Q|[Q|[Q|[Q|[Q|[Q|[Q|Q]]]]]]]; rewrite Q; reflexivity).
    destruct (Nat.testbit len 0); [destruct t1 as [|a [|]]; try discriminate; cbn; lia|destruct t1; [reflexivity|discriminate]]. }
  assert (S1 : same (m1 + m0) (L16 t2)).
  { rewrite V1. destruct (Nat.testbit len 1) eqn:TB.
    - rewrite (L16_cat2 1 t2). apply same_add; [apply same_chunk|]. change (2 ^ 1)%nat with (2 * 1)%nat in T1. rewrite <- T1, LL0, N.add_0_r. split; [exists 0; unfold M16; lia|auto].
    - rewrite <- T1, LL0, N.add_0_r. split; [exists 0; unfold M16; lia|lia]. }
  rewrite <- N.add_assoc. rewrite V2. destruct (Nat.testbit len 2) eqn:TB.
  - rewrite (L16_cat2 2 t). apply same_add; [apply same_chunk|]. change (2 ^ 2)%nat with (2 * 2)%nat in T2. rewrite <- T2. auto.
  - rewrite N.add_0_l. rewrite <- T2. auto.
Qed.
Lemma swap_oc x n : oc M16 x n -> oc M16 (swap16 x) (256 * n).
Proof.
  intros (A & (k & ->) & Z). unfold M16, swap16 in *. pose proof (N.div_mod x 256 ltac:(lia)) as D. pose proof (N.mod_lt x 256 ltac:(lia)) as L. pose proof (N.div_lt_upper_bound x 256 256 ltac:(lia) ltac:(lia)) as H.
  set (lo := x mod 256) in *. set (hi := x / 256) in *. clearbody lo hi. split; [lia|]. split; [exists (hi + 256 * k); lia|lia].
Qed.
Lemma swap_compl x : x <= M16 -> swap16 (M16 - x) = M16 - swap16 x.
Proof.
  unfold M16, swap16. intros A. pose proof (N.div_mod x 256 ltac:(lia)) as D. pose proof (N.mod_lt x 256 ltac:(lia)) as L. pose proof (N.div_lt_upper_bound x 256 256 ltac:(lia) ltac:(lia)) as H.
  set (lo := x mod 256) in *. set (hi := x / 256) in *. clearbody lo hi.
  rewrite <- (N.div_unique (65535 - x) 256 (255 - hi) (255 - lo)), <- (N.mod_unique (65535 - x) 256 (255 - hi) (255 - lo)) by lia. lia.
Qed.
Theorem cksum_rfc buf : b256 buf -> exists c, cksum16 buf = Some c /\ c <= M16 /\ swap16 c = rfc1071 buf.
Proof.
  intros B. unfold cksum16. destruct (main_ok buf 0 0 B) as (m & O & L & BT & q & LQ & SM); [split; [unfold M64; lia|split; [exists 0; lia|auto]]|]. rewrite N.add_0_l in O. destruct (main_loop buf 0) as [s t]. cbn [fst snd] in *.
  destruct (cksum_tail s t m L BT O) as (st & m' & E & O' & SM').
  assert (E' : (st2 <- tail_step (length t) 2 (s, t) ;; st1 <- tail_step (length t) 1 st2 ;; st0 <- tail_step (length t) 0 st1 ;; Some (2 ^ 16 - 1 - fold_down (fst st0))) = Some (M16 - fold_down (fst st))).
  { destruct (tail_step (length t) 2 (s, t)) as [st2|]; [|discriminate]. cbn [bind] in *. destruct (tail_step (length t) 1 st2) as [st1|]; [|discriminate]. cbn [bind] in *. rewrite E. cbn [bind]. reflexivity. }
  cbv zeta. cbn [snd]. rewrite E'. eexists. split; [reflexivity|]. split; [lia|].
  pose proof (fold_ok _ _ O') as F. assert (SS : same (m + m') (L16 buf)) by (rewrite LQ; apply same_add; auto). pose proof (oc_same _ _ _ F SS) as F1. destruct F1 as (LE & F1). rewrite swap_compl by auto. unfold rfc1071. f_equal.
  assert (F2 : oc M16 (fold_down (fst st)) (L16 buf)) by (split; auto). apply swap_oc in F2. apply (oc_inj M16 _ _ (B16 buf)); [reflexivity| |rewrite B16_words; apply oc_sum_ok, words_lt; auto].
  apply (oc_same _ _ _ F2). destruct (LB buf) as (k & K). split; [exists k; auto|]. intros Z. apply LB0 in Z. rewrite Z. reflexivity.
Qed.
