(** Proofs about the CRC model. *)
From Coq Require Import List Arith NArith Bool Lia.
From Verif Require Import Base Bits Bytes PhvModel CrcTables CrcModel CrcSpec.
Import ListNotations.
Local Open Scope N_scope.

(** ** Multiples *)
Lemma mu_xor p a : multiple p a -> forall b, multiple p b -> multiple p (N.lxor a b).
Proof. induction 1 as [|m k M IH]; intros b B; [rewrite N.lxor_0_l; auto|]. rewrite N.lxor_assoc, (N.lxor_comm _ b), <- N.lxor_assoc. constructor. auto. Qed.
Lemma mu_self p : multiple p p.
Proof. replace p with (N.lxor 0 (N.shiftl p 0)) at 2 by (rewrite N.shiftl_0_r, N.lxor_0_l; auto). constructor. constructor. Qed.
Lemma shiftl_lxor a b k : N.shiftl (N.lxor a b) k = N.lxor (N.shiftl a k) (N.shiftl b k).
Proof. apply N.shiftl_lxor. Qed.
Lemma mu_shift p a k : multiple p a -> multiple p (N.shiftl a k).
Proof. induction 1 as [|m j M IH]; [rewrite N.shiftl_0_l; constructor|]. rewrite shiftl_lxor, N.shiftl_shiftl. constructor. auto. Qed.
(** congruence modulo p *)
Definition cong p a b := multiple p (N.lxor a b).
Lemma cong_refl p a : cong p a a.
Proof. unfold cong. rewrite N.lxor_nilpotent. constructor. Qed.
Lemma cong_sym p a b : cong p a b -> cong p b a.
Proof. unfold cong. rewrite N.lxor_comm. auto. Qed.
Lemma cong_trans p a b c : cong p a b -> cong p b c -> cong p a c.
Proof. unfold cong. intros A B. replace (N.lxor a c) with (N.lxor (N.lxor a b) (N.lxor b c)); [apply mu_xor; auto|]. rewrite N.lxor_assoc, <- (N.lxor_assoc b b c), N.lxor_nilpotent, N.lxor_0_l. auto. Qed.
Lemma cong_xor p a b c d : cong p a b -> cong p c d -> cong p (N.lxor a c) (N.lxor b d).
Proof.
  unfold cong. intros A B. replace (N.lxor (N.lxor a c) (N.lxor b d)) with (N.lxor (N.lxor a b) (N.lxor c d)); [apply mu_xor; auto|]. rewrite !N.lxor_assoc. f_equal. rewrite <- !N.lxor_assoc. f_equal. apply N.lxor_comm.
Qed.
Lemma cong_shift p a b k : cong p a b -> cong p (N.shiftl a k) (N.shiftl b k).
Proof. unfold cong. rewrite <- shiftl_lxor. apply mu_shift. Qed.

(** ** Remainders are unique: a multiple of a polynomial of degree w has degree at least w or is 0 *)
Fixpoint pmul (q : positive) (p : N) : N := match q with xH => p | xO q => N.double (pmul q p) | xI q => N.lxor p (N.double (pmul q p)) end.
Definition clmul (q p : N) : N := match q with 0 => 0 | N.pos q => pmul q p end.
Lemma clmul_double q p : clmul (N.double q) p = N.double (clmul q p).
Proof. destruct q; auto. Qed.
Lemma clmul_sdouble q p : clmul (N.succ_double q) p = N.lxor p (N.double (clmul q p)).
Proof. destruct q; cbn; auto. rewrite N.lxor_0_r. auto. Qed.
Lemma bit_double a n : N.testbit (N.double a) n = if n =? 0 then false else N.testbit a (N.pred n).
Proof. rewrite N.double_spec. destruct (N.eqb_spec n 0) as [->|N0]; [apply N.testbit_even_0|]. rewrite <- (N.succ_pred n) at 1 by auto. rewrite N.testbit_even_succ by lia. auto. Qed.
Lemma bit_sdouble a n : N.testbit (N.succ_double a) n = if n =? 0 then true else N.testbit a (N.pred n).
Proof. rewrite N.succ_double_spec. destruct (N.eqb_spec n 0) as [->|N0]; [apply N.testbit_odd_0|]. rewrite <- (N.succ_pred n) at 1 by auto. rewrite N.testbit_odd_succ by lia. auto. Qed.
Lemma lxor_dd a b : N.lxor (N.double a) (N.double b) = N.double (N.lxor a b).
Proof. apply N.bits_inj. intros n. rewrite N.lxor_spec, !bit_double. destruct (n =? 0); auto. rewrite N.lxor_spec. auto. Qed.
Lemma lxor_sd a b : N.lxor (N.succ_double a) (N.double b) = N.succ_double (N.lxor a b).
Proof. apply N.bits_inj. intros n. rewrite N.lxor_spec, bit_double, !bit_sdouble. destruct (n =? 0); auto. rewrite N.lxor_spec. auto. Qed.
Lemma lxor_ss a b : N.lxor (N.succ_double a) (N.succ_double b) = N.double (N.lxor a b).
Proof. apply N.bits_inj. intros n. rewrite N.lxor_spec, bit_double, !bit_sdouble. destruct (n =? 0); auto. rewrite N.lxor_spec. auto. Qed.
Lemma clmul_xor p : forall a b, clmul (N.lxor a b) p = N.lxor (clmul a p) (clmul b p).
Proof.
  assert (D : forall x y, N.double (N.lxor x y) = N.lxor (N.double x) (N.double y)) by (intros; rewrite lxor_dd; auto).
  assert (BC : forall b, b = 0 \/ (exists c, b = N.double c) \/ exists c, b = N.succ_double c) by (intros [|[c|c|]]; auto; right; [right; exists (N.pos c)|left; exists (N.pos c)|right; exists 0]; auto).
  induction a as [|a IH|a IH] using N.binary_ind; intros b; [cbn; auto| |]; rewrite <- ?N.double_spec, <- ?N.succ_double_spec; destruct (BC b) as [->|[(c & ->)|(c & ->)]]; rewrite ?N.lxor_0_r; try reflexivity.
  - rewrite lxor_dd, !clmul_double, IH, D. auto.
  - rewrite (N.lxor_comm (N.double a)), lxor_sd, clmul_sdouble, clmul_sdouble, clmul_double, (N.lxor_comm c), IH, D. rewrite N.lxor_comm, !N.lxor_assoc. f_equal. apply N.lxor_comm.
  - rewrite lxor_sd, !clmul_sdouble, clmul_double, IH, D, N.lxor_assoc. auto.
  - rewrite lxor_ss, !clmul_sdouble, clmul_double, IH, D. set (x := N.double (clmul a p)). set (y := N.double (clmul c p)). rewrite (N.lxor_comm p x), N.lxor_assoc, <- (N.lxor_assoc p p y), N.lxor_nilpotent, N.lxor_0_l. auto.
Qed.
Lemma clmul_pow p k : clmul (N.shiftl 1 k) p = N.shiftl p k.
Proof.
  induction k as [|k IH] using N.peano_ind; [rewrite !N.shiftl_0_r; auto|]. rewrite !N.shiftl_succ_r. rewrite clmul_double, IH. auto.
Qed.
Lemma multiple_clmul p m : multiple p m -> exists q, m = clmul q p.
Proof. induction 1 as [|m k M (q & ->)]; [exists 0; auto|]. exists (N.lxor q (N.shiftl 1 k)). rewrite clmul_xor, clmul_pow. auto. Qed.
Lemma testbit_ge n w x : x < 2 ^ w -> w <= n -> N.testbit x n = false.
Proof. intros L G. destruct (N.eq_dec x 0) as [->|NZ]; [apply N.bits_0|]. apply N.bits_above_log2. apply N.log2_lt_pow2 in L; lia. Qed.
Lemma pmul_top w p q : N.testbit p w = true -> p < 2 ^ (w + 1) -> exists t, w <= t /\ N.testbit (pmul q p) t = true /\ forall n, t < n -> N.testbit (pmul q p) n = false.
Proof.
  intros TB L. assert (HI : forall n, w < n -> N.testbit p n = false) by (intros; eapply testbit_ge; eauto; lia).
  induction q as [q (t & A & B & C)|q (t & A & B & C)|]; cbn [pmul].
  - exists (N.succ t). split; [lia|]. rewrite N.lxor_spec, bit_double. destruct (N.eqb_spec (N.succ t) 0) as [?Z|?Z]; [lia|]. rewrite N.pred_succ, B, HI by lia. split; auto. intros n Hn. rewrite N.lxor_spec, bit_double. destruct (N.eqb_spec n 0) as [?Z|?Z]; [lia|]. rewrite C, HI by lia. auto.
  - exists (N.succ t). split; [lia|]. rewrite bit_double. destruct (N.eqb_spec (N.succ t) 0) as [?Z|?Z]; [lia|]. rewrite N.pred_succ, B. split; auto. intros n Hn. rewrite bit_double. destruct (N.eqb_spec n 0) as [?Z|?Z]; [lia|]. apply C. lia.
  - exists w. split; [lia|]. auto.
Qed.
Lemma P_xor w poly : poly < 2 ^ w -> 2 ^ w + poly = N.lxor (2 ^ w) poly.
Proof.
  intros L. apply N.add_nocarry_lxor. apply N.bits_inj. intros n. rewrite N.land_spec, N.bits_0, N.pow2_bits_eqb. destruct (N.eqb_spec w n) as [<-|]; auto. cbn. eapply testbit_ge; eauto. lia.
Qed.
Lemma P_top w poly : poly < 2 ^ w -> N.testbit (2 ^ w + poly) w = true /\ 2 ^ w + poly < 2 ^ (w + 1).
Proof. intros L. split; [|rewrite N.add_1_r, N.pow_succ_r'; lia]. rewrite P_xor, N.lxor_spec, N.pow2_bits_true by auto. rewrite (testbit_ge w w poly) by (auto; lia). auto. Qed.
Lemma lt_pow_bits x k : (forall i, k <= i -> N.testbit x i = false) -> x < 2 ^ k.
Proof.
  intros B. destruct (N.eq_dec x 0) as [->|NZ]; [apply N.neq_0_lt_0, N.pow_nonzero; lia|]. destruct (N.lt_ge_cases x (2 ^ k)) as [|G]; auto. exfalso. assert (E : k <= N.log2 x) by (apply N.log2_le_pow2; lia). specialize (B _ E). rewrite N.bit_log2 in B by auto. discriminate.
Qed.
Lemma lxor_lt a b w : a < 2 ^ w -> b < 2 ^ w -> N.lxor a b < 2 ^ w.
Proof. intros A B. apply lt_pow_bits. intros i I. rewrite N.lxor_spec, (testbit_ge i w a), (testbit_ge i w b) by auto. auto. Qed.
Lemma small_multiple w poly m : poly < 2 ^ w -> multiple (2 ^ w + poly) m -> m < 2 ^ w -> m = 0.
Proof.
  intros LP M L. destruct (multiple_clmul _ _ M) as (q & ->). destruct q as [|q]; auto. destruct (P_top w poly LP) as [A B]. destruct (pmul_top w _ q A B) as (t & C & D & _). cbn [clmul] in *. rewrite (testbit_ge t w) in D by auto. discriminate.
Qed.
Lemma remainder_unique w poly a r r' : poly < 2 ^ N.of_nat w -> is_remainder w poly a r -> is_remainder w poly a r' -> r = r'.
Proof.
  intros LP [L M] [L' M']. apply N.lxor_eq. apply (small_multiple (N.of_nat w) poly); auto; [|apply lxor_lt; auto]. apply (cong_trans _ r a r'); auto. apply cong_sym. auto.
Qed.

(** ** Reflection *)
Lemma reflect_loop_bits todo : forall data refl i, N.testbit (reflect_loop todo data refl) i = N.testbit refl i || ((i <? N.of_nat todo) && N.testbit data (N.of_nat todo - 1 - i)).
Proof.
  induction todo as [|t IH]; intros data refl i; cbn [reflect_loop].
  - replace (i <? N.of_nat 0) with false by (symmetry; apply N.ltb_ge; lia). rewrite orb_false_r. auto.
  - rewrite IH, N.shiftr_spec'. assert (X : N.testbit (if N.testbit data 0 then N.lor refl (N.shiftl 1 (N.of_nat t)) else refl) i = N.testbit refl i || ((i =? N.of_nat t) && N.testbit data 0)).
    { destruct (N.testbit data 0); [|rewrite andb_false_r, orb_false_r; auto]. rewrite N.lor_spec, N.shiftl_1_l, N.pow2_bits_eqb, andb_true_r, N.eqb_sym. auto. }
    rewrite X, <- orb_assoc. f_equal. clear X. destruct (N.eqb_spec i (N.of_nat t)) as [E|NE]; [subst i|].
    + replace (N.of_nat t <? N.of_nat t) with false by (symmetry; apply N.ltb_ge; lia). replace (N.of_nat t <? N.of_nat (S t)) with true by (symmetry; apply N.ltb_lt; lia). cbn [andb]. rewrite orb_false_r. f_equal. lia.
    + cbn [andb orb]. destruct (N.ltb_spec i (N.of_nat t)) as [?Z|?Z]; destruct (N.ltb_spec i (N.of_nat (S t))) as [?Z|?Z]; try lia; auto. cbn [andb]. f_equal. lia.
Qed.
Lemma testbit_of_bits l i : (i < length l)%nat -> N.testbit (of_bits l) (N.of_nat i) = nth (length l - 1 - i) l false.
Proof.
  intros L. rewrite <- (bitsN_of_bits l) at 3. rewrite bitsN_nth by lia. f_equal. lia.
Qed.
Lemma reflect_spec x n : reflect x n = of_bits (rev (bitsN n x)).
Proof.
  apply N.bits_inj. intros i. unfold reflect. rewrite reflect_loop_bits, N.bits_0. cbn [orb]. assert (LL : length (rev (bitsN n x)) = n) by (rewrite rev_length, bitsN_length; auto).
  destruct (N.ltb_spec i (N.of_nat n)) as [L|L]; cbn [andb].
  - replace i with (N.of_nat (N.to_nat i)) at 2 by lia. rewrite testbit_of_bits by lia. rewrite LL, rev_nth by (rewrite bitsN_length; lia). rewrite bitsN_length, bitsN_nth by lia. f_equal. lia.
  - symmetry. pose proof (of_bits_lt (rev (bitsN n x))) as B. rewrite LL in B. eapply testbit_ge; eauto.
Qed.

(** ** Division steps *)
Section Div.
Variables (w : nat) (poly : N).
Hypotheses (W8 : (8 <= w)%nat) (LP : poly < 2 ^ N.of_nat w).
Let P := 2 ^ N.of_nat w + poly.

Lemma trunc_lt x : trunc w x < 2 ^ N.of_nat w.
Proof. apply N.mod_lt, N.pow_nonzero. lia. Qed.
Lemma trunc_bits x i : N.testbit (trunc w x) i = (i <? N.of_nat w) && N.testbit x i.
Proof. unfold trunc. destruct (N.ltb_spec i (N.of_nat w)); [rewrite N.mod_pow2_bits_low; auto|rewrite N.mod_pow2_bits_high; auto]. Qed.
Lemma step_lt r : div_step w poly r < 2 ^ N.of_nat w.
Proof. unfold div_step. destruct (N.testbit _ _); [apply lxor_lt; auto|]; apply trunc_lt. Qed.
Lemma steps_lt n : forall r, r < 2 ^ N.of_nat w -> div_steps n w poly r < 2 ^ N.of_nat w.
Proof. induction n; intros r L; cbn [div_steps]; auto. apply IHn, step_lt. Qed.
Lemma step_cong r : r < 2 ^ N.of_nat w -> cong P (N.shiftl r 1) (div_step w poly r).
Proof.
  intros L. unfold div_step, cong, P. assert (X : N.lxor (N.shiftl r 1) (trunc w (N.shiftl r 1)) = if N.testbit r (N.of_nat (w - 1)) then 2 ^ N.of_nat w else 0).
  { apply N.bits_inj. intros i. rewrite N.lxor_spec, trunc_bits. destruct (N.ltb_spec i (N.of_nat w)) as [A|A].
    - cbn [andb]. rewrite xorb_nilpotent. destruct (N.testbit r _); [rewrite N.pow2_bits_false by lia; auto|rewrite N.bits_0; auto].
    - cbn [andb]. rewrite xorb_false_r, N.shiftl_spec_high' by lia. destruct (N.eq_dec i (N.of_nat w)) as [->|NE].
      + replace (N.of_nat w - 1) with (N.of_nat (w - 1)) by lia. destruct (N.testbit r _); [rewrite N.pow2_bits_true; auto|rewrite N.bits_0; auto].
      + rewrite (testbit_ge (i - 1) (N.of_nat w)) by (auto; lia). destruct (N.testbit r _); [rewrite N.pow2_bits_false by lia; auto|rewrite N.bits_0; auto]. }
  destruct (N.testbit r _).
  - rewrite <- N.lxor_assoc, X. rewrite <- P_xor by auto. apply mu_self.
  - rewrite X. constructor.
Qed.
Lemma steps_cong n : forall r, r < 2 ^ N.of_nat w -> cong P (N.shiftl r (N.of_nat n)) (div_steps n w poly r).
Proof.
  induction n as [|n IH]; intros r L; cbn [div_steps]; [change (N.of_nat 0) with 0; rewrite N.shiftl_0_r; apply cong_refl|]. eapply cong_trans; [|apply IH, step_lt].
  replace (N.shiftl r (N.of_nat (S n))) with (N.shiftl (N.shiftl r 1) (N.of_nat n)) by (rewrite N.shiftl_shiftl; f_equal; lia). apply cong_shift, step_cong. auto.
Qed.
(** One step of the table-driven loop *)
Lemma table_step b r e : b < 256 -> r < 2 ^ N.of_nat w -> nth_error (make_table w poly) (N.to_nat (N.lxor b (N.shiftr r (N.of_nat (w - 8))))) = Some e ->
  let r' := N.lxor e (trunc w (N.shiftl r 8)) in r' < 2 ^ N.of_nat w /\ cong P (N.lxor (N.shiftl r 8) (N.shiftl b (N.of_nat w))) r'.
Proof.
  intros LB LR E r'. set (d := N.lxor b (N.shiftr r (N.of_nat (w - 8)))) in *. assert (LD : d < 2 ^ 8).
  { apply lxor_lt; auto. apply lt_pow_bits. intros i Hi. rewrite N.shiftr_spec'. eapply testbit_ge; eauto. lia. }
  assert (E' : e = table_entry w poly (N.to_nat d)).
  { unfold make_table in E. pose proof (nth_error_map (table_entry w poly) (N.to_nat d) (seq 0 256)) as X. rewrite X in E. change (2 ^ 8) with 256 in LD. rewrite (nth_error_nth' _ O) in E by (rewrite seq_length; lia). rewrite seq_nth in E by lia. unfold option_map in E. injection E as E. rewrite <- E. auto. }
  clear E. unfold table_entry in E'. rewrite N2Nat.id in E'. set (z := trunc w (N.shiftl d (N.of_nat (w - 8)))) in *. assert (LZ : z < 2 ^ N.of_nat w) by apply trunc_lt.
  pose proof (steps_cong 8 z LZ) as C. pose proof (steps_lt 8 z LZ) as LE. rewrite <- E' in *. clear E'. split; [apply lxor_lt; auto; apply trunc_lt|].
  unfold r'. apply (cong_trans _ _ (N.lxor (N.shiftl z (N.of_nat 8)) (trunc w (N.shiftl r 8)))); [|apply cong_xor; [auto|apply cong_refl]].
  replace (N.lxor (N.shiftl z (N.of_nat 8)) (trunc w (N.shiftl r 8))) with (N.lxor (N.shiftl r 8) (N.shiftl b (N.of_nat w))); [apply cong_refl|].
  apply N.bits_inj. intros i. rewrite !N.lxor_spec, trunc_bits. change (N.of_nat 8) with 8. destruct (N.ltb_spec i (N.of_nat w)) as [A|A]; cbn [andb].
  - rewrite (N.shiftl_spec_low b) by auto. rewrite xorb_false_r. destruct (N.lt_ge_cases i 8) as [I8|I8].
    + rewrite !N.shiftl_spec_low by auto. auto.
    + rewrite (N.shiftl_spec_high' z), (N.shiftl_spec_high' r) by auto. unfold z. rewrite trunc_bits. rewrite (N.shiftl_spec_low d) by lia. rewrite andb_false_r, xorb_false_l. auto.
  - rewrite xorb_false_r. rewrite !N.shiftl_spec_high' by lia. unfold z. rewrite trunc_bits. destruct (N.ltb_spec (i - 8) (N.of_nat w)) as [B|B]; cbn [andb].
    + rewrite N.shiftl_spec_high' by lia. unfold d. rewrite N.lxor_spec, N.shiftr_spec'. rewrite xorb_comm. f_equal; f_equal; lia.
    + rewrite (testbit_ge (i - 8) (N.of_nat w) r) by (auto; lia). rewrite (testbit_ge (i - N.of_nat w) 8 b) by (auto; lia). auto.
Qed.
Lemma table_total b r : b < 256 -> r < 2 ^ N.of_nat w -> exists e, nth_error (make_table w poly) (N.to_nat (N.lxor b (N.shiftr r (N.of_nat (w - 8))))) = Some e.
Proof.
  intros LB LR. assert (LD : N.lxor b (N.shiftr r (N.of_nat (w - 8))) < 2 ^ 8). { apply lxor_lt; auto. apply lt_pow_bits. intros i Hi. rewrite N.shiftr_spec'. eapply testbit_ge; eauto. lia. }
  change (2 ^ 8) with 256 in LD. destruct (nth_error (make_table w poly) _) as [e|] eqn:E; [eauto|]. apply nth_error_None in E. unfold make_table in E. rewrite map_length, seq_length in E. lia.
Qed.

Definition in_byte (refin : bool) (b : N) : N := of_bits (if refin then rev (bitsN 8 b) else bitsN 8 b).
Lemma in_byte_lt refin b : in_byte refin b < 256.
Proof. unfold in_byte. assert (X : length (if refin then rev (bitsN 8 b) else bitsN 8 b) = 8%nat) by (destruct refin; rewrite ?rev_length, bitsN_length; auto). pose proof (of_bits_lt (if refin then rev (bitsN 8 b) else bitsN 8 b)) as Y. rewrite X in Y. auto. Qed.
Lemma in_byte_model (refin : bool) b : b < 256 -> (if refin then reflect b 8 else b) = in_byte refin b.
Proof. intros L. unfold in_byte. destruct refin; [apply reflect_spec|]. rewrite of_bits_bitsN. symmetry. apply N.mod_small. auto. Qed.
Lemma shift_add_xor a b k : b < 2 ^ k -> a * 2 ^ k + b = N.lxor (N.shiftl a k) b.
Proof.
  intros L. rewrite <- N.shiftl_mul_pow2. apply N.add_nocarry_lxor. apply N.bits_inj. intros n. rewrite N.land_spec, N.bits_0. destruct (N.lt_ge_cases n k); [rewrite N.shiftl_spec_low by auto; auto|]. rewrite (testbit_ge n k b) by auto. apply andb_false_r.
Qed.
Lemma crc_loop_spec refin buf : bytes_ok buf -> forall r a, r < 2 ^ N.of_nat w -> cong P a r ->
  exists r', crc_loop w (make_table w poly) refin buf r = Some r' /\ r' < 2 ^ N.of_nat w /\
    cong P (N.lxor (N.shiftl a (N.of_nat (8 * length buf))) (N.shiftl (of_bits (message refin buf)) (N.of_nat w))) r'.
Proof.
  induction buf as [|b buf IH]; intros BO r a LR CR; cbn [crc_loop].
  - exists r. split; auto. split; auto. cbn [length Nat.mul]. change (N.of_nat (8 * 0)) with 0. change (of_bits (message refin [])) with 0. rewrite N.shiftl_0_r, N.shiftl_0_l, N.lxor_0_r. auto.
  - inversion BO as [|? ? B1 B2]; subst. rewrite in_byte_model by auto. pose proof (in_byte_lt refin b) as IL. destruct (table_total (in_byte refin b) r IL LR) as (e & E). rewrite E. cbn [bind]. pose proof (table_step _ _ _ IL LR E) as [LR' CR'].
    set (r1 := N.lxor e (trunc w (N.shiftl r 8))) in *. destruct (IH B2 r1 (N.lxor (N.shiftl a 8) (N.shiftl (in_byte refin b) (N.of_nat w))) LR') as (r' & A & B & C).
    { eapply cong_trans; [|exact CR']. apply cong_xor; [apply cong_shift; auto|apply cong_refl]. }
    exists r'. split; auto. split; auto. eapply cong_trans; [|exact C]. match goal with |- cong _ ?x ?y => replace x with y; [apply cong_refl|] end.
    change (message refin (b :: buf)) with ((if refin then rev (bitsN 8 b) else bitsN 8 b) ++ message refin buf). rewrite of_bits_app. fold (in_byte refin b). assert (LM : length (message refin buf) = (8 * length buf)%nat).
    { clear. induction buf as [|x buf IHb]; auto. change (message refin (x :: buf)) with ((if refin then rev (bitsN 8 x) else bitsN 8 x) ++ message refin buf). rewrite app_length, IHb. cbn [length]. destruct refin; rewrite ?rev_length, bitsN_length; lia. }
    pose proof (of_bits_lt (message refin buf)) as OL. rewrite LM in *. rewrite shift_add_xor by auto. rewrite !shiftl_lxor, !N.shiftl_shiftl. rewrite N.lxor_assoc. f_equal; [f_equal; cbn [length]; lia|]. f_equal. f_equal. lia.
Qed.
End Div.
Lemma crc_ok w c buf : (8 <= w)%nat -> fits w c -> bytes_ok buf -> exists v, crc_custom w c (make_table w (c_poly c)) buf = Some v /\ is_crc w c buf v /\ v < 2 ^ N.of_nat w.
Proof.
  intros W8 (F1 & F2 & F3) BO. unfold crc_custom. destruct (crc_loop_spec w (c_poly c) W8 F1 (c_refin c) buf BO (c_init c) (c_init c) F2 (cong_refl _ _)) as (r & E & L & C). rewrite E. cbn [bind]. eexists. split; [reflexivity|]. split.
  - exists r. split; [split; auto; unfold cong in C; rewrite (N.lxor_comm (N.shiftl (of_bits _) _)); auto|]. destruct (c_refout c); auto. rewrite reflect_spec. auto.
  - apply lxor_lt; auto. destruct (c_refout c); auto. rewrite reflect_spec. pose proof (of_bits_lt (rev (bitsN w r))) as B. rewrite rev_length, bitsN_length in B. auto.
Qed.
Lemma crc_tbl w p i x (ri ro : bool) tbl buf : (8 <= w)%nat -> fits w (mk_cfg p i x ri ro) -> bytes_ok buf -> tbl = make_table w p ->
  exists v, (r <- crc_loop w tbl ri buf i ;; Some (N.lxor (if ro then reflect r w else r) x)) = Some v /\ is_crc w (mk_cfg p i x ri ro) buf v.
Proof. intros W F BO ->. destruct (crc_ok w _ buf W F BO) as (v & E & C & _). exists v. split; auto. Qed.
