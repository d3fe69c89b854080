(** Proofs about the externs of psa_switch and pna_nic. *)
From Coq Require Import List Arith NArith ZArith Bool Lia Znumtheory.
From Verif Require Import Base Bits ExtractModel ExtractSpec ExtractProofs ExtractProps PhvModel ParserModel ParserSpec ParserProofs3 BufModel BufProofs CksumSpec PsaExtModel PsaExtSpec.
Import ListNotations.
Local Open Scope Z_scope.

(** [x] is the one's-complement representation of [n]. *)
Definition rep1 (x : N) (n : Z) : Prop := (x <= 65535)%N /\ (65535 | Z.of_N x - n) /\ (x = 0%N <-> n = 0) /\ 0 <= n.
Lemma cong_small (x y : N) : (0 < x <= 65535)%N -> (0 < y <= 65535)%N -> (65535 | Z.of_N x - Z.of_N y) -> x = y.
Proof. intros X Y [k E]. assert (k = 0) by lia. lia. Qed.
Lemma rep1_inj x y n : rep1 x n -> rep1 y n -> x = y.
Proof.
  intros (A & D & Z & _) (A' & D' & Z' & _). destruct (N.eq_dec x 0) as [->|NX]; [symmetry; tauto|]. destruct (N.eq_dec y 0) as [->|NY]; [tauto|].
  apply cong_small; [lia|lia|]. replace (Z.of_N x - Z.of_N y) with ((Z.of_N x - n) - (Z.of_N y - n)) by lia. apply Z.divide_sub_r; auto.
Qed.
Lemma rep1_eqv x n m : rep1 x n -> (65535 | n - m) -> (n = 0 <-> m = 0) -> 0 <= m -> rep1 x m.
Proof.
  intros (A & D & Z & P) Dm Zm Pm. split; auto. split; [|split; [tauto|auto]].
  replace (Z.of_N x - m) with ((Z.of_N x - n) + (n - m)) by lia. apply Z.divide_add_r; auto.
Qed.
Lemma rep1_self x : (x <= 65535)%N -> rep1 x (Z.of_N x).
Proof. intros H. split; auto. split; [exists 0; lia|]. split; lia. Qed.

Lemma ocs_eq x y : (x <= 65535 -> y <= 65535 -> ones_complement_sum x y = oc_add x y)%N.
Proof.
  intros X Y. unfold ones_complement_sum, oc_add. cbv zeta. destruct (N.leb_spec 65536 (x + y)) as [L|L].
  - symmetry. apply N.mod_unique with 1%N; lia.
  - apply N.mod_small. lia.
Qed.
Lemma oc_add_facts x y : (x <= 65535 -> y <= 65535 -> oc_add x y <= 65535 /\ (oc_add x y = 0 <-> x = 0 /\ y = 0))%N /\ (65535 | Z.of_N (oc_add x y) - (Z.of_N x + Z.of_N y)).
Proof.
  unfold oc_add. cbv zeta. destruct (N.leb_spec 65536 (x + y)) as [L|L]; (split; [lia|]); [exists (-1); lia|exists 0; lia].
Qed.
Lemma rep1_add x n d : rep1 x n -> (d <= 65535)%N -> rep1 (oc_add x d) (n + Z.of_N d).
Proof.
  intros (A & D & Z & P) L. destruct (oc_add_facts x d) as [F G]. destruct (F A L) as [F1 F2]. split; auto. split; [|split; [rewrite F2|]; lia].
  replace (Z.of_N (oc_add x d) - (n + Z.of_N d)) with ((Z.of_N (oc_add x d) - (Z.of_N x + Z.of_N d)) + (Z.of_N x - n)) by lia. apply Z.divide_add_r; auto.
Qed.
Lemma psa_add_rep ws : forall s n, Forall (fun w => (w < 65536)%N) ws -> rep1 s n -> rep1 (psa_add s ws) (n + Z.of_N (total ws)).
Proof.
  unfold psa_add, total. induction ws as [|w ws IH]; intros s n F R; cbn [fold_left fold_right]; [rewrite Z.add_0_r; auto|].
  inversion F; subst. rewrite N2Z.inj_add, Z.add_assoc. apply IH; auto. apply rep1_add; auto. lia.
Qed.
Lemma psa_sub_rep ws : forall s, Forall (fun w => (w < 65536)%N) ws -> (s <= 65535)%N ->
  (psa_subtract s ws <= 65535)%N /\ (65535 | Z.of_N (psa_subtract s ws) - (Z.of_N s - Z.of_N (total ws))) /\ (s <> 0%N -> psa_subtract s ws <> 0%N).
Proof.
  unfold psa_subtract, total. induction ws as [|w ws IH]; intros s F R; cbn [fold_left fold_right]; [split; auto; split; [exists 0; lia|auto]|].
  inversion F; subst. destruct (oc_add_facts s (65535 - w)) as [G D]. destruct G as [G1 G2]; [lia|lia|].
  destruct (IH (oc_add s (65535 - w)) H2 G1) as (I1 & I2 & I3). split; auto. split; [|intros NZ; apply I3; lia].
  set (y := fold_left _ _ _) in *. set (t := fold_right N.add 0%N ws) in *. destruct I2 as [k I2]. destruct D as [j D]. exists (k + j + 1). lia.
Qed.

(** ** The loops *)
Lemma chunk (i : Z) : 0 <= i -> Z.land i 65535 = i mod 65536 /\ Z.shiftr i 16 = i / 65536.
Proof. intros H. split; [change 65535 with (Z.ones 16); rewrite Z.land_ones by lia; reflexivity|rewrite Z.shiftr_div_pow2 by lia; reflexivity]. Qed.
Lemma loop_add k : forall input fuel s n, 0 <= input < 65536 ^ Z.of_nat k -> (k <= fuel)%nat -> rep1 s n ->
  exists r, sum_loop fuel false s input = Done r /\ rep1 r (n + input).
Proof.
  induction k as [|k IH]; intros input fuel s n B L R.
  - assert (input = 0) as -> by (cbn in B; lia). exists s. rewrite Z.add_0_r. split; auto. destruct fuel; reflexivity.
  - destruct fuel as [|fuel]; [lia|]. cbn [sum_loop]. destruct (Z.eqb_spec input 0) as [->|N0]; [exists s; rewrite Z.add_0_r; auto|].
    destruct (chunk input ltac:(lia)) as [-> ->]. pose proof (Z.mod_pos_bound input 65536 ltac:(lia)). pose proof (Z_div_mod_eq_full input 65536) as DM.
    assert (0 <= input / 65536 < 65536 ^ Z.of_nat k). { split; [apply Z.div_pos; lia|]. apply Z.div_lt_upper_bound; [lia|]. rewrite Nat2Z.inj_succ, Z.pow_succ_r in B by lia. lia. }
    rewrite ocs_eq; [|apply R|lia].
    destruct (IH (input / 65536) fuel (oc_add s (Z.to_N (input mod 65536))) (n + input mod 65536) ltac:(lia) ltac:(lia)) as (r & E & RR).
    { rewrite <- (Z2N.id (input mod 65536)) at 2 by lia. apply rep1_add; auto. lia. }
    exists r. split; auto. destruct R as (_ & _ & _ & P). apply rep1_eqv with (1 := RR); [exists (- (input / 65536)); lia|lia|lia].
Qed.
Lemma loop_sub k : forall input fuel s, 0 <= input < 65536 ^ Z.of_nat k -> (k <= fuel)%nat -> (s <= 65535)%N ->
  exists r, sum_loop fuel true s input = Done r /\ (r <= 65535)%N /\ (65535 | Z.of_N r - (Z.of_N s - input)) /\ (s <> 0%N -> r <> 0%N).
Proof.
  induction k as [|k IH]; intros input fuel s B L R.
  - assert (input = 0) as -> by (cbn in B; lia). exists s. split; [destruct fuel; reflexivity|]. split; auto. split; auto. exists 0. lia.
  - destruct fuel as [|fuel]; [lia|]. cbn [sum_loop]. destruct (Z.eqb_spec input 0) as [->|N0]; [exists s; split; auto; split; auto; split; auto; exists 0; lia|].
    destruct (chunk input ltac:(lia)) as [-> ->]. pose proof (Z.mod_pos_bound input 65536 ltac:(lia)). pose proof (Z_div_mod_eq_full input 65536) as DM.
    assert (0 <= input / 65536 < 65536 ^ Z.of_nat k). { split; [apply Z.div_pos; lia|]. apply Z.div_lt_upper_bound; [lia|]. rewrite Nat2Z.inj_succ, Z.pow_succ_r in B by lia. lia. }
    set (d := Z.to_N (input mod 65536)). assert (Ed : Z.of_N d = input mod 65536) by (subst d; lia).
    rewrite ocs_eq by lia. destruct (oc_add_facts s (65535 - d)) as [G D]. destruct G as [G1 G2]; [lia|lia|].
    destruct (IH (input / 65536) fuel (oc_add s (65535 - d)) ltac:(lia) ltac:(lia) G1) as (r & E & I1 & I2 & I3).
    exists r. split; auto. split; auto. split; [|intros NZ; apply I3; lia]. destruct I2 as [a I2]. destruct D as [b D]. exists (a + b + 1 + input / 65536). lia.
Qed.
Lemma enough (i : Z) : 0 <= i -> i < 65536 ^ Z.of_nat (Z.to_nat i).
Proof. intros H. rewrite Z2Nat.id by lia. apply Z.pow_gt_lin_r; lia. Qed.

(** ** Concatenation *)
Lemma pow16 j : (65535 | 2 ^ (16 * Z.of_nat j) - 1).
Proof.
  induction j as [|j [k E]]; [exists 0; reflexivity|]. replace (16 * Z.of_nat (S j)) with (16 * Z.of_nat j + 16) by lia. rewrite Z.pow_add_r by lia.
  exists (65536 * k + 1). change (2 ^ 16) with 65536. lia.
Qed.
Lemma pow_wrap n : (65535 | 2 ^ (Z.of_nat n mod 65536) - 2 ^ Z.of_nat n).
Proof.
  pose proof (Z_div_mod_eq_full (Z.of_nat n) 65536) as DM. pose proof (Z.mod_pos_bound (Z.of_nat n) 65536 ltac:(lia)). pose proof (Z.div_pos (Z.of_nat n) 65536 ltac:(lia) ltac:(lia)).
  set (q := Z.of_nat n / 65536) in *. set (m := Z.of_nat n mod 65536) in *. rewrite DM, Z.pow_add_r by lia.
  destruct (pow16 (Z.to_nat (4096 * q))) as [k E]. replace (16 * Z.of_nat (Z.to_nat (4096 * q))) with (65536 * q) in E by lia.
  exists (- k * 2 ^ m). nia.
Qed.
Definition value (fs : list (nat * Z)) : Z := Z.of_N (of_bits (data_bits fs)).
Lemma value_cons f fs : unsigned f -> value (f :: fs) = snd f * 2 ^ Z.of_nat (length (data_bits fs)) + value fs.
Proof.
  intros U. unfold value, data_bits. cbn [map concat]. rewrite of_bits_app, N2Z.inj_add, N2Z.inj_mul, N2Z.inj_pow. f_equal. f_equal; [|rewrite nat_N_Z; reflexivity].
  unfold unsigned in U. assert (H : (Z.to_N (snd f) < 2 ^ N.of_nat (fst f))%N). { apply N2Z.inj_lt. rewrite N2Z.inj_pow, nat_N_Z, Z2N.id by lia. apply U. }
  replace (of_bits (bitsN (fst f) (Z.to_N (snd f)))) with (Z.to_N (snd f)); [lia|].
  apply (bitsN_inj (fst f)); auto; [|rewrite <- (bitsN_length (fst f) (Z.to_N (snd f))) at 2; rewrite bitsN_of_bits; auto].
  rewrite <- (bitsN_length (fst f) (Z.to_N (snd f))) at 2. apply of_bits_lt.
Qed.
Lemma conc_inv fs : Forall unsigned fs -> let r := fold_left conc_step (rev fs) (0, 0) in
  snd r = Z.of_nat (length (data_bits fs)) mod 65536 /\ 0 <= fst r /\ (65535 | fst r - value fs) /\ (fst r = 0 <-> value fs = 0) /\ 0 <= value fs.
Proof.
  intros F. cbv zeta. rewrite <- fold_left_rev_right, rev_involutive. induction F as [|f fs U F IH]; [cbn; repeat split; auto; try lia; exists 0; reflexivity|].
  cbn [fold_right]. destruct (fold_right _ _ fs) as [i n]. cbn [fst snd] in IH. destruct IH as (A & B & [k C] & D & G). unfold conc_step. cbn [fst snd].
  rewrite value_cons by auto. assert (L : length (data_bits (f :: fs)) = (fst f + length (data_bits fs))%nat) by (unfold data_bits; cbn [map concat]; rewrite app_length, bitsN_length; reflexivity).
  unfold unsigned in U. rewrite Z.shiftl_mul_pow2 by (rewrite A; apply Z.mod_pos_bound; lia). rewrite A.
  pose proof (Z.mod_pos_bound (Z.of_nat (length (data_bits fs))) 65536 ltac:(lia)) as MB.
  assert (P1 : 0 < 2 ^ (Z.of_nat (length (data_bits fs)) mod 65536)) by (apply Z.pow_pos_nonneg; lia). assert (P2 : 0 < 2 ^ Z.of_nat (length (data_bits fs))) by (apply Z.pow_pos_nonneg; lia).
  split; [rewrite L, Nat2Z.inj_add, Z.add_mod_idemp_l by lia; f_equal; lia|]. split; [nia|]. split.
  - destruct (pow_wrap (length (data_bits fs))) as [j E]. exists (k + snd f * j). nia.
  - split; [|nia]. split; nia.
Qed.
Lemma mod_mod16 n : (n mod 65536) mod 16 = n mod 16.
Proof. rewrite <- (Znumtheory.Zmod_div_mod 16 65536); auto; try lia. exists 4096. lia. Qed.
Lemma conc_ok fs : data_ok fs -> exists i, concatenate_fields fs = Done i /\ 0 <= i /\ (65535 | i - value fs) /\ (i = 0 <-> value fs = 0) /\ 0 <= value fs.
Proof.
  intros [F M]. pose proof (conc_inv fs F) as C. cbv zeta in C. unfold concatenate_fields. destruct (fold_left _ _ _) as [i n]. cbn [fst snd] in C. destruct C as (A & C).
  exists i. split; auto. subst n. rewrite mod_mod16. rewrite (proj2 (Z.eqb_eq _ _)); auto. change 16 with (Z.of_nat 16). rewrite <- Nat2Z.inj_mod, M. reflexivity.
Qed.
(** ** Words *)
Lemma words_exist n : forall b, (length b = 16 * n)%nat -> exists ws, words_of b ws.
Proof.
  induction n as [|n IH]; intros b L.
  - destruct b; [|cbn in L; lia]. exists []. split; [constructor|reflexivity].
  - destruct (IH (skipn 16 b)) as (ws & W1 & W2); [rewrite skipn_length; lia|]. exists (of_bits (firstn 16 b) :: ws).
    assert (L16 : length (firstn 16 b) = 16%nat) by (rewrite firstn_length; lia). split.
    + constructor; auto. pose proof (of_bits_lt (firstn 16 b)) as H. rewrite L16 in H. exact H.
    + cbn [map concat]. rewrite <- W2. rewrite <- L16 at 1. rewrite bitsN_of_bits, firstn_skipn. reflexivity.
Qed.
Lemma words_value b ws : words_of b ws -> (65535 | Z.of_N (of_bits b) - Z.of_N (total ws)) /\ (Z.of_N (of_bits b) = 0 <-> Z.of_N (total ws) = 0).
Proof.
  intros [F ->]. induction F as [|w ws W F IH]; [split; [exists 0; reflexivity|tauto]|]. cbn [map concat]. unfold total. cbn [fold_right]. fold (total ws).
  rewrite of_bits_app. assert (E : of_bits (bitsN 16 w) = w).
  { apply (bitsN_inj 16); [|exact W|]; [pose proof (of_bits_lt (bitsN 16 w)) as H; rewrite bitsN_length in H; exact H|]. pose proof (bitsN_of_bits (bitsN 16 w)) as H. rewrite bitsN_length in H. exact H. }
  rewrite E. set (L := length (concat (map (bitsN 16) ws))) in *. assert (EL : L = (16 * length ws)%nat). { subst L. clear. induction ws; auto. cbn [map concat]. rewrite app_length, bitsN_length, IHws. cbn [length]. lia. }
  destruct IH as [[k IH] IZ]. destruct (pow16 (length ws)) as [j P]. rewrite !N2Z.inj_add, N2Z.inj_mul, N2Z.inj_pow, nat_N_Z, EL, Nat2Z.inj_mul. change (Z.of_nat 16) with 16. change (Z.of_N 2) with 2.
  assert (PP : 0 < 2 ^ (16 * Z.of_nat (length ws))) by (apply Z.pow_pos_nonneg; lia).
  split; [exists (k + Z.of_N w * j); nia|]. split; nia.
Qed.

(** ** One call *)
Lemma data_words fs : data_ok fs -> exists ws, words_of (data_bits fs) ws.
Proof. intros [_ M]. apply (words_exist (length (data_bits fs) / 16)). pose proof (Nat.div_mod (length (data_bits fs)) 16 ltac:(lia)). lia. Qed.
Lemma step_holds o s : op_ok o -> (s <= 65535)%N -> exists s' out, psa_step false s o s' out /\ (s' <= 65535)%N /\ exists n, forall fuel, (n <= fuel)%nat -> ck_step fuel s o = Done (s', out).
Proof.
  intros K S. destruct o as [fs|fs| | |v|v|]; cbn [op_ok] in K.
  - destruct (data_words fs K) as (ws & W). destruct (conc_ok fs K) as (i & E & P & D & Z & V). destruct (words_value _ _ W) as [WD WZ]. fold (value fs) in WD, WZ.
    pose proof (psa_add_rep ws s (Z.of_N s) (proj1 W) (rep1_self s S)) as R.
    exists (psa_add s ws), None. split; [split; auto; exists ws; auto|]. split; [apply R|]. exists (Z.to_nat i). intros fuel L. cbn [ck_step]. rewrite E. cbn [bindr].
    destruct (loop_add _ i fuel s (Z.of_N s) (conj P (enough i P)) L (rep1_self s S)) as (r & -> & RR). cbn [bindr]. f_equal. f_equal.
    apply rep1_inj with (2 := R). apply rep1_eqv with (1 := RR); [|lia|lia].
    replace (Z.of_N s + i - (Z.of_N s + Z.of_N (total ws))) with ((i - value fs) + (value fs - Z.of_N (total ws))) by lia. apply Z.divide_add_r; auto.
  - destruct (data_words fs K) as (ws & W). destruct (conc_ok fs K) as (i & E & P & D & Z & V). destruct (words_value _ _ W) as [WD WZ]. fold (value fs) in WD, WZ.
    destruct (psa_sub_rep ws s (proj1 W) S) as (R1 & R2 & R3).
    destruct (loop_sub _ i (Z.to_nat i) s (conj P (enough i P)) (le_n _) S) as (r & Er & L1 & L2 & L3).
    exists r, None. assert (DI : (65535 | i - Z.of_N (total ws))). { replace (i - Z.of_N (total ws)) with ((i - value fs) + (value fs - Z.of_N (total ws))) by lia. apply Z.divide_add_r; auto. }
    assert (DR : (65535 | Z.of_N r - Z.of_N (psa_subtract s ws))). { destruct L2 as [a L2]. destruct R2 as [b R2]. destruct DI as [c DI]. exists (a - b - c). lia. }
    split; [|split; [exact L1|]].
    + split; auto. exists ws. split; auto. destruct (N.eq_dec s 0) as [->|NZ]; [|left; apply cong_small; auto; lia].
      pose proof (N.div_mod (total ws) 65535 ltac:(lia)) as DM. pose proof (N.mod_lt (total ws) 65535 ltac:(lia)) as ML.
      assert (X : forall x : N, (x <= 65535)%N -> (65535 | Z.of_N x - (Z.of_N 0 - Z.of_N (total ws))) -> (x = 0 \/ x = 65535)%N <-> (total ws mod 65535 = 0)%N).
      { intros x Hx [a Ha]. set (q := (total ws / 65535)%N) in *. set (m := (total ws mod 65535)%N) in *. clearbody q m. set (t := total ws) in *. clearbody t. clear - DM ML Hx Ha. split; intros H; lia. }
      destruct (N.eq_dec (total ws mod 65535) 0) as [T0|T0].
      * right. split; auto. split; auto. split; auto. apply X; auto. destruct L2 as [a L2]. destruct DI as [c DI]. exists (a - c). lia.
      * left. apply cong_small; auto.
        -- assert (~ (r = 0 \/ r = 65535)%N); [|lia]. rewrite X; auto. destruct L2 as [a L2]. destruct DI as [c DI]. exists (a - c). lia.
        -- assert (~ (psa_subtract 0 ws = 0 \/ psa_subtract 0 ws = 65535)%N); [|lia]. rewrite X; auto.
    + exists (Z.to_nat i). intros fuel L. cbn [ck_step]. rewrite E. cbn [bindr].
      assert (M : forall k k' input x y, (k <= k')%nat -> sum_loop k true x input = Done y -> sum_loop k' true x input = Done y).
      { clear. induction k as [|k IH]; intros k' input x y L E; cbn [sum_loop] in E; destruct (Z.eqb_spec input 0) as [->|N0]; try discriminate E.
        - inversion E; subst. destruct k'; reflexivity.
        - inversion E; subst. destruct k'; reflexivity.
        - destruct k' as [|k']; [lia|]. cbn [sum_loop]. destruct (Z.eqb_spec input 0); [contradiction|]. apply IH; auto. lia. }
      rewrite (M _ _ _ _ _ L Er). reflexivity.
  - exists s, (Some (65535 - s)%N). repeat split; auto. exists O. reflexivity.
  - exists s, (Some s). repeat split; auto. exists O. reflexivity.
  - exists s, (Some (if Z.eqb v (Z.of_N (65535 - s)) then 1 else 0))%N. repeat split; auto. exists O. intros fuel _. cbn [ck_step]. unfold get16.
    destruct (Z.ltb_spec v 0); [lia|]. cbn [bindr]. rewrite Z.mod_small by lia. do 3 f_equal. destruct (Z.eqb_spec v (Z.of_N (65535 - s))) as [A|A], (N.eqb_spec (Z.to_N v) (65535 - s)) as [B|B]; auto; lia.
  - exists (Z.to_N v), None. split; [split; [lia|reflexivity]|]. split; [lia|]. exists O. intros fuel _. cbn [ck_step]. unfold get16. destruct (Z.ltb_spec v 0); [lia|]. cbn [bindr]. rewrite Z.mod_small by lia. reflexivity.
  - exists 0%N, None. split; [split; auto|]. split; [lia|]. exists O. reflexivity.
Qed.
Lemma run_holds ops : forall s, Forall op_ok ops -> (s <= 65535)%N -> exists s' outs, psa_run false s ops s' outs /\ (s' <= 65535)%N /\ exists n, forall fuel, (n <= fuel)%nat -> ck_run fuel s ops = Done (s', outs).
Proof.
  induction ops as [|o r IH]; intros s F S; [exists s, []; split; [constructor|]; split; auto; exists O; reflexivity|]. inversion F; subst.
  destruct (step_holds o s H1 S) as (s1 & out & P & S1 & n & E). destruct (IH s1 H2 S1) as (s2 & outs & P2 & S2 & m & E2).
  exists s2, (out :: outs). split; [econstructor; eauto|]. split; auto. exists (Nat.max n m). intros fuel L. cbn [ck_run]. rewrite E by lia. cbn [bindr fst snd]. rewrite E2 by lia. reflexivity.
Qed.
Lemma neg_hangs fuel : forall neg s i, i < 0 -> sum_loop fuel neg s i = Hangs.
Proof.
  induction fuel as [|k IH]; intros neg s i H; cbn [sum_loop]; destruct (Z.eqb_spec i 0); try lia; auto. apply IH. rewrite Z.shiftr_div_pow2 by lia. apply Z.div_lt_upper_bound; lia.
Qed.

(** ** Hash *)
Local Close Scope Z_scope.
Lemma skipn_app_len {A} (a b : list A) n : skipn (length a + n) (a ++ b) = skipn n b.
Proof. rewrite skipn_app, skipn_all2 by lia. cbn. f_equal. lia. Qed.
Lemma firstn_app_len {A} (a b : list A) n : firstn (length a + n) (a ++ b) = a ++ firstn n b.
Proof. rewrite firstn_app, firstn_all2 by lia. do 2 f_equal. lia. Qed.
Lemma write_fields_h fs : forall buf n r, bytes_ok buf -> n + sum_bits fs <= 8 * length buf ->
  h_deparse (map (fun f => (fst f, field_bytes f)) fs) (skipn (n / 8) buf) (n mod 8) = Some r ->
  write_fields fs buf n = Some (firstn (n / 8) buf ++ r).
Proof.
  induction fs as [|f fs IH]; intros buf n r BO L E; cbn [map h_deparse write_fields] in *.
  - inversion E. rewrite firstn_skipn. reflexivity.
  - assert (SB : sum_bits (f :: fs) = fst f + sum_bits fs) by reflexivity. rewrite SB in L. pose proof (Nat.div_mod n 8 ltac:(lia)) as DM. pose proof (Nat.mod_upper_bound n 8 ltac:(lia)) as MB.
    assert (LF : length (firstn (n / 8) buf) = n / 8) by (rewrite firstn_length; lia). assert (LS : length (skipn (n / 8) buf) = length buf - n / 8) by apply skipn_length.
    pose proof (C25_deparse (field_bits f) (field_bytes f) (skipn (n / 8) buf) (n mod 8) (ParserProofs3.field_bytes_holds f) (bytes_ok_skipn _ _ BO) MB) as G.
    assert (LB : length (field_bits f) = fst f) by (unfold field_bits; apply bitsN_length). rewrite LB in G. destruct G as (d & G & GL & GB & _); [rewrite LS; lia|].
    unfold write_at. rewrite G in *. unfold ExtractModel.bind at 1 in E. cbn zeta in E.
    destruct (h_deparse _ (skipn _ d) _) as [d'|] eqn:H; [|discriminate E]. cbn in E. inversion E; subst; clear E.
    assert (A : (n + fst f) / 8 = n / 8 + (n mod 8 + fst f) / 8 /\ (n + fst f) mod 8 = (n mod 8 + fst f) mod 8).
    { assert (X : n + fst f = n mod 8 + fst f + (n / 8) * 8) by lia. rewrite X at 1 2. rewrite Nat.div_add, Nat.mod_add by lia. lia. }
    destruct A as [A B]. unfold bind. rewrite (IH _ _ d').
    + f_equal. rewrite A. rewrite <- LF at 1. rewrite firstn_app_len, app_assoc. reflexivity.
    + apply Forall_app. split; [apply bytes_ok_firstn; exact BO|exact GB].
    + rewrite app_length, LF, GL, LS. lia.
    + rewrite A, B. rewrite <- LF at 1. rewrite skipn_app_len. exact H.
Qed.
Lemma fold_sum fs : forall a, fold_left (fun n (f : nat * Z) => n + fst f) fs a = a + sum_bits fs.
Proof. induction fs as [|f fs IH]; intros a; cbn [fold_left]; [cbn; lia|]. rewrite IH. unfold sum_bits. cbn [map fold_right]. lia. Qed.
Lemma zeros_bits n : bits_of_bytes (repeat 0%N n) = repeat false (8 * n).
Proof. apply bits_ext; [rewrite !repeat_length; reflexivity|]. intros p _. rewrite bitat_zeros. symmetry. apply nth_repeat. Qed.
Lemma build_holds fs : exists buf, build_buffer fs = Some buf /\ bytes_ok buf /\ length buf = (sum_bits fs + 7) / 8 /\
  bits_of_bytes buf = repeat false (8 * length buf - sum_bits fs) ++ concat (map field_bits fs).
Proof.
  unfold build_buffer. rewrite fold_sum. cbn [Nat.add]. set (t := sum_bits fs). set (nb := (t + 7) / 8). assert (NB : t <= 8 * nb < t + 8) by (subst nb; pose proof (Nat.div_mod (t + 7) 8 ltac:(lia)); pose proof (Nat.mod_upper_bound (t + 7) 8 ltac:(lia)); lia).
  pose proof (C25_header_deparse (map field_bits fs) (map field_bytes fs) (repeat 0%N nb) (nb * 8 - t) (all_hold fs) (bytes_ok_zeros nb) ltac:(lia)) as H. cbv zeta in H.
  rewrite len_bits, repeat_length in H. fold t in H. destruct (H ltac:(lia)) as (r & E & L & B & F1 & F2 & _). exists r. rewrite <- dep_combine in E.
  assert (D : (nb * 8 - t) / 8 = 0) by (apply Nat.div_small; lia). assert (M : (nb * 8 - t) mod 8 = nb * 8 - t) by (apply Nat.mod_small; lia).
  rewrite (write_fields_h fs _ _ r); [rewrite D; split; [reflexivity|]|apply bytes_ok_zeros|rewrite repeat_length; fold t; lia|rewrite D, M; exact E].
  split; auto. split; auto. rewrite L. replace (8 * nb - t) with (nb * 8 - t) by lia.
  rewrite <- (firstn_skipn (nb * 8 - t) (bits_of_bytes r)). f_equal.
  - rewrite F1, zeros_bits. clear - NB. assert (G : forall a b, a <= b -> firstn a (repeat false b) = repeat false a). { induction a; intros [|b] H; cbn; auto; [lia|]. f_equal. apply IHa. lia. } apply G. lia.
  - rewrite <- F2. symmetry. apply firstn_all2. rewrite skipn_length.
    assert (LB : length (bits_of_bytes r) = 8 * length r). { clear. induction r as [|x r IH]; auto. unfold bits_of_bytes in *. cbn [flat_map]. rewrite app_length, IH, bitsN_length. cbn [length]. lia. } rewrite LB, L. lia.
Qed.
