From Coq Require Import List Arith NArith Bool Lia Sorted.
From Verif Require Import Base HandleMgrModel HandleMgrSpec.
Import ListNotations.
Local Open Scope nat_scope.

(** * find_lowest_bit *)
Lemma pow2_odd_decomp (v : N) : (v <> 0)%N -> exists k q, v = (2 ^ k * (2 * q + 1))%N.
Proof.
  destruct v as [|p]; [congruence|]. intros _.
  induction p as [p IH|p IH|].
  - exists 0%N, (Npos p). rewrite N.pow_0_r. lia.
  - destruct IH as (k & q & E). exists (N.succ k), q.
    rewrite N.pow_succ_r', <- N.mul_assoc, <- E. reflexivity.
  - exists 0%N, 0%N. reflexivity.
Qed.

Lemma land_odd a b : N.land (2 * a + 1) (2 * b + 1) = (2 * N.land a b + 1)%N.
Proof.
  apply N.bits_inj; intros n. rewrite N.land_spec.
  destruct (N.eq_dec n 0) as [->|Hn].
  - rewrite !N.testbit_odd_0. reflexivity.
  - replace n with (N.succ (N.pred n)) by lia.
    rewrite !N.testbit_odd_succ, N.land_spec by lia. reflexivity.
Qed.

Lemma land_mul_pow2 k a b : N.land (2 ^ k * a) (2 ^ k * b) = (2 ^ k * N.land a b)%N.
Proof.
  rewrite !(N.mul_comm (2 ^ k)), <- !N.shiftl_mul_pow2. symmetry; apply N.shiftl_land.
Qed.

Lemma land_compl n q : (q < 2 ^ n)%N -> N.land q (2 ^ n - 1 - q) = 0%N.
Proof.
  intros H. destruct (N.eq_dec q 0) as [->|Hq]; [apply N.land_0_l|].
  assert (L : (N.log2 q < n)%N) by (apply N.log2_lt_pow2; lia).
  replace (2 ^ n - 1 - q)%N with (N.lnot q n).
  - apply N.land_lnot_diag_low; auto.
  - rewrite N.lnot_sub_low by auto. rewrite N.ones_equiv. lia.
Qed.

Lemma isolate_lowest v k q :
  v = (2 ^ k * (2 * q + 1))%N -> (v < 2 ^ 32)%N ->
  (k < 32)%N /\ N.land v ((2 ^ 32 - v) mod 2 ^ 32) = (2 ^ k)%N.
Proof.
  intros E H.
  assert (Hk : (k < 32)%N).
  { apply (N.pow_lt_mono_r_iff 2); try lia; nia. }
  split; auto.
  rewrite N.mod_small by lia.
  assert (E2 : (2 ^ 32 = 2 ^ k * (2 * 2 ^ (31 - k)))%N).
  { rewrite <- N.pow_succ_r', <- N.pow_add_r. f_equal. lia. }
  assert (Hpos : (0 < 2 ^ k)%N) by (apply N.neq_0_lt_0, N.pow_nonzero; lia).
  assert (Hq : (q < 2 ^ (31 - k))%N) by nia.
  replace (2 ^ 32 - v)%N with (2 ^ k * (2 * (2 ^ (31 - k) - 1 - q) + 1))%N by nia.
  rewrite E, land_mul_pow2, land_odd, land_compl by auto. lia.
Qed.

Lemma testbit_pow_odd k q : N.testbit (2 ^ k * (2 * q + 1)) k = true.
Proof.
  rewrite N.mul_comm, <- N.shiftl_mul_pow2, N.shiftl_spec_high' by lia.
  rewrite N.sub_diag. apply N.testbit_odd_0.
Qed.

Lemma testbit_pow_odd_low k q j : (j < k)%N -> N.testbit (2 ^ k * (2 * q + 1)) j = false.
Proof.
  intros H. rewrite N.mul_comm, <- N.shiftl_mul_pow2. apply N.shiftl_spec_low; auto.
Qed.

Definition debruijn_ok (k : nat) : bool :=
  nth (N.to_nat (N.shiftr ((2 ^ N.of_nat k * 125613361) mod 2 ^ 32) 27)) debruijn_table 0 =? k.

Lemma debruijn_sweep : forallb debruijn_ok (seq 0 32) = true.
Proof. vm_compute. reflexivity. Qed.

Lemma flb32_spec v : (v <> 0)%N -> (v < 2 ^ 32)%N ->
  N.testbit v (N.of_nat (find_lowest_bit32 v)) = true /\
  (forall j, (j < N.of_nat (find_lowest_bit32 v))%N -> N.testbit v j = false).
Proof.
  intros H0 H. destruct (pow2_odd_decomp v H0) as (k & q & E).
  destruct (isolate_lowest v k q E H) as [Hk Hl].
  assert (F : find_lowest_bit32 v = N.to_nat k).
  { unfold find_lowest_bit32. rewrite Hl.
    pose proof debruijn_sweep as S. rewrite forallb_forall in S.
    specialize (S (N.to_nat k)). unfold debruijn_ok in S. rewrite N2Nat.id in S.
    apply Nat.eqb_eq, S. apply in_seq. lia. }
  rewrite F, N2Nat.id, E. split; [apply testbit_pow_odd|].
  intros j Hj. apply testbit_pow_odd_low; auto.
Qed.

Lemma flb64_spec v : (v <> 0)%N -> (v < 2 ^ 64)%N ->
  N.testbit v (N.of_nat (find_lowest_bit64 v)) = true /\
  (forall j, (j < N.of_nat (find_lowest_bit64 v))%N -> N.testbit v j = false).
Proof.
  intros H0 H. unfold find_lowest_bit64.
  change 4294967295%N with (N.ones 32).
  rewrite N.land_ones.
  destruct (N.eqb_spec (v mod 2 ^ 32) 0) as [E|E].
  - rewrite N.shiftr_div_pow2.
    assert (D : v = (2 ^ 32 * (v / 2 ^ 32))%N) by (pose proof (N.div_mod v (2 ^ 32)); lia).
    assert (Dn : (v / 2 ^ 32 <> 0)%N) by (intro X; rewrite X in D; lia).
    assert (Dl : (v / 2 ^ 32 < 2 ^ 32)%N) by (apply N.div_lt_upper_bound; lia).
    destruct (flb32_spec _ Dn Dl) as [A B].
    assert (T : forall j, N.testbit v (32 + j) = N.testbit (v / 2 ^ 32) j).
    { intros j. rewrite N.div_pow2_bits. f_equal; lia. }
    assert (T0 : forall j, (j < 32)%N -> N.testbit v j = false).
    { intros j Hj. rewrite D, N.mul_comm. apply N.mul_pow2_bits_low; auto. }
    replace (N.of_nat (32 + find_lowest_bit32 (v / 2 ^ 32)))
      with (32 + N.of_nat (find_lowest_bit32 (v / 2 ^ 32)))%N by lia.
    rewrite T. split; auto.
    intros j Hj. destruct (N.lt_ge_cases j 32) as [L|L]; auto.
    replace j with (32 + (j - 32))%N by lia. rewrite T. apply B. lia.
  - assert (L : (v mod 2 ^ 32 < 2 ^ 32)%N) by (apply N.mod_lt; lia).
    destruct (flb32_spec _ E L) as [A B].
    assert (LB : (N.of_nat (find_lowest_bit32 (v mod 2 ^ 32)) < 32)%N).
    { destruct (N.lt_ge_cases (N.of_nat (find_lowest_bit32 (v mod 2 ^ 32))) 32) as [X|X]; auto.
      rewrite N.mod_pow2_bits_high in A by auto. discriminate. }
    split.
    + rewrite N.mod_pow2_bits_low in A by auto. auto.
    + intros j Hj. specialize (B j Hj). rewrite N.mod_pow2_bits_low in B by lia. auto.
Qed.

Lemma bits_lt_pow2 x n : (forall i, (n <= i)%N -> N.testbit x i = false) -> (x < 2 ^ n)%N.
Proof.
  intros H. destruct (N.eq_dec x 0) as [->|Hx].
  - apply N.neq_0_lt_0, N.pow_nonzero; lia.
  - apply N.log2_lt_pow2; try lia.
    destruct (N.lt_ge_cases (N.log2 x) n) as [L|L]; auto.
    specialize (H _ L). rewrite N.bit_log2 in H by auto. discriminate.
Qed.

Lemma lt_pow2_bits x n i : (x < 2 ^ n)%N -> (n <= i)%N -> N.testbit x i = false.
Proof. intros H L. rewrite <- (N.mod_small x (2 ^ n)) by auto. apply N.mod_pow2_bits_high; auto. Qed.

Lemma flb64_lt v : (v <> 0)%N -> (v < 2 ^ 64)%N -> find_lowest_bit64 v < 64.
Proof.
  intros H0 H. destruct (flb64_spec v H0 H) as [A _].
  destruct (Nat.lt_ge_cases (find_lowest_bit64 v) 64) as [X|X]; auto.
  rewrite (lt_pow2_bits v 64) in A by lia. discriminate.
Qed.

(** * Bitset words as an infinite bit sequence *)
Definition wbit (ws : list N) (i : nat) : bool :=
  N.testbit (nth (i / 64) ws 0%N) (N.of_nat (i mod 64)).

Definition words_ok (ws : list N) : Prop := Forall (fun w => (w < 2 ^ 64)%N) ws.

Lemma words_ok_nth ws i : words_ok ws -> (nth i ws 0 < 2 ^ 64)%N.
Proof.
  intros H. destruct (Nat.lt_ge_cases i (length ws)) as [L|L].
  - eapply Forall_forall in H; [exact H|apply nth_In; auto].
  - rewrite nth_overflow by auto. reflexivity.
Qed.

Lemma idx_split i : i = i / 64 * 64 + i mod 64 /\ i mod 64 < 64.
Proof. pose proof (Nat.div_mod i 64). pose proof (Nat.mod_upper_bound i 64). lia. Qed.

Lemma wbit_at ws a b : b < 64 -> wbit ws (a * 64 + b) = N.testbit (nth a ws 0%N) (N.of_nat b).
Proof.
  intros H. unfold wbit.
  replace ((a * 64 + b) / 64) with a
    by (rewrite (Nat.add_comm (a * 64)), Nat.div_add, Nat.div_small by lia; lia).
  replace ((a * 64 + b) mod 64) with b
    by (rewrite (Nat.add_comm (a * 64)), Nat.mod_add, Nat.mod_small by lia; lia).
  reflexivity.
Qed.

Lemma find_from_spec ws : words_ok ws -> forall i,
  match find_from ws i with
  | None => forall j, wbit ws j = false
  | Some r => i * 64 <= r /\ wbit ws (r - i * 64) = true /\
              forall j, i * 64 + j < r -> wbit ws j = false
  end.
Proof.
  intros H. induction H as [|w r Hw H IH]; intros i; cbn [find_from].
  - intros j. unfold wbit. destruct (j / 64); apply N.bits_0.
  - destruct (N.eqb_spec w 0) as [->|E].
    + specialize (IH (S i)). destruct (find_from r (S i)) as [x|].
      * destruct IH as (A & B & C). split; [lia|].
        assert (X : x - i * 64 = 64 + (x - S i * 64)) by lia.
        assert (T : forall j, wbit (0%N :: r) (64 + j) = wbit r j).
        { intros j. destruct (idx_split j) as [Ej Lj]. rewrite Ej at 1.
          replace (64 + (j / 64 * 64 + j mod 64)) with (S (j / 64) * 64 + j mod 64) by lia.
          rewrite wbit_at by auto. reflexivity. }
        rewrite X, T. split; auto.
        intros j Hj. destruct (Nat.lt_ge_cases j 64) as [L|L].
        -- unfold wbit. rewrite Nat.div_small by auto. apply N.bits_0.
        -- replace j with (64 + (j - 64)) by lia. rewrite T. apply C. lia.
      * intros j. destruct (Nat.lt_ge_cases j 64) as [L|L].
        -- unfold wbit. rewrite Nat.div_small by auto. apply N.bits_0.
        -- destruct (idx_split (j - 64)) as [Ej Lj].
           replace j with (S ((j - 64) / 64) * 64 + (j - 64) mod 64) by lia.
           rewrite wbit_at by auto. cbn [nth].
           specialize (IH (j - 64)). exact IH.
    + destruct (flb64_spec w E Hw) as [A B]. pose proof (flb64_lt w E Hw) as L.
      unfold block_width. split; [lia|].
      replace (i * 64 + find_lowest_bit64 w - i * 64) with (0 * 64 + find_lowest_bit64 w) by lia.
      rewrite wbit_at by auto. cbn [nth]. split; auto.
      intros j Hj. replace j with (0 * 64 + j) by lia. rewrite wbit_at by lia.
      cbn [nth]. apply B. lia.
Qed.

Lemma bnot_bits w i : N.testbit (bnot w) i = if (i <? 64)%N then negb (N.testbit w i) else N.testbit w i.
Proof.
  unfold bnot. destruct (N.ltb_spec i 64).
  - apply N.lnot_spec_low; auto.
  - apply N.lnot_spec_high; auto.
Qed.

Lemma bnot_lt w : (w < 2 ^ 64)%N -> (bnot w < 2 ^ 64)%N.
Proof.
  intros H. apply bits_lt_pow2. intros i Hi. rewrite bnot_bits.
  destruct (N.ltb_spec i 64); try lia. eapply lt_pow2_bits; eauto.
Qed.

Lemma bnot_ones w : (w < 2 ^ 64)%N -> ((w =? ones) = (bnot w =? 0))%N.
Proof.
  intros H. unfold bnot, ones.
  destruct (N.eqb_spec w (N.ones 64)) as [->|E].
  - vm_compute. reflexivity.
  - symmetry. apply N.eqb_neq. intros X. apply E.
    rewrite <- (N.lnot_involutive w 64), X. apply N.lnot_0_l.
Qed.

Lemma find_unset_from_eq ws : words_ok ws -> forall i,
  find_unset_from ws i = find_from (map bnot ws) i.
Proof.
  intros H. induction H as [|w r Hw H IH]; intros i; cbn [find_unset_from find_from map]; auto.
  rewrite bnot_ones by auto. destruct (bnot w =? 0)%N; auto.
Qed.

Lemma words_ok_bnot ws : words_ok ws -> words_ok (map bnot ws).
Proof. intros H. apply Forall_map. eapply Forall_impl; [|exact H]. apply bnot_lt. Qed.

Lemma wbit_bnot ws i : i / 64 < length ws -> wbit (map bnot ws) i = negb (wbit ws i).
Proof.
  intros H. unfold wbit.
  rewrite nth_indep with (d' := bnot 0%N) by (rewrite map_length; auto).
  rewrite map_nth, bnot_bits.
  destruct (N.ltb_spec (N.of_nat (i mod 64)) 64); auto.
  destruct (idx_split i); lia.
Qed.

Lemma wbit_out ws i : length ws <= i / 64 -> wbit ws i = false.
Proof. intros H. unfold wbit. rewrite nth_overflow by auto. apply N.bits_0. Qed.

Lemma skipn_words_ok ws n : words_ok ws -> words_ok (skipn n ws).
Proof.
  intros H. revert n; induction H as [|w r Hw H IH]; intros [|n]; simpl; auto; constructor; auto.
Qed.

Lemma nth_skipn {A} n i (l : list A) d : nth i (skipn n l) d = nth (n + i) l d.
Proof.
  revert l; induction n as [|n IH]; intros [|h t]; simpl; auto. destruct i; auto.
Qed.

Lemma wbit_skipn ws n i : wbit (skipn n ws) i = wbit ws (n * 64 + i).
Proof.
  destruct (idx_split i) as [E L]. rewrite E at 2.
  replace (n * 64 + (i / 64 * 64 + i mod 64)) with ((n + i / 64) * 64 + i mod 64) by lia.
  rewrite wbit_at by auto. unfold wbit. rewrite nth_skipn. reflexivity.
Qed.

(** * Well-formed bitsets *)
Record wf (b : bitset) : Prop := {
  wf_words : words_ok (words b);
  wf_len : length (words b) = (num_bits b + 63) / 64;
  wf_high : forall i, num_bits b <= i -> wbit (words b) i = false }.

Lemma div_lt_len n i : i < n -> i / 64 < (n + 63) / 64.
Proof.
  intros H. destruct (idx_split i). destruct (idx_split (n + 63)). lia.
Qed.

Lemma shiftl1_bits k i : N.testbit (N.shiftl 1 k) i = (i =? k)%N.
Proof.
  rewrite N.shiftl_1_l, N.pow2_bits_eqb. apply N.eqb_sym.
Qed.

Lemma land_bit_zero w k : (N.land w (N.shiftl 1 k) =? 0)%N = negb (N.testbit w k).
Proof.
  destruct (N.testbit w k) eqn:T; cbn [negb].
  - apply N.eqb_neq. intros E.
    assert (X : N.testbit (N.land w (N.shiftl 1 k)) k = true)
      by (rewrite N.land_spec, T, shiftl1_bits, N.eqb_refl; auto).
    rewrite E, N.bits_0 in X; discriminate.
  - apply N.eqb_eq, N.bits_inj. intros i. rewrite N.land_spec, shiftl1_bits, N.bits_0.
    destruct (N.eqb_spec i k) as [->|]; rewrite ?T; auto using andb_false_r.
Qed.

Lemma land_bit_shiftr w k : N.shiftr (N.land w (N.shiftl 1 k)) k = if N.testbit w k then 1%N else 0%N.
Proof.
  apply N.bits_inj. intros i. rewrite N.shiftr_spec, N.land_spec, shiftl1_bits by lia.
  destruct (N.eqb_spec (i + k) k) as [E|E].
  - assert (i = 0)%N as -> by lia. rewrite N.add_0_l. destruct (N.testbit w k); reflexivity.
  - rewrite andb_false_r. destruct (N.testbit w k); [|rewrite N.bits_0; auto].
    destruct i; [lia|]. destruct p; reflexivity.
Qed.

Lemma bs_test_spec b i : bs_test b i = if i <? num_bits b then Some (wbit (words b) i) else None.
Proof.
  unfold bs_test, block_width. destruct (i <? num_bits b); auto.
  rewrite land_bit_zero, negb_involutive. reflexivity.
Qed.

Lemma idx_neq i j : i <> j -> i / 64 = j / 64 -> i mod 64 <> j mod 64.
Proof. intros. destruct (idx_split i), (idx_split j). lia. Qed.

Lemma bs_set_spec b i : wf b -> i < num_bits b ->
  exists b', bs_set b i = Some (b', negb (wbit (words b) i)) /\ wf b' /\
             num_bits b' = num_bits b /\
             num_bits_set b' = num_bits_set b + (if wbit (words b) i then 0 else 1) /\
             (forall j, wbit (words b') j = if j =? i then true else wbit (words b) j).
Proof.
  intros W H. unfold bs_set, block_width.
  destruct (Nat.ltb_spec i (num_bits b)); try lia.
  eexists; split; [rewrite land_bit_zero; reflexivity|].
  assert (Hl : i / 64 < length (words b)) by (rewrite (wf_len b W); apply div_lt_len; auto).
  assert (Hb : forall j, wbit (list_set (words b) (i / 64)
             (N.lor (nth (i / 64) (words b) 0%N) (N.shiftl 1 (N.of_nat (i mod 64))))) j
             = if j =? i then true else wbit (words b) j).
  { intros j. unfold wbit at 1. destruct (Nat.eq_dec (i / 64) (j / 64)) as [E|E].
    - rewrite <- E, nth_list_set_eq by auto. rewrite N.lor_spec, shiftl1_bits.
      destruct (Nat.eqb_spec j i) as [->|Hne].
      + rewrite N.eqb_refl. apply orb_true_r.
      + destruct (N.eqb_spec (N.of_nat (j mod 64)) (N.of_nat (i mod 64))) as [E2|E2].
        * exfalso; apply (idx_neq i j); lia.
        * rewrite orb_false_r. unfold wbit. rewrite <- E; auto.
    - rewrite nth_list_set_neq by auto.
      destruct (Nat.eqb_spec j i) as [->|Hne]; [lia|reflexivity]. }
  cbn [words num_bits num_bits_set]. repeat split; cbn [words num_bits]; auto.
  - apply Forall_forall. intros w Hin. apply In_nth with (d := 0%N) in Hin.
    destruct Hin as (n & Hn & <-). rewrite list_set_length in Hn.
    destruct (Nat.eq_dec (i / 64) n) as [<-|E].
    + rewrite nth_list_set_eq by auto. apply bits_lt_pow2. intros k Hk.
      rewrite N.lor_spec, shiftl1_bits, (lt_pow2_bits _ 64) by (auto; apply words_ok_nth, W).
      destruct (idx_split i). apply N.eqb_neq. lia.
    + rewrite nth_list_set_neq by auto. apply words_ok_nth, W.
  - rewrite list_set_length. apply W.
  - intros j Hj. rewrite Hb. destruct (Nat.eqb_spec j i); [lia|]. apply W; auto.
  - rewrite land_bit_shiftr. unfold wbit. destruct (N.testbit _ _); reflexivity.
Qed.

Lemma bs_reset_spec b i : wf b -> i < num_bits b ->
  exists b', bs_reset b i = Some (b', wbit (words b) i) /\ wf b' /\
             num_bits b' = num_bits b /\
             num_bits_set b' = num_bits_set b - (if wbit (words b) i then 1 else 0) /\
             (forall j, wbit (words b') j = if j =? i then false else wbit (words b) j).
Proof.
  intros W H. unfold bs_reset, block_width.
  destruct (Nat.ltb_spec i (num_bits b)); try lia.
  eexists; split; [rewrite land_bit_zero, negb_involutive; reflexivity|].
  assert (Hl : i / 64 < length (words b)) by (rewrite (wf_len b W); apply div_lt_len; auto).
  assert (Hm : forall k, (k < 64)%N ->
     N.testbit (bnot (N.shiftl 1 (N.of_nat (i mod 64)))) k = negb (k =? N.of_nat (i mod 64))%N).
  { intros k Hk. rewrite bnot_bits, shiftl1_bits. destruct (N.ltb_spec k 64); auto; lia. }
  assert (Hb : forall j, wbit (list_set (words b) (i / 64)
             (N.land (nth (i / 64) (words b) 0%N) (bnot (N.shiftl 1 (N.of_nat (i mod 64)))))) j
             = if j =? i then false else wbit (words b) j).
  { intros j. unfold wbit at 1. destruct (Nat.eq_dec (i / 64) (j / 64)) as [E|E].
    - rewrite <- E, nth_list_set_eq by auto.
      rewrite N.land_spec, Hm by (destruct (idx_split j); lia).
      destruct (Nat.eqb_spec j i) as [->|Hne].
      + rewrite N.eqb_refl. apply andb_false_r.
      + destruct (N.eqb_spec (N.of_nat (j mod 64)) (N.of_nat (i mod 64))) as [E2|E2].
        * exfalso; apply (idx_neq i j); lia.
        * cbn [negb]. rewrite andb_true_r. unfold wbit. rewrite <- E; auto.
    - rewrite nth_list_set_neq by auto.
      destruct (Nat.eqb_spec j i) as [->|Hne]; [lia|reflexivity]. }
  cbn [words num_bits num_bits_set]. repeat split; cbn [words num_bits]; auto.
  - apply Forall_forall. intros w Hin. apply In_nth with (d := 0%N) in Hin.
    destruct Hin as (n & Hn & <-). rewrite list_set_length in Hn.
    destruct (Nat.eq_dec (i / 64) n) as [<-|E].
    + rewrite nth_list_set_eq by auto. apply bits_lt_pow2. intros k Hk.
      rewrite N.land_spec, (lt_pow2_bits _ 64) by (auto; apply words_ok_nth, W). auto.
    + rewrite nth_list_set_neq by auto. apply words_ok_nth, W.
  - rewrite list_set_length. apply W.
  - intros j Hj. rewrite Hb. destruct (Nat.eqb_spec j i); [lia|]. apply W; auto.
  - rewrite land_bit_shiftr. unfold wbit. destruct (N.testbit _ _); reflexivity.
Qed.

Lemma wbit_app_zeros ws n i : wbit (ws ++ repeat 0%N n) i = wbit ws i.
Proof.
  unfold wbit. destruct (Nat.lt_ge_cases (i / 64) (length ws)) as [L|L].
  - rewrite app_nth1 by auto; auto.
  - rewrite app_nth2, nth_repeat, (nth_overflow ws) by auto. auto.
Qed.

Lemma wf_grow b n m : wf b -> num_bits b <= n ->
  length (words b) + m = (n + 63) / 64 ->
  wf (mkBitset (words b ++ repeat 0%N m) n (num_bits_set b)).
Proof.
  intros W H E. split; cbn [words num_bits].
  - apply Forall_app; split; [apply W|].
    apply Forall_forall. intros x Hx. apply repeat_spec in Hx. subst. reflexivity.
  - rewrite app_length, repeat_length. auto.
  - intros i Hi. rewrite wbit_app_zeros. apply W. lia.
Qed.

Lemma bs_push_spec b : wf b ->
  exists b', bs_push_back b true = Some b' /\ wf b' /\ num_bits b' = S (num_bits b) /\
             num_bits_set b' = S (num_bits_set b) /\
             (forall j, wbit (words b') j = if j =? num_bits b then true else wbit (words b) j).
Proof.
  intros W. unfold bs_push_back. unfold block_width.
  set (b1 := mkBitset _ _ _).
  assert (W1 : wf b1 /\ forall j, wbit (words b1) j = wbit (words b) j).
  { destruct (Nat.eqb_spec (num_bits b mod 64) 0) as [E|E]; unfold b1; clear b1.
    - change [0%N] with (repeat 0%N 1). split; [|intros; cbn [words]; apply wbit_app_zeros].
      apply wf_grow; auto. rewrite (wf_len b W).
      destruct (idx_split (num_bits b)), (idx_split (num_bits b + 63)), (idx_split (S (num_bits b) + 63)).
      lia.
    - split; [|auto]. rewrite <- (app_nil_r (words b)). change (@nil N) with (repeat 0%N 0).
      apply wf_grow; auto. rewrite (wf_len b W).
      destruct (idx_split (num_bits b)), (idx_split (num_bits b + 63)), (idx_split (S (num_bits b) + 63)).
      lia. }
  destruct W1 as [W1 B1].
  assert (N1 : num_bits b1 = S (num_bits b)) by reflexivity.
  rewrite N1. replace (S (num_bits b) - 1) with (num_bits b) by lia.
  destruct (bs_set_spec b1 (num_bits b) W1 ltac:(lia)) as (b2 & E & W2 & N2 & S2 & B2).
  rewrite E. exists b2. split; [reflexivity|]. split; [exact W2|]. split; [lia|]. split.
  - rewrite S2, B1, (wf_high b W) by lia. change (num_bits_set b1) with (num_bits_set b). lia.
  - intros j. rewrite B2, B1. auto.
Qed.

Lemma bs_resize_spec b n : wf b -> num_bits b <= n ->
  wf (bs_resize b n) /\ forall j, wbit (words (bs_resize b n)) j = wbit (words b) j.
Proof.
  intros W H. unfold bs_resize, block_width.
  replace (n + 64 - 1) with (n + 63) by lia.
  assert (L : length (words b) <= (n + 63) / 64).
  { rewrite (wf_len b W). apply Nat.div_le_mono; lia. }
  rewrite firstn_all2 by auto.
  split; [|intros j; cbn [words]; apply wbit_app_zeros].
  apply wf_grow; auto. lia.
Qed.

Lemma bs_find_next_spec b i : wf b ->
  match bs_find_next b i with
  | None => forall j, i < j -> wbit (words b) j = false
  | Some r => i < r /\ wbit (words b) r = true /\ forall j, i < j < r -> wbit (words b) j = false
  end.
Proof.
  intros W. unfold bs_find_next, block_width.
  destruct (Nat.leb_spec (num_bits b) (S i)) as [L|L].
  { intros j Hj. apply W. lia. }
  set (k := S i) in *. destruct (idx_split k) as [Ek Lk].
  set (sw := N.land _ _).
  assert (Hsw : (sw < 2 ^ 64)%N).
  { apply bits_lt_pow2. intros n Hn. unfold sw. rewrite N.land_spec.
    rewrite (lt_pow2_bits _ 64) by (auto; apply words_ok_nth, W). auto. }
  assert (Bsw : forall n, n < 64 -> N.testbit sw (N.of_nat n) =
     wbit (words b) (k / 64 * 64 + n) && (k mod 64 <=? n)).
  { intros n Hn. unfold sw. rewrite N.land_spec, wbit_at by auto. f_equal.
    rewrite N.mod_pow2_bits_low by lia.
    destruct (Nat.leb_spec (k mod 64) n).
    - rewrite N.shiftl_spec_high' by lia. unfold ones. apply N.ones_spec_low. lia.
    - apply N.shiftl_spec_low. lia. }
  assert (Bsw0 : forall j, k <= j -> j / 64 = k / 64 ->
     wbit (words b) j = N.testbit sw (N.of_nat (j mod 64))).
  { intros j Hj E. destruct (idx_split j) as [Ej Lj].
    rewrite Bsw by auto. rewrite <- E, <- Ej.
    destruct (Nat.leb_spec (k mod 64) (j mod 64)); [rewrite andb_true_r; auto|lia]. }
  destruct (N.eqb_spec sw 0) as [E|E].
  - unfold find_from_block.
    pose proof (find_from_spec _ (skipn_words_ok (words b) (S (k / 64)) (wf_words b W)) (S (k / 64))) as F.
    destruct (find_from (skipn (S (k / 64)) (words b)) (S (k / 64))) as [r|].
    + destruct F as (A & B & C).
      rewrite wbit_skipn in B. replace (S (k / 64) * 64 + (r - S (k / 64) * 64)) with r in B by lia.
      split; [lia|]. split; auto. intros j Hj. destruct (idx_split j) as [Ej Lj].
      destruct (Nat.eq_dec (j / 64) (k / 64)) as [X|X].
      * rewrite Bsw0, E by (auto; lia). apply N.bits_0.
      * specialize (C (j - S (k / 64) * 64)). rewrite wbit_skipn in C.
        replace (S (k / 64) * 64 + (j - S (k / 64) * 64)) with j in C by lia. apply C. lia.
    + intros j Hj. destruct (idx_split j) as [Ej Lj].
      destruct (Nat.eq_dec (j / 64) (k / 64)) as [X|X].
      * rewrite Bsw0, E by (auto; lia). apply N.bits_0.
      * specialize (F (j - S (k / 64) * 64)). rewrite wbit_skipn in F.
        replace (S (k / 64) * 64 + (j - S (k / 64) * 64)) with j in F by lia. apply F.
  - destruct (flb64_spec sw E Hsw) as [A B]. pose proof (flb64_lt sw E Hsw) as Lf.
    rewrite Bsw in A by auto. apply andb_true_iff in A. destruct A as [A1 A2].
    apply Nat.leb_le in A2. split; [lia|]. split; auto.
    intros j Hj. destruct (idx_split j) as [Ej Lj].
    rewrite Bsw0 by lia. apply B. lia.
Qed.

Lemma bs_find_first_spec b : wf b ->
  match bs_find_first b with
  | None => forall j, wbit (words b) j = false
  | Some r => wbit (words b) r = true /\ forall j, j < r -> wbit (words b) j = false
  end.
Proof.
  intros W. unfold bs_find_first, find_from_block. cbn [skipn].
  pose proof (find_from_spec _ (wf_words b W) 0) as F.
  destruct (find_from (words b) 0) as [r|]; auto.
  destruct F as (_ & B & C). rewrite Nat.sub_0_r in B. auto.
Qed.

(** [find_unset_next]: the next unset position within the (word-padded) bitset, or [None]. *)
Lemma bs_find_unset_next_spec b i : wf b ->
  match bs_find_unset_next b i with
  | None => forall j, i < j < num_bits b -> wbit (words b) j = true
  | Some r => i < r <= num_bits b /\ wbit (words b) r = false /\
              forall j, i < j < r -> wbit (words b) j = true
  end.
Proof.
  intros W. unfold bs_find_unset_next, block_width.
  destruct (Nat.leb_spec (num_bits b) (S i)) as [L|L].
  { intros j Hj. lia. }
  set (k := S i) in *. destruct (idx_split k) as [Ek Lk].
  set (sw := N.lor _ _).
  assert (Hk : k / 64 < length (words b)) by (rewrite (wf_len b W); apply div_lt_len; auto).
  assert (Hsw : (sw < 2 ^ 64)%N).
  { apply bits_lt_pow2. intros n Hn. unfold sw. rewrite N.lor_spec, bnot_bits.
    rewrite (lt_pow2_bits _ 64) by (auto; apply words_ok_nth, W).
    destruct (N.ltb_spec n 64); [lia|]. rewrite N.mod_pow2_bits_high by lia. auto. }
  assert (Bsw : forall n, n < 64 -> N.testbit (bnot sw) (N.of_nat n) =
     negb (wbit (words b) (k / 64 * 64 + n)) && (k mod 64 <=? n)).
  { intros n Hn. rewrite bnot_bits. unfold sw. rewrite N.lor_spec, bnot_bits, wbit_at by auto.
    destruct (N.ltb_spec (N.of_nat n) 64); [|lia].
    rewrite N.mod_pow2_bits_low by lia. rewrite negb_orb, negb_involutive. f_equal.
    destruct (Nat.leb_spec (k mod 64) n).
    - rewrite N.shiftl_spec_high' by lia. unfold ones. apply N.ones_spec_low. lia.
    - apply N.shiftl_spec_low. lia. }
  assert (Bsw0 : forall j, k <= j -> j / 64 = k / 64 ->
     negb (wbit (words b) j) = N.testbit (bnot sw) (N.of_nat (j mod 64))).
  { intros j Hj E. destruct (idx_split j) as [Ej Lj].
    rewrite Bsw by auto. rewrite <- E, <- Ej.
    destruct (Nat.leb_spec (k mod 64) (j mod 64)); [rewrite andb_true_r; auto|lia]. }
  assert (Hhigh : forall r, wbit (words b) r = false ->
      (forall j, i < j < r -> wbit (words b) j = true) -> i < r -> r <= num_bits b).
  { intros r Hr Hall Hir. destruct (Nat.lt_ge_cases (num_bits b) r) as [X|X]; auto.
    specialize (Hall (num_bits b) ltac:(lia)). rewrite (wf_high b W) in Hall by lia. discriminate. }
  rewrite bnot_ones by auto.
  destruct (N.eqb_spec (bnot sw) 0) as [E|E].
  - unfold find_unset_from_block.
    rewrite find_unset_from_eq by (apply skipn_words_ok, W).
    pose proof (find_from_spec _ (words_ok_bnot _ (skipn_words_ok (words b) (S (k / 64)) (wf_words b W))) (S (k / 64))) as F.
    assert (TB : forall j, S (k / 64) * 64 <= j -> j / 64 < length (words b) ->
       wbit (map bnot (skipn (S (k / 64)) (words b))) (j - S (k / 64) * 64) = negb (wbit (words b) j)).
    { intros j Hj Hl. rewrite wbit_bnot, wbit_skipn.
      - f_equal. f_equal. lia.
      - rewrite skipn_length.
        destruct (idx_split j), (idx_split (j - S (k / 64) * 64)). lia. }
    destruct (find_from (map bnot (skipn (S (k / 64)) (words b))) (S (k / 64))) as [r|].
    + destruct F as (A & B & C).
      assert (Hr : r / 64 < length (words b)).
      { destruct (Nat.lt_ge_cases (r / 64) (length (words b))) as [X|X]; auto.
        rewrite wbit_out in B; [discriminate|]. rewrite map_length, skipn_length.
        destruct (idx_split r), (idx_split (r - S (k / 64) * 64)). lia. }
      rewrite TB in B by auto. apply negb_true_iff in B.
      assert (All : forall j, i < j < r -> wbit (words b) j = true).
      { intros j Hj. destruct (idx_split j) as [Ej Lj].
        destruct (Nat.eq_dec (j / 64) (k / 64)) as [X|X].
        - apply negb_false_iff. rewrite Bsw0, E by (auto; lia). apply N.bits_0.
        - apply negb_false_iff. rewrite <- TB; [apply C; lia|lia|].
          destruct (idx_split r). lia. }
      split; [|split]; auto. split; [lia|]. apply Hhigh; auto; lia.
    + intros j Hj. destruct (idx_split j) as [Ej Lj].
      assert (Hl : j / 64 < length (words b)) by (rewrite (wf_len b W); apply div_lt_len; lia).
      apply negb_false_iff.
      destruct (Nat.eq_dec (j / 64) (k / 64)) as [X|X].
      * rewrite Bsw0, E by (auto; lia). apply N.bits_0.
      * rewrite <- TB by lia. apply F.
  - destruct (flb64_spec _ E (bnot_lt _ Hsw)) as [A B]. pose proof (flb64_lt _ E (bnot_lt _ Hsw)) as Lf.
    rewrite Bsw in A by auto. apply andb_true_iff in A. destruct A as [A1 A2].
    apply Nat.leb_le in A2. apply negb_true_iff in A1.
    assert (All : forall j, i < j < k / 64 * 64 + find_lowest_bit64 (bnot sw) -> wbit (words b) j = true).
    { intros j Hj. destruct (idx_split j) as [Ej Lj].
      apply negb_false_iff. rewrite Bsw0 by lia. apply B. lia. }
    split; [|split]; auto. split; [lia|]. apply Hhigh; auto; lia.
Qed.

(** * Refinement *)
Record R (m : hmgr) (a : aspec) : Prop := {
  R_wf : wf (handles m);
  R_live : forall i, wbit (words (handles m)) i = true <-> In i (live a);
  R_nodup : NoDup (live a);
  R_top : top a = num_bits (handles m);
  R_cnt : num_bits_set (handles m) = length (live a);
  R_fu_le : first_unset m <= num_bits (handles m);
  R_fu : wbit (words (handles m)) (first_unset m) = false;
  R_fu_min : forall k, k < first_unset m -> wbit (words (handles m)) k = true }.

Lemma R_empty : R hm_empty a_empty.
Proof.
  split; cbn; auto.
  - split; cbn; auto; [constructor|]. intros; apply wbit_out; cbn; lia.
  - intros i. rewrite wbit_out by (cbn; lia). split; [discriminate|tauto].
  - constructor.
  - intros; lia.
Qed.

Lemma R_live_false m a i : R m a -> wbit (words (handles m)) i = false <-> ~ In i (live a).
Proof.
  intros H. rewrite <- (R_live m a H). destruct (wbit _ _); split; congruence.
Qed.

Lemma live_cons_iff (ws' ws : list N) l i :
  (forall j, wbit ws' j = if j =? i then true else wbit ws j) ->
  (forall j, wbit ws j = true <-> In j l) ->
  forall j, wbit ws' j = true <-> In j (i :: l).
Proof.
  intros H1 H2 j. rewrite H1. destruct (Nat.eqb_spec j i) as [->|N].
  - split; auto; intros; left; auto.
  - rewrite H2. cbn. split; auto. intros [X|X]; auto. congruence.
Qed.

Lemma get_ok m a : R m a -> exists m' h,
  hm_get_handle m = Some (m', h) /\ ~ In h (live a) /\ (forall k, k < h -> In k (live a)) /\
  R m' (mkA (h :: live a) (Nat.max (top a) (S h))).
Proof.
  intros H. pose proof H as [W Lv Nd Tp Ct Fl Fu Fm].
  assert (Hn : ~ In (first_unset m) (live a)) by (apply (R_live_false m a); auto).
  assert (Hall : forall k, k < first_unset m -> In k (live a)) by (intros; apply Lv; auto).
  unfold hm_get_handle. destruct (Nat.ltb_spec (first_unset m) (num_bits (handles m))) as [L|L].
  - destruct (bs_set_spec (handles m) (first_unset m) W L) as (b & E & Wb & Nb & Sb & Bb).
    rewrite E. do 2 eexists; split; [reflexivity|]. split; [auto|split; [auto|]].
    pose proof (bs_find_unset_next_spec b (first_unset m) Wb) as F.
    assert (Q : forall fu, fu <= num_bits b -> wbit (words b) fu = false ->
       (forall k, k < fu -> wbit (words b) k = true) ->
       R (mkHmgr b fu) (mkA (first_unset m :: live a) (Nat.max (top a) (S (first_unset m))))).
    { intros fu Q1 Q2 Q3. split; cbn [handles first_unset live top]; auto.
      - eapply live_cons_iff; eauto.
      - constructor; auto.
      - lia.
      - rewrite Sb, Fu. cbn. lia. }
    destruct (bs_find_unset_next b (first_unset m)) as [r|].
    + destruct F as (F1 & F2 & F3). apply Q; auto; [lia|].
      intros k Hk. destruct (Nat.lt_trichotomy k (first_unset m)) as [X|[->|X]].
      * rewrite Bb. destruct (k =? first_unset m); auto.
      * rewrite Bb, Nat.eqb_refl; auto.
      * apply F3; lia.
    + apply Q.
      * lia.
      * rewrite (wf_high b Wb); auto; lia.
      * intros k Hk. destruct (Nat.lt_trichotomy k (first_unset m)) as [X|[->|X]].
        -- rewrite Bb. destruct (k =? first_unset m); auto.
        -- rewrite Bb, Nat.eqb_refl; auto.
        -- apply F; lia.
  - assert (E : first_unset m = num_bits (handles m)) by lia.
    destruct (Nat.eqb_spec (first_unset m) (num_bits (handles m))); [|lia].
    destruct (bs_push_spec (handles m) W) as (b & Eb & Wb & Nb & Sb & Bb).
    rewrite Eb. do 2 eexists; split; [reflexivity|]. split; [auto|split; [auto|]].
    rewrite <- E in *.
    split; cbn [handles first_unset live top]; auto; try lia.
    + eapply live_cons_iff; eauto.
    + constructor; auto.
    + cbn. lia.
    + apply (wf_high b Wb). lia.
    + intros k Hk. rewrite Bb. destruct (Nat.eqb_spec k (first_unset m)); auto. apply Fm. lia.
Qed.

Lemma remove_not_in_eq h l : ~ In h l -> remove_h h l = l.
Proof. apply notin_remove. Qed.

Lemma remove_h_length h l : NoDup l -> In h l -> S (length (remove_h h l)) = length l.
Proof.
  unfold remove_h. induction l as [|x l IH]; cbn; [tauto|].
  intros Hn Hi. inversion Hn; subst. destruct (Nat.eq_dec h x) as [->|E].
  - rewrite notin_remove by auto. auto.
  - cbn. rewrite <- IH by (auto; destruct Hi; congruence). reflexivity.
Qed.

Lemma remove_h_nodup h l : NoDup l -> NoDup (remove_h h l).
Proof.
  unfold remove_h. induction 1 as [|x l Hx Hn IH]; cbn; [constructor|].
  destruct (Nat.eq_dec h x); auto. constructor; auto.
  intros X. apply in_remove in X. tauto.
Qed.

Lemma rel_ok m a h : R m a ->
  (In h (live a) /\ exists m', hm_release_handle m h = Some (m', true) /\
      R m' (mkA (remove_h h (live a)) (top a))) \/
  (~ In h (live a) /\ exists m', hm_release_handle m h = Some (m', false) /\ R m' a).
Proof.
  intros H. pose proof H as [W Lv Nd Tp Ct Fl Fu Fm].
  unfold hm_release_handle. destruct (Nat.leb_spec (num_bits (handles m)) h) as [L|L].
  - right. split; [|eauto]. apply (R_live_false m a); auto. apply W; auto.
  - destruct (bs_reset_spec (handles m) h W L) as (b & E & Wb & Nb & Sb & Bb). rewrite E.
    destruct (wbit (words (handles m)) h) eqn:T.
    + left. assert (Hi : In h (live a)) by (apply Lv; auto). split; auto.
      eexists; split; [reflexivity|].
      split; cbn [handles first_unset live top]; auto; try lia.
      * intros i. rewrite Bb. destruct (Nat.eqb_spec i h) as [->|X].
        -- split; [discriminate|]. intros X. apply in_remove in X. tauto.
        -- rewrite Lv. split; intros Y; [apply in_in_remove; auto|apply in_remove in Y; tauto].
      * apply remove_h_nodup; auto.
      * pose proof (remove_h_length h (live a) Nd Hi). lia.
      * destruct (Nat.ltb_spec h (first_unset m)); lia.
      * destruct (Nat.ltb_spec h (first_unset m)); rewrite Bb.
        -- rewrite Nat.eqb_refl; auto.
        -- destruct (first_unset m =? h); auto.
      * intros k Hk. rewrite Bb. destruct (Nat.ltb_spec h (first_unset m)) as [X|X].
        -- destruct (Nat.eqb_spec k h); [lia|]. apply Fm; lia.
        -- destruct (Nat.eqb_spec k h); [lia|]. apply Fm; lia.
    + right. split; [apply (R_live_false m a); auto|].
      eexists; split; [reflexivity|].
      assert (Bb' : forall j, wbit (words b) j = wbit (words (handles m)) j).
      { intros j. rewrite Bb. destruct (Nat.eqb_spec j h); congruence. }
      split; cbn [handles first_unset]; auto; try lia.
      * intros i. rewrite Bb'. auto.
      * rewrite Bb'; auto.
      * intros k Hk. rewrite Bb'. auto.
Qed.

Lemma set_ok m a h : R m a -> ~ bad_set a (HSet h) ->
  (~ In h (live a) /\ exists m', hm_set_handle m h = Some (m', true) /\
      R m' (mkA (h :: live a) (Nat.max (top a) (S h)))) \/
  (In h (live a) /\ exists m', hm_set_handle m h = Some (m', false) /\ R m' a).
Proof.
  intros H G. pose proof H as [W Lv Nd Tp Ct Fl Fu Fm].
  unfold hm_set_handle. cbn in G.
  set (b0 := if num_bits (handles m) <=? h then bs_resize (handles m) (h + 1) else handles m).
  assert (P : wf b0 /\ (forall j, wbit (words b0) j = wbit (words (handles m)) j) /\
              num_bits b0 = Nat.max (num_bits (handles m)) (S h) /\
              num_bits_set b0 = num_bits_set (handles m)).
  { unfold b0. destruct (Nat.leb_spec (num_bits (handles m)) h) as [L|L].
    - destruct (bs_resize_spec (handles m) (h + 1) W ltac:(lia)). split; [auto|split; [auto|]].
      cbn. lia.
    - split; [auto|split; [auto|lia]]. }
  destruct P as (W0 & B0 & N0 & S0).
  destruct (bs_set_spec b0 h W0 ltac:(lia)) as (b & E & Wb & Nb & Sb & Bb). rewrite E.
  destruct (wbit (words b0) h) eqn:T; rewrite B0 in T; cbn [negb].
  - right. split; [apply Lv; auto|]. eexists; split; [reflexivity|].
    assert (Bb' : forall j, wbit (words b) j = wbit (words (handles m)) j).
    { intros j. rewrite Bb, B0. destruct (Nat.eqb_spec j h); congruence. }
    assert (h < num_bits (handles m)).
    { destruct (Nat.lt_ge_cases h (num_bits (handles m))); auto.
      rewrite (wf_high _ W) in T by auto. discriminate. }
    split; cbn [handles first_unset]; auto; try lia.
    + intros i. rewrite Bb'. auto.
    + rewrite Bb'; auto.
    + intros k Hk. rewrite Bb'. auto.
  - left. split; [apply (R_live_false m a); auto|]. eexists; split; [reflexivity|].
    assert (Bb' : forall j, wbit (words b) j = if j =? h then true else wbit (words (handles m)) j).
    { intros j. rewrite Bb, B0. auto. }
    assert (Q : forall fu, fu <= num_bits b -> wbit (words b) fu = false ->
       (forall k, k < fu -> wbit (words b) k = true) ->
       R (mkHmgr b fu) (mkA (h :: live a) (Nat.max (top a) (S h)))).
    { intros fu Q1 Q2 Q3. split; cbn [handles first_unset live top]; auto.
      - eapply live_cons_iff; eauto.
      - constructor; auto. apply (R_live_false m a); auto.
      - lia.
      - cbn. lia. }
    destruct (Nat.eqb_spec (first_unset m) h) as [F|F].
    + subst h.
      assert (Lt : first_unset m < num_bits (handles m)).
      { destruct (Nat.lt_ge_cases (first_unset m) (num_bits (handles m))); auto.
        exfalso. apply G. split; [lia|]. intros k Hk. apply Lv, Fm; auto. }
      pose proof (bs_find_unset_next_spec b (first_unset m) Wb) as Fn.
      destruct (bs_find_unset_next b (first_unset m)) as [r|].
      * destruct Fn as (F1 & F2 & F3). apply Q; auto; [lia|].
        intros k Hk. destruct (Nat.lt_trichotomy k (first_unset m)) as [X|[->|X]].
        -- rewrite Bb'. destruct (k =? first_unset m); auto.
        -- rewrite Bb', Nat.eqb_refl; auto.
        -- apply F3; lia.
      * apply Q.
        -- lia.
        -- rewrite (wf_high b Wb); auto; lia.
        -- intros k Hk. destruct (Nat.lt_trichotomy k (first_unset m)) as [X|[->|X]].
           ++ rewrite Bb'. destruct (k =? first_unset m); auto.
           ++ rewrite Bb', Nat.eqb_refl; auto.
           ++ apply Fn; lia.
    + apply Q; try lia.
      * rewrite Bb'. destruct (Nat.eqb_spec (first_unset m) h); [congruence|auto].
      * intros k Hk. rewrite Bb'. destruct (k =? h); auto.
Qed.

Lemma iter_ok b : wf b -> forall fuel p,
  match p with
  | None => True
  | Some i => wbit (words b) i = true /\ num_bits b < i + fuel
  end ->
  exists l, hm_iter_from (mkHmgr b 0) fuel p = Some l /\ StronglySorted lt l /\
            (forall h, In h l <-> exists i, p = Some i /\ i <= h /\ wbit (words b) h = true).
Proof.
  intros W. induction fuel as [|f IH]; intros [i|]; cbn [hm_iter_from]; intros Hp.
  - destruct Hp as [T L]. rewrite (wf_high b W) in T by lia. discriminate.
  - exists []. repeat split; [constructor|intros []|intros (? & ? & _); discriminate].
  - destruct Hp as [T L].
    pose proof (bs_find_next_spec b i W) as F. cbn [handles].
    destruct (IH (bs_find_next b i)) as (l & E & S & I).
    { destruct (bs_find_next b i) as [r|]; auto. destruct F as (F1 & F2 & F3). split; auto; lia. }
    rewrite E. exists (i :: l). split; [reflexivity|]. split.
    + constructor; auto. apply Forall_forall. intros x Hx. apply I in Hx.
      destruct Hx as (r & Er & Hr & _). rewrite Er in F. lia.
    + intros h. cbn. split.
      * intros [<-|X]; [eauto|]. apply I in X. destruct X as (r & Er & Hr & Ht).
        rewrite Er in F. exists i. repeat split; auto. lia.
      * intros (i' & Ei & Hle & Ht). injection Ei as <-.
        destruct (Nat.eq_dec i h) as [|N]; auto. right. apply I.
        destruct (bs_find_next b i) as [r|].
        -- exists r. repeat split; auto. destruct F as (F1 & F2 & F3).
           destruct (Nat.le_gt_cases r h); auto. rewrite F3 in Ht by lia. discriminate.
        -- rewrite F in Ht by lia. discriminate.
  - exists []. repeat split; [constructor|intros []|intros (? & ? & _); discriminate].
Qed.

Lemma hm_iter_indep b f1 f2 fuel p :
  hm_iter_from (mkHmgr b f1) fuel p = hm_iter_from (mkHmgr b f2) fuel p.
Proof.
  revert p; induction fuel as [|f IH]; intros [i|]; cbn; auto. rewrite IH. auto.
Qed.

Lemma iterate_ok m a : R m a -> exists l, hm_iterate m = Some l /\ StronglySorted lt l /\
   (forall h, In h l <-> In h (live a)).
Proof.
  intros [W Lv Nd Tp Ct Fl Fu Fm]. unfold hm_iterate. destruct m as [b fu]. cbn [handles] in *.
  rewrite (hm_iter_indep b fu 0).
  pose proof (bs_find_first_spec b W) as F.
  destruct (iter_ok b W (S (num_bits b)) (bs_find_first b)) as (l & E & S & I).
  { destruct (bs_find_first b); auto. destruct F. split; auto. lia. }
  exists l. repeat split; auto.
  - intros X. apply I in X. destruct X as (i & _ & _ & T). apply Lv; auto.
  - intros X. apply I. apply Lv in X.
    destruct (bs_find_first b) as [r|].
    + exists r. repeat split; auto. destruct F as [F1 F2].
      destruct (Nat.le_gt_cases r h); auto. rewrite F2 in X by auto. discriminate.
    + rewrite F in X. discriminate.
Qed.

Lemma valid_ok m a h : R m a -> hm_valid_handle m h = Some (wbit (words (handles m)) h).
Proof.
  intros H. unfold hm_valid_handle. destruct (Nat.leb_spec (num_bits (handles m)) h).
  - rewrite (wf_high _ (R_wf m a H)); auto.
  - rewrite bs_test_spec. destruct (Nat.ltb_spec h (num_bits (handles m))); auto; lia.
Qed.

Lemma step_ok m a o : R m a -> ~ bad_set a o ->
  exists m' x a', hm_step m o = Some (m', x) /\ a_step a o x a' /\ R m' a'.
Proof.
  intros H G. destruct o; cbn [hm_step].
  - destruct (get_ok m a H) as (m' & h & E & A & B & C). rewrite E.
    do 3 eexists; split; [reflexivity|]. split; [constructor; auto|auto].
  - destruct (rel_ok m a h H) as [(I & m' & E & C)|(I & m' & E & C)]; rewrite E;
      do 3 eexists; (split; [reflexivity|]); (split; [constructor; auto|auto]).
  - destruct (set_ok m a h H G) as [(I & m' & E & C)|(I & m' & E & C)]; rewrite E;
      do 3 eexists; (split; [reflexivity|]); (split; [constructor; auto|auto]).
  - rewrite (valid_ok m a h H). destruct (wbit (words (handles m)) h) eqn:T.
    + do 3 eexists; (split; [reflexivity|]); split; [constructor|eauto]. apply (R_live m a H); auto.
    + do 3 eexists; (split; [reflexivity|]); split; [apply a_valid_n|eauto]. apply (R_live_false m a h H); auto.
  - do 3 eexists; (split; [reflexivity|]). unfold hm_size. rewrite (R_cnt m a H).
    split; [constructor|auto].
  - destruct (iterate_ok m a H) as (l & E & S & I). rewrite E.
    do 3 eexists; (split; [reflexivity|]). split; [constructor; auto|auto].
  - do 3 eexists; (split; [reflexivity|]). split; [constructor|apply R_empty].
Qed.

Lemma run_ok : forall ops m a, R m a ->
  (exists m' outs a', hm_run m ops = Some (m', outs) /\ a_run a ops outs a' /\ R m' a') \/
  (exists pre o post outs a', ops = pre ++ o :: post /\ a_run a pre outs a' /\ bad_set a' o).
Proof.
  induction ops as [|o ops IH]; intros m a H.
  - left. exists m, [], a. split; [reflexivity|split; [constructor|auto]].
  - assert (D : bad_set a o \/ ~ bad_set a o).
    { destruct o; cbn; try (right; tauto).
      destruct (Nat.eq_dec h (top a)) as [->|]; [|right; tauto].
      assert (X : (forall k, k < top a -> In k (live a)) \/ ~ (forall k, k < top a -> In k (live a))).
      { destruct (forallb (fun k => existsb (Nat.eqb k) (live a)) (seq 0 (top a))) eqn:F.
        - left. rewrite forallb_forall in F. intros k Hk.
          specialize (F k ltac:(apply in_seq; lia)). apply existsb_exists in F.
          destruct F as (y & Hy & E). apply Nat.eqb_eq in E. subst; auto.
        - right. intros X. rewrite <- Bool.not_true_iff_false in F. apply F.
          apply forallb_forall. intros k Hk. apply in_seq in Hk.
          apply existsb_exists. exists k. split; [apply X; lia|apply Nat.eqb_refl]. }
      tauto. }
    destruct D as [D|D].
    + right. exists [], o, ops, [], a. repeat split; auto. constructor.
    + destruct (step_ok m a o H D) as (m' & x & a' & E & S & H').
      destruct (IH m' a' H') as [(m'' & xs & a'' & E2 & S2 & H2)|(pre & o' & post & outs & a'' & -> & S2 & B)].
      * left. exists m'', (x :: xs), a''. cbn. rewrite E, E2. split; [reflexivity|split; [econstructor; eauto|auto]].
      * right. exists (o :: pre), o', post, (x :: outs), a''. repeat split; auto. econstructor; eauto.
Qed.

Lemma run_ok_no_set ops : (forall h, ~ In (HSet h) ops) ->
  exists m outs a, hm_run hm_empty ops = Some (m, outs) /\ a_run a_empty ops outs a.
Proof.
  intros H. destruct (run_ok ops hm_empty a_empty R_empty)
    as [(m & outs & a & E & S & _)|(pre & o & post & outs & a & -> & _ & B)]; eauto.
  destruct o; cbn in B; try tauto. exfalso; apply (H h). apply in_or_app; right; left; auto.
Qed.
