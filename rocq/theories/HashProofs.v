(** Proofs about the hash functions. *)
From Coq Require Import List Arith NArith Bool Lia.
From Verif Require Import Base Bits Bytes PhvModel EntryListSpec EntryListProofs CrcModel CrcProofs HashModel HashSpec.
Import ListNotations.
Local Open Scope N_scope.

(** ** xor_over *)
Lemma fold_xor_app l m : fold_right N.lxor 0 (l ++ m) = N.lxor (fold_right N.lxor 0 l) (fold_right N.lxor 0 m).
Proof. induction l as [|x l IH]; cbn [app fold_right]; [rewrite N.lxor_0_l; auto|]. rewrite IH, N.lxor_assoc. auto. Qed.
Lemma xo_S n f : xor_over (S n) f = N.lxor (xor_over n f) (f n).
Proof. unfold xor_over. rewrite seq_S, map_app, fold_xor_app. cbn. rewrite N.lxor_0_r. auto. Qed.
Lemma xo_ext n f g : (forall i, (i < n)%nat -> f i = g i) -> xor_over n f = xor_over n g.
Proof. induction n as [|n IH]; intros E; auto. rewrite !xo_S, IH, E by auto. auto. Qed.
Lemma xo_0 n f : (forall i, (i < n)%nat -> f i = 0) -> xor_over n f = 0.
Proof. induction n as [|n IH]; intros E; auto. rewrite !xo_S, IH, E by auto. auto. Qed.
Lemma xo_app a b f : xor_over (a + b) f = N.lxor (xor_over a f) (xor_over b (fun i => f (a + i)%nat)).
Proof. induction b as [|b IH]; [rewrite Nat.add_0_r; unfold xor_over at 3; cbn; rewrite N.lxor_0_r; auto|]. rewrite Nat.add_succ_r, !xo_S, IH, N.lxor_assoc. auto. Qed.
Lemma xo_cons n f : xor_over (S n) f = N.lxor (f O) (xor_over n (fun i => f (S i))).
Proof. change (S n) with (1 + n)%nat. rewrite xo_app. f_equal. unfold xor_over. cbn. apply N.lxor_0_r. Qed.
Lemma xo_rev n : forall f, xor_over n f = xor_over n (fun i => f (n - 1 - i)%nat).
Proof.
  induction n as [|n IH]; intros f; auto. rewrite xo_S, xo_cons, N.lxor_comm. f_equal; [f_equal; lia|]. rewrite IH. apply xo_ext. intros i L. f_equal. lia.
Qed.
Lemma xo_update n f g c : (c < n)%nat -> g c = 0 -> (forall i, i <> c -> f i = g i) -> xor_over n f = N.lxor (f c) (xor_over n g).
Proof.
  intros L Z E. induction n as [|n IH]; [lia|]. rewrite !xo_S. destruct (Nat.eq_dec c n) as [->|NE].
  - rewrite Z, N.lxor_0_r, N.lxor_comm. f_equal. apply xo_ext. intros i I. apply E. lia.
  - rewrite IH, (E n), N.lxor_assoc by lia. auto.
Qed.
Lemma xo_bits n f b : N.testbit (xor_over n f) b = parity (map (fun i => N.testbit (f i) b) (seq 0 n)).
Proof.
  unfold xor_over, parity. induction (seq 0 n) as [|x l IH]; cbn [map fold_right]; [apply N.bits_0|]. rewrite N.lxor_spec, IH. auto.
Qed.

(** ** emitAsInteger and words *)
Lemma emit_loop_val size buf : bytes_ok buf -> forall pre, bytes_ok pre -> (length pre + length buf <= size)%nat -> emit_loop size buf (be_val pre) = be_val (pre ++ buf).
Proof.
  induction buf as [|b buf IH]; intros BO pre BP L; cbn [emit_loop]; [rewrite app_nil_r; auto|]. inversion BO as [|? ? B1 B2]; subst. cbn [length] in L.
  replace (N.lor _ _) with (be_val (pre ++ [b])).
  - rewrite IH; [rewrite <- app_assoc; auto|auto|apply bytes_ok_app; split; auto; constructor; auto|rewrite app_length; cbn [length]; lia].
  - rewrite be_val_app. cbn [length]. change (256 ^ N.of_nat 1) with (2 ^ 8). change (be_val [b]) with (0 * 256 + b). rewrite N.mul_0_l, N.add_0_l. rewrite shift_add_xor by auto.
    assert (T : trunc (8 * size) (N.shiftl (be_val pre) 8) = N.shiftl (be_val pre) 8).
    { unfold trunc. apply N.mod_small. rewrite N.shiftl_mul_pow2. pose proof (be_val_lt2 pre BP) as X. apply N.lt_le_trans with (2 ^ N.of_nat (8 * length pre) * 2 ^ 8); [apply N.mul_lt_mono_pos_r; [reflexivity|auto]|]. rewrite <- N.pow_add_r. apply N.pow_le_mono_r; lia. }
    rewrite T. change 255 with (N.ones 8). rewrite N.land_ones, N.mod_small by auto. apply N.bits_inj. intros i. rewrite N.lxor_spec, N.lor_spec. destruct (N.lt_ge_cases i 8); [rewrite N.shiftl_spec_low by auto; destruct (N.testbit b i); auto|]. rewrite (testbit_ge i 8 b) by auto. rewrite orb_false_r, xorb_false_r. auto.
Qed.
Lemma emit_bits size buf : bytes_ok buf -> (length buf <= size)%nat -> emit_as_integer size buf = of_bits (bits_of_bytes buf ++ repeat false (8 * (size - length buf))).
Proof.
  intros BO L. destruct buf as [|b buf].
  - assert (Z : forall n, of_bits (repeat false n) = 0) by (induction n as [|n IH]; auto; cbn [repeat]; rewrite of_bits_cons, IH; auto). change (bits_of_bytes []) with (@nil bool). cbn [app]. rewrite Z. auto.
  - unfold emit_as_integer. change 0 with (be_val []) at 1. rewrite emit_loop_val; [|auto|constructor|cbn [length] in *; lia]. cbn [app]. set (l := b :: buf) in *. rewrite of_bits_app, repeat_length. rewrite be_val_bits by auto.
    assert (Z : forall n, of_bits (repeat false n) = 0) by (induction n as [|n IH]; auto; cbn [repeat]; rewrite of_bits_cons, IH; auto). rewrite Z, N.add_0_r, N.shiftl_mul_pow2. replace (N.of_nat ((size - length l) * 8)) with (N.of_nat (8 * (size - length l))) by lia.
    unfold trunc. apply N.mod_small. pose proof (of_bits_lt (bits_of_bytes l)) as X. rewrite bits_of_bytes_length in X. apply N.lt_le_trans with (2 ^ N.of_nat (8 * length l) * 2 ^ N.of_nat (8 * (size - length l))); [apply N.mul_lt_mono_pos_r; auto; apply N.neq_0_lt_0, N.pow_nonzero; lia|]. rewrite <- N.pow_add_r. apply N.pow_le_mono_r; lia.
Qed.
Lemma nth_repeat_false n i : nth i (repeat false n) false = false.
Proof. revert i. induction n; intros [|i]; cbn; auto. Qed.
Lemma emit_testbit size buf j : bytes_ok buf -> (length buf <= size)%nat -> (j < 8 * size)%nat -> N.testbit (emit_as_integer size buf) (N.of_nat (8 * size - 1 - j)) = nth j (bits_of_bytes buf) false.
Proof.
  intros BO L J. rewrite emit_bits by auto. assert (LL : length (bits_of_bytes buf ++ repeat false (8 * (size - length buf))) = (8 * size)%nat) by (rewrite app_length, repeat_length, bits_of_bytes_length; lia).
  rewrite testbit_of_bits by lia. rewrite LL. replace (8 * size - 1 - (8 * size - 1 - j))%nat with j by lia. destruct (Nat.lt_ge_cases j (length (bits_of_bytes buf))) as [A|A]; [apply app_nth1; auto|]. rewrite app_nth2, nth_repeat_false, nth_overflow by auto. auto.
Qed.
Lemma emit_lt size buf : bytes_ok buf -> (length buf <= size)%nat -> emit_as_integer size buf < 2 ^ N.of_nat (8 * size).
Proof. intros BO L. rewrite emit_bits by auto. pose proof (of_bits_lt (bits_of_bytes buf ++ repeat false (8 * (size - length buf)))) as X. rewrite app_length, repeat_length, bits_of_bytes_length in X. replace (8 * size)%nat with (8 * length buf + 8 * (size - length buf))%nat by lia. auto. Qed.
Lemma four b0 b1 b2 b3 : bytes_ok [b0; b1; b2; b3] -> be_val [b0; b1; b2; b3] = emit_as_integer 4 [b0; b1; b2; b3].
Proof. intros B. rewrite emit_bits, be_val_bits by (auto; cbn; lia). cbn [length Nat.sub Nat.mul repeat]. rewrite app_nil_r. auto. Qed.
Lemma words_ind (Q : list N -> Prop) : Q [] -> (forall t, (1 <= length t <= 3)%nat -> Q t) -> (forall b0 b1 b2 b3 r, Q r -> Q (b0 :: b1 :: b2 :: b3 :: r)) -> forall l, Q l.
Proof.
  intros H0 H1 H2 l. assert (G : forall n l, (length l <= n)%nat -> Q l); [|eapply G; eauto]. induction n as [|n IH]; intros m L; [destruct m; [auto|cbn in L; lia]|].
  destruct m as [|b0 [|b1 [|b2 [|b3 r]]]]; auto; try (apply H1; cbn; lia). apply H2, IH. cbn in L. lia.
Qed.
Lemma words_tail t : (1 <= length t <= 3)%nat -> words t = [emit_as_integer 4 t].
Proof. destruct t as [|b0 [|b1 [|b2 [|b3 r]]]]; cbn [length]; intros; try lia; auto. Qed.
Lemma words_spec buf : bytes_ok buf -> forall q x, nth_error (words buf) q = Some x -> x < 2 ^ 32 /\ forall r, (r < 32)%nat -> N.testbit x (N.of_nat (31 - r)) = nth (32 * q + r) (bits_of_bytes buf) false.
Proof.
  induction buf as [|t T|b0 b1 b2 b3 l IH] using words_ind; intros BO q x E.
  - destruct q; discriminate.
  - rewrite words_tail in E by auto. destruct q as [|q]; [|destruct q; discriminate]. cbn [nth_error] in E. injection E as <-. split; [apply (emit_lt 4); auto; lia|]. intros r R. apply (emit_testbit 4); auto; lia.
  - assert (B4 : bytes_ok [b0; b1; b2; b3] /\ bytes_ok l). { apply bytes_ok_app. exact BO. } destruct B4 as [B4 BL]. cbn [words] in E. change (b0 :: b1 :: b2 :: b3 :: l) with ([b0; b1; b2; b3] ++ l). rewrite bits_of_bytes_app. destruct q as [|q]; cbn [nth_error] in E.
    + injection E as <-. rewrite four by auto. split; [apply (emit_lt 4); auto|]. intros r R. rewrite app_nth1 by (rewrite bits_of_bytes_length; cbn [length]; lia). apply (emit_testbit 4); auto; lia.
    + destruct (IH BL q x E) as [A B]. split; auto. intros r R. rewrite B by auto. rewrite app_nth2 by (rewrite bits_of_bytes_length; cbn [length]; lia). rewrite bits_of_bytes_length. cbn [length]. f_equal. lia.
Qed.
Lemma words_length buf : (length buf <= 4 * length (words buf) <= length buf + 3)%nat.
Proof. induction buf as [|t T|b0 b1 b2 b3 l IH] using words_ind; [cbn; lia|rewrite words_tail by auto; cbn [length]; lia|cbn [words length]; lia]. Qed.

(** ** The bit loop *)
Lemma ctz_spec p : N.testbit (N.pos p) (N.of_nat (ctz p)) = true /\ (forall b, (b < ctz p)%nat -> N.testbit (N.pos p) (N.of_nat b) = false) /\
  forall b, N.testbit (N.land (N.pos p) (N.pos p - 1)) (N.of_nat b) = N.testbit (N.pos p) (N.of_nat b) && negb (b =? ctz p)%nat.
Proof.
  induction p as [p IH|p (A & B & C)|].
  - cbn [ctz]. split; [auto|]. split; [lia|]. intros b. change (N.pos p~1 - 1) with (N.double (N.pos p)). change (N.pos p~1) with (N.succ_double (N.pos p)). rewrite N.land_spec, bit_double, bit_sdouble. destruct b as [|b]; [auto|]. cbn [Nat.eqb negb]. rewrite andb_true_r. destruct (N.eqb_spec (N.of_nat (S b)) 0); [lia|]. apply andb_diag.
  - cbn [ctz]. assert (D : N.pos p~0 - 1 = N.succ_double (N.pos p - 1)) by lia. assert (SH : forall b, N.testbit (N.pos p~0) (N.of_nat (S b)) = N.testbit (N.pos p) (N.of_nat b)). { intros b. change (N.pos p~0) with (N.double (N.pos p)). rewrite bit_double. destruct (N.eqb_spec (N.of_nat (S b)) 0); [lia|]. f_equal. lia. }
    split; [rewrite SH; auto|]. split.
    + intros [|b] L; [auto|]. rewrite SH. apply B. lia.
    + intros [|b]; [rewrite N.land_spec; auto|]. rewrite N.land_spec, SH, D, bit_sdouble. destruct (N.eqb_spec (N.of_nat (S b)) 0); [lia|]. replace (N.pred (N.of_nat (S b))) with (N.of_nat b) by lia. rewrite <- N.land_spec, C. auto.
  - cbn [ctz]. split; auto. split; [lia|]. intros [|b]; auto.
Qed.
Definition win (kl kr : N) (i : nat) : N := N.lor (trunc 32 (N.shiftl kl (N.of_nat i))) (trunc 32 (N.shiftr kr (N.of_nat (32 - i)))).
Lemma bits_ge32 x b : x < 2 ^ 32 -> (32 <= b)%nat -> N.testbit x (N.of_nat b) = false.
Proof. intros L G. apply (testbit_ge _ 32); auto. lia. Qed.
Lemma bit_loop_spec kl kr fuel : forall x acc k, (forall b, (b < k)%nat -> N.testbit x (N.of_nat b) = false) -> x < 2 ^ 32 -> (32 - k < fuel)%nat ->
  bit_loop fuel kl kr x acc = Some (N.lxor acc (xor_over 32 (fun b => if N.testbit x (N.of_nat b) then win kl kr (31 - b) else 0))).
Proof.
  induction fuel as [|fuel IH]; intros x acc k K L F; [lia|]. destruct x as [|p].
  - cbn [bit_loop]. rewrite xo_0; [rewrite N.lxor_0_r; auto|]. intros i I. rewrite N.bits_0. auto.
  - cbn [bit_loop]. destruct (ctz_spec p) as (A & B & C). set (c := ctz p) in *. assert (CL : (c < 32)%nat). { destruct (Nat.lt_ge_cases c 32) as [|G]; auto. rewrite (bits_ge32 _ c L G) in A. discriminate. }
    assert (CK : (k <= c)%nat). { destruct (Nat.lt_ge_cases c k) as [G|]; auto. rewrite (K c G) in A. discriminate. }
    set (x' := N.land (N.pos p) (N.pos p - 1)) in *. fold (win kl kr (31 - c)). rewrite (IH x' _ (S c)).
    + rewrite N.lxor_assoc. do 2 f_equal. symmetry. rewrite (xo_update 32 _ (fun b => if N.testbit x' (N.of_nat b) then win kl kr (31 - b) else 0) c); auto.
      * rewrite A. auto.
      * rewrite C, Nat.eqb_refl, andb_false_r. auto.
      * intros i NE. rewrite C, (proj2 (Nat.eqb_neq _ _) NE), andb_true_r. auto.
    + intros b Hb. rewrite C. destruct (Nat.eqb_spec b c) as [->|NE]; [apply andb_false_r|]. rewrite B by lia. auto.
    + apply lt_pow_bits. intros i I. replace i with (N.of_nat (N.to_nat i)) by lia. rewrite C, bits_ge32 by (auto; lia). auto.
    + lia.
Qed.

(** ** Windows *)
Lemma legal_words key : bytes_ok key -> legal_key key -> exists n, (0 < n)%nat /\ length key = (4 * n)%nat /\ length (words key) = n.
Proof. intros BO (n & P & E). exists n. split; auto. split; auto. pose proof (words_length key). lia. Qed.
Lemma mod_add_small a b n : (0 < n)%nat -> (b < 32)%nat -> (32 * (a mod n) + b = (32 * a + b) mod (32 * n))%nat.
Proof.
  intros P B. apply Nat.mod_unique with (a / n)%nat; pose proof (Nat.mod_upper_bound a n); pose proof (Nat.div_mod a n); nia.
Qed.
Lemma window_win key i r kl kr : bytes_ok key -> legal_key key -> (r < 32)%nat -> nth_error (words key) (i mod length (words key)) = Some kl -> nth_error (words key) ((i + 1) mod length (words key)) = Some kr ->
  win kl kr r = window key (32 * i + r).
Proof.
  intros BO LK R EL ER. destruct (legal_words key BO LK) as (n & NP & LN & LW). rewrite LW in *. destruct (words_spec key BO _ _ EL) as [LL BL]. destruct (words_spec key BO _ _ ER) as [LR BR].
  assert (WL : length (map (fun j => nth ((32 * i + r + j) mod (8 * length key)) (bits_of_bytes key) false) (seq 0 32)) = 32%nat) by (rewrite map_length, seq_length; auto).
  unfold window. apply N.bits_inj. intros t. unfold win. rewrite N.lor_spec, !trunc_bits. destruct (N.ltb_spec t (N.of_nat 32)) as [T|T]; cbn [andb orb].
  - assert (TT : exists j, (j < 32)%nat /\ t = N.of_nat (31 - j)) by (exists (31 - N.to_nat t)%nat; lia). destruct TT as (j & J & ->). rewrite testbit_of_bits by lia. rewrite WL. replace (32 - 1 - (31 - j))%nat with j by lia.
    assert (MN : forall f : nat -> bool, nth j (map f (seq 0 32)) false = f j). { intros f. rewrite (nth_indep _ false (f O)) by (rewrite map_length, seq_length; auto). rewrite map_nth, seq_nth; auto. } rewrite MN. rewrite LN. replace (8 * (4 * n))%nat with (32 * n)%nat by lia.
    destruct (Nat.lt_ge_cases (r + j) 32) as [A|A].
    + rewrite N.shiftl_spec_high' by lia. rewrite N.shiftr_spec'. replace (N.of_nat (31 - j) - N.of_nat r) with (N.of_nat (31 - (r + j))) by lia. rewrite BL by auto. rewrite (mod_add_small i (r + j) n NP A). rewrite (testbit_ge _ 32 kr) by (auto; lia). rewrite orb_false_r. f_equal. f_equal. lia.
    + rewrite N.shiftl_spec_low by lia. rewrite N.shiftr_spec'. replace (N.of_nat (31 - j) + N.of_nat (32 - r)) with (N.of_nat (31 - (r + j - 32))) by lia. rewrite BR by lia. cbn [orb]. rewrite (mod_add_small (i + 1) (r + j - 32) n NP) by lia. f_equal. f_equal. lia.
  - symmetry. eapply testbit_ge; [apply of_bits_lt|]. rewrite WL. auto.
Qed.
Lemma word_loop_spec key : bytes_ok key -> legal_key key -> forall input i acc f, (forall q x, nth_error input q = Some x -> x < 2 ^ 32 /\ forall r, (r < 32)%nat -> N.testbit x (N.of_nat (31 - r)) = f (32 * q + r)%nat) ->
  word_loop (words key) i input acc = Some (N.lxor acc (xor_over (32 * length input) (fun p => if f p then window key (32 * i + p) else 0))).
Proof.
  intros BO LK. destruct (legal_words key BO LK) as (n & NP & LN & LW). induction input as [|x input IH]; intros i acc f F; cbn [word_loop].
  - cbn [length]. change (xor_over (32 * 0) _) with 0. rewrite N.lxor_0_r. auto.
  - assert (G : forall j, exists k, nth_error (words key) (j mod length (words key)) = Some k). { intros j. destruct (nth_error (words key) (j mod length (words key))) as [k|] eqn:E; [eauto|]. apply nth_error_None in E. pose proof (Nat.mod_upper_bound j (length (words key))). lia. }
    destruct (G i) as (kl & EL). destruct (G (i + 1)%nat) as (kr & ER). rewrite EL, ER. cbn [bind]. destruct (F O x eq_refl) as [LX BX]. rewrite (bit_loop_spec kl kr 33 x acc 0) by (auto; lia). cbn [bind].
    rewrite (IH (S i) _ (fun p => f (32 + p)%nat)).
    + f_equal. rewrite N.lxor_assoc. f_equal. cbn [length]. replace (32 * S (length input))%nat with (32 + 32 * length input)%nat by lia. rewrite xo_app. f_equal.
      * rewrite xo_rev. apply xo_ext. intros r R. replace (32 - 1 - r)%nat with (31 - r)%nat by lia. rewrite BX by auto. cbn [Nat.mul Nat.add]. destruct (f r); auto. replace (31 - (31 - r))%nat with r by lia. apply (window_win key i r kl kr); auto.
      * apply xo_ext. intros p P. replace (32 * S i + p)%nat with (32 * i + (32 + p))%nat by lia. auto.
    + intros q y E. destruct (F (S q) y E) as [A B]. split; auto. intros r R. rewrite B by auto. f_equal. lia.
Qed.
Lemma toeplitz_ok key buf : bytes_ok key -> legal_key key -> bytes_ok buf -> toeplitz (words key) buf = Some (toeplitz_spec key buf).
Proof.
  intros BK LK BB. unfold toeplitz. rewrite (word_loop_spec key BK LK (words buf) 0 0 (fun p => nth p (bits_of_bytes buf) false)) by (intros; apply words_spec; auto). rewrite N.lxor_0_l. f_equal. unfold toeplitz_spec.
  pose proof (words_length buf) as L. replace (32 * length (words buf))%nat with (8 * length buf + (32 * length (words buf) - 8 * length buf))%nat by lia. rewrite xo_app, (xo_0 (32 * _ - _)); [rewrite N.lxor_0_r; auto|].
  intros i I. rewrite nth_overflow by (rewrite bits_of_bytes_length; lia). auto.
Qed.
Lemma legal_dec k : (if (length k <? 4)%nat || negb (length k mod 4 =? 0)%nat then false else true) = true <-> legal_key k.
Proof.
  split.
  - destruct (Nat.ltb_spec (length k) 4) as [|L]; [discriminate|]. destruct (Nat.eqb_spec (length k mod 4) 0) as [E|]; [|discriminate]. intros _. exists (length k / 4)%nat. pose proof (Nat.div_mod (length k) 4). lia.
  - intros (n & P & E). rewrite E. destruct (Nat.ltb_spec (4 * n) 4); [lia|]. rewrite (Nat.mul_comm 4), Nat.mod_mul by lia. auto.
Qed.
Lemma t_run_ok l : Forall (fun o => match o with SetKey k => bytes_ok k | THash b => bytes_ok b end) l -> forall key, bytes_ok key -> legal_key key ->
  exists key' outs, t_run (Some (words key)) l = Some (Some (words key'), outs) /\ t_spec key l outs key'.
Proof.
  induction 1 as [|o l O F IH]; intros key BK LK; [exists key, []; split; [auto|constructor]|]. destruct o as [k|b]; cbn [t_run t_step].
  - destruct ((length k <? 4)%nat || negb (length k mod 4 =? 0)%nat) eqn:E; cbn [bind fst snd].
    + destruct (IH key BK LK) as (k' & outs & R & S). rewrite R. cbn [bind fst snd]. exists k', (TInvalidKey :: outs). split; auto. apply ts_bad; auto. intros C. apply legal_dec in C. rewrite E in C. discriminate.
    + assert (LK' : legal_key k) by (apply legal_dec; rewrite E; auto). destruct (IH k O LK') as (k' & outs & R & S). rewrite R. cbn [bind fst snd]. exists k', (TSuccess :: outs). split; auto. apply ts_set; auto.
  - rewrite toeplitz_ok by auto. cbn [bind fst snd]. destruct (IH key BK LK) as (k' & outs & R & S). rewrite R. cbn [bind fst snd]. exists k', (TValue (toeplitz_spec key b) :: outs). split; auto. constructor. auto.
Qed.

(** ** Linearity *)
Lemma xo_xor n f g : xor_over n (fun i => N.lxor (f i) (g i)) = N.lxor (xor_over n f) (xor_over n g).
Proof. induction n as [|n IH]; auto. rewrite !xo_S, IH, !N.lxor_assoc. f_equal. rewrite <- !N.lxor_assoc. f_equal. apply N.lxor_comm. Qed.
Lemma bits_map2_xor : forall a b, length a = length b -> forall i, nth i (bits_of_bytes (map2 N.lxor a b)) false = xorb (nth i (bits_of_bytes a) false) (nth i (bits_of_bytes b) false).
Proof.
  induction a as [|x a IH]; intros [|y b] L i; try discriminate; [destruct i; auto|]. cbn [map2]. rewrite !bits_of_bytes_cons. destruct (Nat.lt_ge_cases i 8) as [I|I].
  - rewrite !app_nth1 by (rewrite bitsN_length; auto). rewrite !bitsN_nth by auto. apply N.lxor_spec.
  - rewrite !app_nth2 by (rewrite bitsN_length; auto). rewrite !bitsN_length. apply IH. cbn in L. lia.
Qed.
Lemma toeplitz_linear key a b : length a = length b -> toeplitz_spec key (map2 N.lxor a b) = N.lxor (toeplitz_spec key a) (toeplitz_spec key b).
Proof.
  intros L. unfold toeplitz_spec. rewrite map2_length, <- L, <- xo_xor by auto. apply xo_ext. intros i I. rewrite bits_map2_xor by auto. destruct (nth i (bits_of_bytes a) false), (nth i (bits_of_bytes b) false); cbn [xorb]; rewrite ?N.lxor_nilpotent, ?N.lxor_0_l, ?N.lxor_0_r; auto.
Qed.

(** ** XOR hash *)
Lemma parity_app a b : parity (a ++ b) = xorb (parity a) (parity b).
Proof. unfold parity. induction a as [|x a IH]; cbn [app fold_right]; [destruct (fold_right xorb false b); auto|]. rewrite IH, xorb_assoc. auto. Qed.
Lemma xor_bit_app w a b j : (0 < w)%nat -> (length a mod w = 0)%nat -> xor_bit w (a ++ b) j = xorb (xor_bit w a j) (xor_bit w b j).
Proof.
  intros W M. unfold xor_bit. rewrite app_length, seq_app, map_app, parity_app. f_equal.
  - f_equal. apply map_ext_in. intros p P. apply in_seq in P. rewrite app_nth1 by lia. auto.
  - f_equal. cbn [Nat.add]. rewrite <- (Nat.add_0_r (length a)) at 1. generalize O as s. intros s. revert s. induction (length b) as [|n IH]; intros s; auto. cbn [seq map]. rewrite <- Nat.add_succ_r, IH. f_equal. rewrite app_nth2 by lia. replace (length a + s - length a)%nat with s by lia. f_equal. f_equal. rewrite Nat.add_mod, M by lia. cbn [Nat.add]. apply Nat.mod_mod. lia.
Qed.
Lemma xor_bit_short w l j : (length l <= w)%nat -> (j < w)%nat -> xor_bit w l j = nth j l false.
Proof.
  intros L J. unfold xor_bit. assert (G : forall n, (n <= w)%nat -> parity (map (fun p => ((p mod w =? j)%nat && nth p l false)%bool) (seq 0 n)) = ((j <? n)%nat && nth j l false)%bool).
  { induction n as [|n IH]; intros LN; auto. rewrite seq_S, map_app, parity_app, IH by lia. unfold parity. cbn [map fold_right Nat.add]. rewrite xorb_false_r, Nat.mod_small by lia. destruct (Nat.eqb_spec n j) as [->|NE].
    - replace (j <? j)%nat with false by (symmetry; apply Nat.ltb_ge; lia). replace (j <? S j)%nat with true by (symmetry; apply Nat.ltb_lt; lia). cbn [andb]. apply xorb_false_l.
    - cbn [andb]. rewrite xorb_false_r. f_equal. destruct (Nat.ltb_spec j n), (Nat.ltb_spec j (S n)); auto; lia. }
  rewrite G by auto. destruct (Nat.ltb_spec j (length l)); auto. rewrite nth_overflow by auto. auto.
Qed.
Lemma xor_loop_ok n : (0 < n)%nat -> forall fuel buf acc, bytes_ok buf -> acc < 2 ^ N.of_nat (8 * n) -> (length buf <= fuel)%nat ->
  exists v, xor_loop fuel n buf acc = Some v /\ v < 2 ^ N.of_nat (8 * n) /\ forall j, (j < 8 * n)%nat -> N.testbit v (N.of_nat (8 * n - 1 - j)) = xorb (N.testbit acc (N.of_nat (8 * n - 1 - j))) (xor_bit (8 * n) (bits_of_bytes buf) j).
Proof.
  intros NP. assert (BASE : forall buf acc, bytes_ok buf -> acc < 2 ^ N.of_nat (8 * n) -> (length buf < n)%nat -> N.lxor acc (emit_as_integer n buf) < 2 ^ N.of_nat (8 * n) /\ forall j, (j < 8 * n)%nat -> N.testbit (N.lxor acc (emit_as_integer n buf)) (N.of_nat (8 * n - 1 - j)) = xorb (N.testbit acc (N.of_nat (8 * n - 1 - j))) (xor_bit (8 * n) (bits_of_bytes buf) j)).
  { intros buf acc BO A L. split; [apply lxor_lt; auto; apply emit_lt; auto; lia|]. intros j J. rewrite N.lxor_spec, emit_testbit, xor_bit_short by (auto; rewrite ?bits_of_bytes_length; lia). auto. }
  induction fuel as [|fuel IH]; intros buf acc BO A F; cbn [xor_loop]; destruct (Nat.leb_spec n (length buf)) as [L|L]; try lia; try (eexists; split; [reflexivity|]; apply BASE; auto; fail).
  assert (BF : bytes_ok (firstn n buf) /\ bytes_ok (skipn n buf)) by (apply bytes_ok_app; rewrite firstn_skipn; auto). destruct BF as [BF BS]. assert (LF : length (firstn n buf) = n) by (rewrite firstn_length; lia).
  destruct (IH (skipn n buf) (N.lxor acc (emit_as_integer n (firstn n buf))) BS) as (v & E & V & B); [apply lxor_lt; auto; apply emit_lt; auto; lia|rewrite skipn_length; lia|].
  exists v. split; auto. split; auto. intros j J. rewrite B by auto. rewrite N.lxor_spec, emit_testbit by (auto; lia). rewrite xorb_assoc. f_equal. rewrite <- (firstn_skipn n buf) at 3. rewrite bits_of_bytes_app, xor_bit_app by (rewrite ?bits_of_bytes_length, ?LF, ?Nat.mod_same; lia). f_equal. symmetry. apply xor_bit_short; [rewrite bits_of_bytes_length; lia|auto].
Qed.

(** ** identity *)
Lemma identity_ok buf : bytes_ok buf -> identity buf = be_val (firstn 8 buf).
Proof.
  intros BO. unfold identity. assert (X : firstn (Nat.min 8 (length buf)) buf = firstn 8 buf). { destruct (Nat.le_ge_cases 8 (length buf)); [rewrite Nat.min_l by auto; auto|]. rewrite Nat.min_r by auto. rewrite !firstn_all2 by lia. auto. }
  rewrite X. assert (BF : bytes_ok (firstn 8 buf)) by (apply (bytes_ok_app _ (skipn 8 buf)); rewrite firstn_skipn; auto). assert (LF : (length (firstn 8 buf) <= 8)%nat) by (rewrite firstn_length; lia). revert BF LF. generalize (firstn 8 buf). clear.
  intros l BL LL. assert (G : forall l pre, bytes_ok pre -> bytes_ok l -> (length pre + length l <= 8)%nat -> pre <> [] -> identity_loop false l (be_val pre) = be_val (pre ++ l)).
  { clear. induction l as [|b l IH]; intros pre BP BL L NE; cbn [identity_loop]; [rewrite app_nil_r; auto|]. inversion BL as [|? ? B1 B2]; subst. cbn [length] in L. assert (BP' : bytes_ok (pre ++ [b])) by (apply bytes_ok_app; split; auto; constructor; auto).
    replace (trunc 64 (trunc 64 (N.shiftl (be_val pre) 8) + b)) with (be_val (pre ++ [b])).
    - rewrite IH; [rewrite <- app_assoc; auto|auto|auto|rewrite app_length; cbn [length]; lia|destruct pre; discriminate].
    - assert (V : be_val (pre ++ [b]) = be_val pre * 256 + b). { rewrite be_val_app. cbn [length]. change (256 ^ N.of_nat 1) with 256. change (be_val [b]) with (0 * 256 + b). rewrite N.mul_0_l, N.add_0_l. auto. }
      pose proof (be_val_lt2 _ BP') as LT. rewrite app_length in LT. cbn [length] in LT. assert (LT' : be_val (pre ++ [b]) < 2 ^ 64) by (eapply N.lt_le_trans; [exact LT|]; apply N.pow_le_mono_r; lia). rewrite V in *. rewrite N.shiftl_mul_pow2. change (2 ^ 8) with 256. unfold trunc. change (N.of_nat 64) with 64. rewrite (N.mod_small (be_val pre * 256)) by lia. rewrite N.mod_small by lia. auto. }
  destruct l as [|b l]; auto. cbn [identity_loop]. inversion BL as [|? ? B1 B2]; subst. replace (trunc 64 (0 + b)) with (be_val [b]); [rewrite G; [auto|constructor; auto|auto|cbn [length] in *; lia|discriminate]|]. change (be_val [b]) with (0 * 256 + b). rewrite N.mul_0_l, N.add_0_l. unfold trunc. rewrite N.mod_small; auto. eapply N.lt_trans; [exact B1|]. reflexivity.
Qed.

(** ** Round robin *)
Lemma rr_ok l : forall idx i, (i < length l)%nat -> idx < 2 ^ 64 -> nth_error (rr_run idx l) i = Some ((idx + N.of_nat i) mod 2 ^ 64).
Proof.
  induction l as [|b l IH]; intros idx i L I; [cbn in L; lia|]. cbn [rr_run rr_step snd fst]. destruct i as [|i]; cbn [nth_error]; [change (N.of_nat 0) with 0; rewrite N.add_0_r, N.mod_small by auto; auto|].
  cbn [length] in L. rewrite IH by (try lia; apply N.mod_lt; discriminate). f_equal. unfold trunc. change (N.of_nat 64) with 64. rewrite N.add_mod_idemp_l by discriminate. f_equal. lia.
Qed.
Lemma leqb_eq a : forall b, leqb a b = true <-> a = b.
Proof. induction a as [|x a IH]; intros [|y b]; cbn [leqb]; split; intros E; try discriminate; auto; [apply andb_true_iff in E as [E1 E2]; apply N.eqb_eq in E1; apply IH in E2; subst; auto|injection E as -> ->; rewrite N.eqb_refl; apply IH; auto]. Qed.
Lemma distinct_snoc l x : distinct (l ++ [x]) = if in_dec (list_eq_dec N.eq_dec) x l then distinct l else S (distinct l).
Proof.
  unfold distinct. set (D := list_eq_dec N.eq_dec). assert (P : forall a b, incl a b -> (length (nodup D a) <= length (nodup D b))%nat). { intros a b I. apply NoDup_incl_length; [apply NoDup_nodup|]. intros z Z. apply nodup_In. apply nodup_In in Z. auto. }
  destruct (in_dec D x l) as [I|NI].
  - apply Nat.le_antisymm; apply P; intros z Z; [apply in_app_or in Z as [|[<-|[]]]; auto|apply in_or_app; auto].
  - apply Nat.le_antisymm.
    + change (S (length (nodup D l))) with (length (x :: nodup D l)). apply NoDup_incl_length; [apply NoDup_nodup|]. intros z Z. apply nodup_In in Z. apply in_app_or in Z as [Z|[<-|[]]]; [right; apply nodup_In; auto|left; auto].
    + change (S (length (nodup D l))) with (length (x :: nodup D l)). apply NoDup_incl_length; [constructor; [rewrite nodup_In; auto|apply NoDup_nodup]|]. intros z [<-|Z]; apply nodup_In, in_or_app; [right; left; auto|left; apply nodup_In in Z; auto].
Qed.
(** The state after the inputs [pre] *)
Record rrc_inv (pre : list (list N)) (s : N * list (list N * N)) : Prop := {
  ri_idx : fst s = N.of_nat (distinct pre);
  ri_in : forall x, assoc x (snd s) = None <-> ~ In x pre;
  ri_inj : forall x y v, assoc x (snd s) = Some v -> assoc y (snd s) = Some v -> x = y;
  ri_lt : forall x v, assoc x (snd s) = Some v -> v < fst s }.
Lemma assoc_cons x k v m : assoc x ((k, v) :: m) = if list_eq_dec N.eq_dec x k then Some v else assoc x m.
Proof. cbn [assoc]. destruct (leqb x k) eqn:E; destruct (list_eq_dec N.eq_dec x k) as [D|D]; auto; [apply leqb_eq in E; contradiction|apply leqb_eq in D; congruence]. Qed.
Lemma rrc_step_inv pre s x : rrc_inv pre s -> N.of_nat (length pre) < 2 ^ 64 - 1 -> rrc_inv (pre ++ [x]) (fst (rrc_step s x)) /\
  assoc x (snd (fst (rrc_step s x))) = Some (snd (rrc_step s x)) /\ (forall y v, assoc y (snd s) = Some v -> assoc y (snd (fst (rrc_step s x))) = Some v) /\
  (~ In x pre -> snd (rrc_step s x) = N.of_nat (distinct pre)).
Proof.
  intros [I1 I2 I3 I4] LN. assert (DL : (distinct pre <= length pre)%nat) by (unfold distinct; apply NoDup_incl_length; [apply NoDup_nodup|intros z Z; apply nodup_In in Z; auto]).
  unfold rrc_step. destruct (assoc x (snd s)) as [v|] eqn:E; cbn [fst snd].
  - assert (IN : In x pre). { destruct (in_dec (list_eq_dec N.eq_dec) x pre) as [|NI]; auto. apply I2 in NI. congruence. }
    split; [|split; [auto|split; [auto|intros NI; contradiction]]]. constructor; auto.
    + rewrite distinct_snoc. destruct (in_dec _ x pre) as [_|NI]; [auto|contradiction].
    + intros y. rewrite I2, in_app_iff. split; intros NI; [intros [|[<-|[]]]; auto|intros C; apply NI; auto].
  - assert (NI : ~ In x pre) by (apply I2; auto). split; [|split; [rewrite assoc_cons; destruct (list_eq_dec _ x x); congruence|split]].
    + constructor; cbn [fst snd].
      * rewrite distinct_snoc. destruct (in_dec _ x pre) as [|_]; [contradiction|]. unfold trunc. change (N.of_nat 64) with 64. rewrite I1, N.mod_small by lia. lia.
      * intros y. rewrite assoc_cons, in_app_iff. destruct (list_eq_dec N.eq_dec y x) as [->|NE]; [split; [discriminate|intros C; exfalso; apply C; right; left; auto]|]. rewrite I2. split; intros C; [intros [|[<-|[]]]; auto|intros D; apply C; auto].
      * intros y z v. rewrite !assoc_cons. destruct (list_eq_dec N.eq_dec y x) as [->|N1], (list_eq_dec N.eq_dec z x) as [->|N2]; intros A B; auto.
        -- injection A as <-. apply I4 in B. lia.
        -- injection B as <-. apply I4 in A. lia.
        -- eapply I3; eauto.
      * intros y v. rewrite assoc_cons. assert (T : trunc 64 (fst s + 1) = fst s + 1) by (unfold trunc; change (N.of_nat 64) with 64; apply N.mod_small; lia). rewrite T. destruct (list_eq_dec N.eq_dec y x); intros A; [injection A as <-; lia|]. apply I4 in A. lia.
    + intros y v A. rewrite assoc_cons. destruct (list_eq_dec N.eq_dec y x) as [->|]; congruence.
    + intros _. auto.
Qed.
Fixpoint rrc_final (s : N * list (list N * N)) (l : list (list N)) : N * list (list N * N) := match l with [] => s | b :: r => rrc_final (fst (rrc_step s b)) r end.
Lemma rrc_run_inv l : forall pre s, rrc_inv pre s -> N.of_nat (length pre + length l) <= 2 ^ 64 - 1 ->
  rrc_inv (pre ++ l) (rrc_final s l) /\ (forall y v, assoc y (snd s) = Some v -> assoc y (snd (rrc_final s l)) = Some v) /\ length (rrc_run s l) = length l /\
  (forall i x v, nth_error l i = Some x -> nth_error (rrc_run s l) i = Some v -> assoc x (snd (rrc_final s l)) = Some v) /\
  (forall i x, nth_error l i = Some x -> ~ In x (pre ++ firstn i l) -> nth_error (rrc_run s l) i = Some (N.of_nat (distinct (pre ++ firstn i l)))).
Proof.
  induction l as [|x l IH]; intros pre s I L; cbn [rrc_final rrc_run].
  - rewrite app_nil_r. split; auto. split; auto. split; auto. split; intros [|i]; discriminate.
  - cbn [length] in L. destruct (rrc_step_inv pre s x I) as (A & B & C & D); [lia|]. destruct (IH _ _ A) as (E & F & G & H & K); [rewrite app_length; cbn [length]; lia|]. rewrite <- app_assoc in E. split; [exact E|]. split; [auto|]. split; [cbn [length]; auto|]. split.
    + intros [|i] y v; cbn [nth_error]; [|eauto]. intros [= <-] [= <-]. apply F, B.
    + intros [|i] y; cbn [nth_error firstn]; [intros [= <-]; rewrite app_nil_r; intros NI; rewrite D; auto|]. intros Y NI. change (x :: firstn i l) with ([x] ++ firstn i l) in *. rewrite app_assoc in NI |- *. exact (K i y Y NI).
Qed.
Lemma rrc_ok l : N.of_nat (length l) < 2 ^ 64 -> consistent l (rrc_run (0, []) l).
Proof.
  intros L. destruct (rrc_run_inv l [] (0, [])) as (A & B & C & D & E); [constructor; cbn; try discriminate; auto; intros; tauto|cbn [length]; lia|]. split; auto. split; [|intros i x X NI; exact (E i x X NI)].
  intros i j x y u v Ex Ey Eu Ev. pose proof (D _ _ _ Ex Eu) as P. pose proof (D _ _ _ Ey Ev) as Q. split; [intros ->; congruence|intros ->; exact (ri_inj _ _ A _ _ _ P Q)].
Qed.
