(** Proofs about the bit-level codec (C25). *)
From Coq Require Import List Arith NArith Bool Lia.
From Verif Require Import Base Bits Bytes ExtractModel.
Import ListNotations.

(** ** Bits of a byte string *)
Definition bitat (l : list N) (p : nat) : bool := N.testbit (nth (p / 8) l 0%N) (N.of_nat (7 - p mod 8)).
Lemma bits_nth l : forall p, nth p (bits_of_bytes l) false = bitat l p.
Proof.
  unfold bitat. induction l as [|x l IH]; intros p.
  - replace (nth p (bits_of_bytes []) false) with false by (destruct p; reflexivity). replace (nth (p / 8) [] 0%N) with 0%N by (destruct (p / 8); reflexivity). rewrite N.bits_0. auto.
  - rewrite bits_of_bytes_cons. destruct (Nat.lt_ge_cases p 8) as [L|G].
    + rewrite app_nth1 by (rewrite bitsN_length; auto). rewrite bitsN_nth by auto. rewrite Nat.div_small, Nat.mod_small by auto. reflexivity.
    + rewrite app_nth2 by (rewrite bitsN_length; auto). rewrite bitsN_length, IH.
      replace p with (p - 8 + 1 * 8) at 3 4 by lia. rewrite Nat.div_add, Nat.mod_add by lia.
      replace ((p - 8) / 8 + 1) with (S ((p - 8) / 8)) by lia. reflexivity.
Qed.
Lemma bits_ext l (m : list bool) : length m = 8 * length l -> (forall p, p < 8 * length l -> bitat l p = nth p m false) -> bits_of_bytes l = m.
Proof.
  intros L H. apply nth_ext with (d := false) (d' := false); [rewrite bits_of_bytes_length; auto|].
  intros p Hp. rewrite bits_of_bytes_length in Hp. rewrite bits_nth. apply H. auto.
Qed.

(** ** Byte operations *)
Lemma tb_hi a k : (a < 256)%N -> 8 <= k -> N.testbit a (N.of_nat k) = false.
Proof. intros H K. apply testbit_high with (w := 8); auto. Qed.
Lemma shl8_bit a o k : k < 8 -> N.testbit (shl8 a o) (N.of_nat k) = if o <=? k then N.testbit a (N.of_nat (k - o)) else false.
Proof.
  intros K. unfold shl8. change 256%N with (2 ^ 8)%N. rewrite N.mod_pow2_bits_low by lia. destruct (Nat.leb_spec o k).
  - rewrite N.shiftl_spec_high' by lia. f_equal. lia.
  - apply N.shiftl_spec_low. lia.
Qed.
Lemma shl8_lt a o : (shl8 a o < 256)%N.
Proof. apply N.mod_lt. lia. Qed.
Lemma shr8_bit a o k : N.testbit (shr8 a o) (N.of_nat k) = N.testbit a (N.of_nat (k + o)).
Proof. unfold shr8. rewrite N.shiftr_spec'. f_equal. lia. Qed.
Lemma shr8_lt a o : (a < 256)%N -> (shr8 a o < 256)%N.
Proof. intros H. unfold shr8. rewrite N.shiftr_div_pow2. eapply N.le_lt_trans; [|exact H]. apply N.div_le_upper_bound; [apply N.pow_nonzero; lia|]. pose proof (N.pow_nonzero 2 (N.of_nat o) ltac:(lia)). nia. Qed.
Lemma low_mask_bit o k : N.testbit (low_mask o) (N.of_nat k) = (k + o <? 8).
Proof.
  unfold low_mask. rewrite N.shiftr_spec'. change 255%N with (N.ones 8). destruct (Nat.ltb_spec (k + o) 8).
  - apply N.ones_spec_low. lia.
  - apply N.ones_spec_high. lia.
Qed.
Lemma byte_lor a b : (a < 256 -> b < 256 -> N.lor a b < 256)%N.
Proof.
  intros A B. destruct (N.eq_dec (N.lor a b) 0) as [->|E]; [lia|]. change 256%N with (2 ^ 8)%N. apply N.log2_lt_pow2; [lia|]. rewrite N.log2_lor.
  destruct (N.eq_dec a 0) as [->|]; destruct (N.eq_dec b 0) as [->|]; cbn in E |- *; try congruence; repeat (apply N.max_lub_lt; [|]);
   rewrite ?N.max_0_l, ?N.max_0_r; try (apply N.log2_lt_pow2; [lia|assumption]); try reflexivity.
Qed.
Lemma byte_ldiff a b : (a < 256 -> N.ldiff a b < 256)%N.
Proof.
  intros A. destruct (N.lt_ge_cases (N.ldiff a b) 256) as [|G]; auto. exfalso.
  assert (L : (8 <= N.log2 (N.ldiff a b))%N) by (apply N.log2_le_pow2; lia).
  pose proof (N.bit_log2 (N.ldiff a b) ltac:(lia)) as T. rewrite N.ldiff_spec in T. apply andb_true_iff in T as [T _].
  rewrite <- (N2Nat.id (N.log2 (N.ldiff a b))) in T. rewrite tb_hi in T; [discriminate|auto|lia].
Qed.

(** ** Loops *)
Lemma upd_loop_ok f n : forall lo dst, lo + n <= length dst -> (forall i, lo <= i < lo + n -> exists v, f i (nth i dst 0%N) = Some v) ->
  exists r, upd_loop lo n f dst = Some r /\ length r = length dst /\
    (forall i, lo <= i < lo + n -> f i (nth i dst 0%N) = Some (nth i r 0%N)) /\ (forall i, ~ (lo <= i < lo + n) -> nth i r 0%N = nth i dst 0%N).
Proof.
  induction n as [|n IH]; intros lo dst L H; cbn [upd_loop].
  - exists dst. split; auto. split; auto. split; [lia|auto].
  - rewrite (nth_error_nth' dst 0%N) by lia. destruct (H lo ltac:(lia)) as (v & Hv). rewrite Hv.
    destruct (IH (S lo) (list_set dst lo v)) as (r & E & LR & A & B).
    + rewrite list_set_length. lia.
    + intros i Hi. rewrite nth_list_set_neq by lia. apply H. lia.
    + rewrite list_set_length in LR. exists r. split; auto. split; auto. split.
      * intros i Hi. destruct (Nat.eq_dec i lo) as [->|N].
        -- rewrite B by lia. rewrite nth_list_set_eq by lia. auto.
        -- specialize (A i ltac:(lia)). rewrite nth_list_set_neq in A by lia. auto.
      * intros i Hi. rewrite B by lia. apply nth_list_set_neq. lia.
Qed.
Lemma upd1_ok f i dst v : i < length dst -> f (nth i dst 0%N) = Some v ->
  exists r, upd1 dst i f = Some r /\ length r = length dst /\ nth i r 0%N = v /\ forall j, j <> i -> nth j r 0%N = nth j dst 0%N.
Proof.
  intros L H. unfold upd1. destruct (upd_loop_ok (fun _ => f) 1 i dst) as (r & E & LR & A & B); [lia| |].
  - intros j Hj. replace j with i by lia. eauto.
  - exists r. split; auto. split; auto. split.
    + specialize (A i ltac:(lia)). cbn in A. congruence.
    + intros j Hj. apply B. lia.
Qed.
Lemma get2_ok u i j f : i < length u -> j < length u -> get2 u i j f = Some (f (nth i u 0%N) (nth j u 0%N)).
Proof. intros A B. unfold get2. rewrite !(nth_error_nth' u 0%N) by auto. auto. Qed.
Lemma get1_ok u i f : i < length u -> get1 u i f = Some (f (nth i u 0%N)).
Proof. intros A. unfold get1. rewrite (nth_error_nth' u 0%N) by auto. auto. Qed.
Lemma bytes_ok_nth l : bytes_ok l <-> forall i, (nth i l 0 < 256)%N.
Proof.
  split.
  - intros H i. destruct (Nat.lt_ge_cases i (length l)); [|rewrite nth_overflow by auto; lia]. apply (proj1 (Forall_forall _ _) H). apply nth_In. auto.
  - intros H. apply Forall_forall. intros x Hx. destruct (In_nth l x 0%N Hx) as (i & _ & <-). apply H.
Qed.
Lemma memcpy_ok dst src n : n <= length src -> n <= length dst -> exists r, memcpy dst src n = Some r /\ length r = length dst /\
  (forall i, i < n -> nth i r 0%N = nth i src 0%N) /\ (forall i, n <= i -> nth i r 0%N = nth i dst 0%N).
Proof.
  intros A B. unfold memcpy. destruct (Nat.leb_spec n (length src)); [|lia]. destruct (Nat.leb_spec n (length dst)); [|lia]. cbn [andb].
  eexists. split; [reflexivity|]. rewrite app_length, firstn_length_le, skipn_length by lia. split; [lia|]. split.
  - intros i Hi. rewrite app_nth1 by (rewrite firstn_length_le; lia). rewrite <- (firstn_skipn n src) at 2. rewrite app_nth1 by (rewrite firstn_length_le; lia). auto.
  - intros i Hi. rewrite app_nth2; rewrite firstn_length_le by lia; auto. rewrite <- (firstn_skipn n dst) at 2. rewrite (app_nth2 (firstn n dst)); rewrite firstn_length_le by lia; auto.
Qed.

(** ** Positions *)
Lemma pos_split p : p = 8 * (p / 8) + p mod 8 /\ p mod 8 < 8.
Proof. split; [apply Nat.div_mod; lia|apply Nat.mod_upper_bound; lia]. Qed.
Lemma pos_div i j : j < 8 -> (8 * i + j) / 8 = i.
Proof. intros. symmetry. apply Nat.div_unique with (r := j); auto. Qed.
Lemma pos_mod i j : j < 8 -> (8 * i + j) mod 8 = j.
Proof. intros. symmetry. apply Nat.mod_unique with (q := i); auto. Qed.
Lemma bitat_ij l i j : j < 8 -> bitat l (8 * i + j) = N.testbit (nth i l 0%N) (N.of_nat (7 - j)).
Proof. intros. unfold bitat. rewrite pos_div, pos_mod by auto. auto. Qed.
(** shifted byte: bits of [a << o | b >> (8-o)] *)
Lemma funnel_bit a b o k : (b < 256)%N -> 0 < o < 8 -> k < 8 ->
  N.testbit (N.lor (shl8 a o) (shr8 b (8 - o))) (N.of_nat k) = if o <=? k then N.testbit a (N.of_nat (k - o)) else N.testbit b (N.of_nat (k + (8 - o))).
Proof.
  intros B O K. rewrite N.lor_spec, shl8_bit, shr8_bit by auto. destruct (Nat.leb_spec o k).
  - rewrite (tb_hi b) by (auto; lia). apply orb_false_r.
  - reflexivity.
Qed.
Lemma funnel_bitat u i o j : bytes_ok u -> 0 < o < 8 -> j < 8 ->
  N.testbit (N.lor (shl8 (nth i u 0%N) o) (shr8 (nth (i + 1) u 0%N) (8 - o))) (N.of_nat (7 - j)) = bitat u (8 * i + j + o).
Proof.
  intros B O J. rewrite funnel_bit by (auto; try lia; apply bytes_ok_nth; auto). destruct (Nat.leb_spec o (7 - j)).
  - replace (8 * i + j + o) with (8 * i + (j + o)) by lia. rewrite bitat_ij by lia. do 2 f_equal. lia.
  - replace (8 * i + j + o) with (8 * (i + 1) + (j + o - 8)) by lia. rewrite bitat_ij by lia. do 2 f_equal. lia.
Qed.

Definition nbw (w : nat) : nat := (w + 7) / 8.
Lemma nbw_spec w : w <= 8 * nbw w < w + 8.
Proof. unfold nbw. pose proof (Nat.div_mod (w + 7) 8 ltac:(lia)). pose proof (Nat.mod_upper_bound (w + 7) 8 ltac:(lia)). lia. Qed.
Lemma nbw_pos w : 0 < w -> 0 < nbw w.
Proof. intros. pose proof (nbw_spec w). lia. Qed.

(** ** Extraction *)
Theorem extract_bits data off w dst : bytes_ok data -> off < 8 -> 0 < w -> off + w <= 8 * length data -> length dst = nbw w ->
  exists r, g_extract data off w dst = Some r /\ length r = nbw w /\ bytes_ok r /\
    forall p, p < 8 * nbw w -> bitat r p = if p <? 8 * nbw w - w then false else bitat data (p - (8 * nbw w - w) + off).
Proof.
  intros BD HO HW HL HD. pose proof (nbw_spec w) as NB. pose proof (nbw_pos w HW) as NP. unfold g_extract. change ((w + 7) / 8) with (nbw w). cbv zeta. set (nb := nbw w) in *. clearbody nb.
  pose proof (proj1 (bytes_ok_nth data) BD) as BN.
  assert (M8 : (w mod 8 =? 0) = true -> 8 * nb = w).
  { intros E. apply Nat.eqb_eq in E. pose proof (Nat.div_mod w 8 ltac:(lia)). lia. }
  destruct ((off =? 0) && (w mod 8 =? 0)) eqn:E0.
  { apply andb_true_iff in E0 as [E1 E2]. apply Nat.eqb_eq in E1. subst off. apply M8 in E2.
    destruct (memcpy_ok dst data nb ltac:(lia) ltac:(lia)) as (r & -> & LR & A & B). exists r. split; auto. split; [lia|]. split.
    - apply bytes_ok_nth. intros i. destruct (Nat.lt_ge_cases i nb); [rewrite A by auto; auto|]. rewrite nth_overflow by lia. lia.
    - intros p Hp. destruct (Nat.ltb_spec p (8 * nb - w)); [lia|]. unfold bitat. rewrite A by (pose proof (pos_split p); lia). replace (p - (8 * nb - w) + 0) with p by lia. auto. }
  set (dofs := 8 * nb - w) in *. assert (HDO : dofs < 8) by lia.
  destruct (Nat.eqb_spec off dofs) as [E|NE].
  { destruct (memcpy_ok dst data nb ltac:(lia) ltac:(lia)) as (d & -> & LD & A & B). cbn [bind].
    destruct (upd1_ok (fun x => Some (N.land x (low_mask dofs))) 0 d _ ltac:(lia) eq_refl) as (r & -> & LR & R0 & RN).
    exists r. split; auto. split; [lia|]. split.
    - apply bytes_ok_nth. intros i. destruct (Nat.eq_dec i 0) as [->|].
      + rewrite R0. apply land_byte_lt. rewrite A by lia. auto.
      + rewrite RN by auto. destruct (Nat.lt_ge_cases i nb); [rewrite A by auto; auto|]. rewrite nth_overflow by lia. lia.
    - intros p Hp. pose proof (pos_split p) as [PS PM]. set (i := p / 8) in *. set (j := p mod 8) in *. clearbody i j. subst p.
      rewrite bitat_ij by auto. destruct (Nat.ltb_spec (8 * i + j) dofs).
      + assert (i = 0) by lia. subst i. rewrite R0, N.land_spec, low_mask_bit. destruct (Nat.ltb_spec (7 - j + dofs) 8); [lia|]. apply andb_false_r.
      + replace (8 * i + j - dofs + off) with (8 * i + j) by lia. rewrite bitat_ij by auto. destruct (Nat.eq_dec i 0) as [->|].
        * rewrite R0, N.land_spec, low_mask_bit, A by lia. destruct (Nat.ltb_spec (7 - j + dofs) 8); [apply andb_true_r|lia].
        * rewrite RN, A by lia. auto. }
  destruct (Nat.ltb_spec dofs off) as [L|G].
  - set (o := off - dofs) in *. assert (HOO : 0 < o < 8) by lia.
    set (f := fun (i : nat) (_ : N) => get2 data i (i + 1) (fun a b => N.lor (shl8 a o) (shr8 b (8 - o)))).
    destruct (upd_loop_ok f (nb - 1) 0 dst ltac:(lia)) as (d1 & -> & L1 & A1 & B1).
    { intros i Hi. unfold f. rewrite get2_ok by lia. eauto. }
    cbn [bind]. destruct (upd1_ok (fun _ => get1 data (nb - 1) (fun a => shl8 a o)) (nb - 1) d1 _ ltac:(lia) (get1_ok data (nb - 1) _ ltac:(lia))) as (d2 & -> & L2 & A2 & B2).
    cbn [bind]. destruct (upd1_ok (fun x => Some (N.land x (low_mask dofs))) 0 d2 _ ltac:(lia) eq_refl) as (d3 & -> & L3 & A3 & B3). cbn [bind].
    destruct (Nat.ltb_spec (8 * nb) (off + w)); [|lia].
    destruct (upd1_ok (fun x => get1 data (nb - 1 + 1) (fun b => N.lor x (shr8 b (8 - o)))) (nb - 1) d3 _ ltac:(lia) (get1_ok data (nb - 1 + 1) _ ltac:(lia))) as (r & -> & LR & A4 & B4).
    exists r. split; auto. split; [lia|].
    assert (F : forall i, i < nb -> forall j, j < 8 -> N.testbit (nth i r 0%N) (N.of_nat (7 - j)) = if 8 * i + j <? dofs then false else bitat data (8 * i + j + o)).
    { intros i Hi j Hj.
      assert (V1 : i < nb - 1 -> nth i d1 0%N = N.lor (shl8 (nth i data 0%N) o) (shr8 (nth (i + 1) data 0%N) (8 - o))).
      { intros X. specialize (A1 i ltac:(lia)). unfold f in A1. rewrite get2_ok in A1 by lia. congruence. }
      rewrite <- funnel_bitat by auto.
      destruct (Nat.eq_dec i (nb - 1)) as [->|Ni].
      - rewrite A4, N.lor_spec. destruct (Nat.eq_dec (nb - 1) 0) as [Z|NZ].
        + rewrite Z in *. rewrite A3, N.land_spec, low_mask_bit, A2, N.lor_spec. rewrite (shr8_bit (nth (0 + 1) data 0%N)).
          destruct (Nat.ltb_spec (7 - j + dofs) 8), (Nat.ltb_spec (8 * 0 + j) dofs); try lia.
          * rewrite andb_true_r. auto.
          * rewrite andb_false_r. cbn [orb]. apply tb_hi; [auto|lia].
        + rewrite B3, A2, N.lor_spec by lia. destruct (Nat.ltb_spec (8 * (nb - 1) + j) dofs); [lia|auto].
      - rewrite B4 by auto. destruct (Nat.eq_dec i 0) as [->|Nz].
        + rewrite A3, N.land_spec, low_mask_bit, B2, V1 by lia. destruct (Nat.ltb_spec (7 - j + dofs) 8), (Nat.ltb_spec (8 * 0 + j) dofs); try lia; rewrite ?andb_true_r, ?andb_false_r; auto.
        + rewrite B3, B2, V1 by lia. destruct (Nat.ltb_spec (8 * i + j) dofs); [lia|auto]. }
    split.
    + apply bytes_ok_nth. intros i. destruct (Nat.lt_ge_cases i nb); [|rewrite nth_overflow by lia; lia].
      destruct (Nat.eq_dec i (nb - 1)) as [->|Ni].
      * rewrite A4. apply byte_lor; [|apply shr8_lt; auto]. destruct (Nat.eq_dec (nb - 1) 0) as [Z|NZ]; [rewrite Z in *; rewrite A3; apply land_byte_lt|rewrite B3 by lia]; rewrite A2; apply shl8_lt.
      * rewrite B4 by auto. assert (nth i d2 0 < 256)%N.
        { rewrite B2 by auto. specialize (A1 i ltac:(lia)). unfold f in A1. rewrite get2_ok in A1 by lia. injection A1 as <-. apply byte_lor; [apply shl8_lt|apply shr8_lt; auto]. }
        destruct (Nat.eq_dec i 0) as [->|Nz]; [rewrite A3; apply land_byte_lt; auto|rewrite B3 by auto; auto].
    + intros p Hp. pose proof (pos_split p) as [PS PM]. set (i := p / 8) in *. set (j := p mod 8) in *. clearbody i j. subst p.
      rewrite bitat_ij, F by (auto; lia). destruct (Nat.ltb_spec (8 * i + j) dofs); auto. f_equal. lia.
  - set (o := dofs - off) in *. assert (HOO : 0 < o < 8) by lia.
    destruct (upd1_ok (fun _ => get1 data 0 (fun a => N.land (shr8 a o) (low_mask dofs))) 0 dst _ ltac:(lia) (get1_ok data 0 _ ltac:(lia))) as (d1 & -> & L1 & A1 & B1). cbn [bind].
    set (f := fun (i : nat) (_ : N) => get2 data (i - 1) i (fun a b => N.lor (shl8 a (8 - o)) (shr8 b o))).
    destruct (upd_loop_ok f (nb - 1) 1 d1 ltac:(lia)) as (r & -> & LR & A2 & B2).
    { intros i Hi. unfold f. rewrite get2_ok by lia. eauto. }
    exists r. split; auto. split; [lia|].
    assert (V : forall i, 1 <= i < nb -> nth i r 0%N = N.lor (shl8 (nth (i - 1) data 0%N) (8 - o)) (shr8 (nth (i - 1 + 1) data 0%N) (8 - (8 - o)))).
    { intros i Hi. specialize (A2 i ltac:(lia)). unfold f in A2. rewrite get2_ok in A2 by lia. replace (i - 1 + 1) with i by lia. replace (8 - (8 - o)) with o by lia. congruence. }
    split.
    + apply bytes_ok_nth. intros i. destruct (Nat.lt_ge_cases i nb); [|rewrite nth_overflow by lia; lia].
      destruct (Nat.eq_dec i 0) as [->|Nz]; [rewrite B2, A1 by lia; apply land_byte_lt, shr8_lt; auto|].
      rewrite V by lia. apply byte_lor; [apply shl8_lt|apply shr8_lt; auto].
    + intros p Hp. pose proof (pos_split p) as [PS PM]. set (i := p / 8) in *. set (j := p mod 8) in *. clearbody i j. subst p.
      rewrite bitat_ij by auto. destruct (Nat.eq_dec i 0) as [->|Nz].
      * rewrite B2, A1 by lia. rewrite N.land_spec, low_mask_bit, shr8_bit. destruct (Nat.ltb_spec (7 - j + dofs) 8), (Nat.ltb_spec (8 * 0 + j) dofs); try lia.
        -- rewrite andb_true_r. replace (8 * 0 + j - dofs + off) with (8 * 0 + (j - o)) by lia. rewrite bitat_ij by lia. do 2 f_equal. lia.
      * rewrite V by lia. rewrite funnel_bitat by (auto; lia). destruct (Nat.ltb_spec (8 * i + j) dofs); [lia|]. f_equal. lia.
Qed.

(** ** Deparsing.  [data] holds a [w]-bit value: its first [8 * nb - w] bits are zero. *)
Theorem deparse_bits_pad data w dst off : bytes_ok data -> bytes_ok dst -> off < 8 -> length data = nbw w -> off + w <= 8 * length dst ->
  (forall p, p < 8 * nbw w - w -> bitat data p = false) ->
  exists r, g_deparse data w dst off = Some r /\ length r = length dst /\ bytes_ok r /\
    (forall p, p < off -> bitat r p = bitat dst p) /\
    (forall p, p < w -> bitat r (off + p) = bitat data (8 * nbw w - w + p)) /\
    (forall p, 8 * nbw (off + w) <= p -> bitat r p = bitat dst p) /\
    (forall p, off + w <= p -> p < 8 * nbw (off + w) -> bitat dst p = false -> bitat r p = false).
Proof.
  intros BD BT HO HLD HL HZ. unfold g_deparse. pose proof (proj1 (bytes_ok_nth data) BD) as BN. pose proof (proj1 (bytes_ok_nth dst) BT) as TN.
  destruct (Nat.eqb_spec w 0) as [->|HW].
  { exists dst. split; auto. split; auto. split; auto. split; [auto|]. split; [lia|]. split; auto. }
  pose proof (nbw_spec w) as NB. pose proof (nbw_pos w ltac:(lia)) as NP. pose proof (nbw_spec (off + w)) as HB.
  change ((w + 7) / 8) with (nbw w). change ((off + w + 7) / 8) with (nbw (off + w)). cbv zeta.
  assert (M8 : (w mod 8 =? 0) = true -> 8 * nbw w = w).
  { intros E. apply Nat.eqb_eq in E. pose proof (Nat.div_mod w 8 ltac:(lia)). lia. }
  set (nb := nbw w) in *. set (hb := nbw (off + w)) in *. clearbody nb hb.
  destruct ((off =? 0) && (w mod 8 =? 0)) eqn:E0.
  { apply andb_true_iff in E0 as [E1 E2]. apply Nat.eqb_eq in E1. subst off. apply M8 in E2.
    destruct (memcpy_ok dst data nb ltac:(lia) ltac:(lia)) as (r & -> & LR & A & B). exists r. split; auto. split; [lia|]. split.
    - apply bytes_ok_nth. intros i. destruct (Nat.lt_ge_cases i nb); [rewrite A by auto; auto|rewrite B by auto; auto].
    - split; [lia|]. split.
      + intros p Hp. unfold bitat. replace (8 * nb - w + p) with p by lia. change (0 + p) with p. rewrite A by (pose proof (pos_split p); lia). auto.
      + split; [intros p Hp; unfold bitat; rewrite B by (pose proof (pos_split p); lia); auto|intros p P1 P2; lia]. }
  set (fofs := 8 * nb - w) in *. assert (HFO : fofs < 8) by lia.
  destruct (upd1_ok (fun x => Some (N.ldiff x (low_mask off))) 0 dst _ ltac:(lia) eq_refl) as (d0 & -> & L0 & A0 & B0). cbn [bind].
  assert (K0 : forall j, j < 8 -> N.testbit (nth 0 d0 0%N) (N.of_nat (7 - j)) = if j <? off then bitat dst j else false).
  { intros j Hj. rewrite A0, N.ldiff_spec, low_mask_bit. destruct (Nat.ltb_spec (7 - j + off) 8), (Nat.ltb_spec j off); try lia; cbn [negb].
    rewrite andb_true_r. rewrite <- (bitat_ij dst 0 j) by auto. f_equal. }
  assert (D0 : (nth 0 d0 0 < 256)%N) by (rewrite A0; apply byte_ldiff; auto).
  assert (Z0 : forall j, j < fofs -> N.testbit (nth 0 data 0%N) (N.of_nat (7 - j)) = false).
  { intros j Hj. rewrite <- (bitat_ij data 0 j) by lia. apply HZ. lia. }
  destruct (Nat.eqb_spec fofs off) as [E|NE].
  { assert (HBN : hb = nb) by lia.
    set (f := fun (i : nat) (_ : N) => get1 data i (fun a => a)).
    destruct (upd_loop_ok f (hb - 1) 1 d0 ltac:(lia)) as (d1 & -> & L1 & A1 & B1).
    { intros i Hi. unfold f. rewrite get1_ok by lia. eauto. }
    cbn [bind]. destruct (upd1_ok (fun x => get1 data 0 (fun a => N.lor x a)) 0 d1 _ ltac:(lia) (get1_ok data 0 _ ltac:(lia))) as (r & -> & LR & A2 & B2).
    rewrite B1 in A2 by lia. assert (V : forall i, 1 <= i < hb -> nth i r 0%N = nth i data 0%N).
    { intros i Hi. rewrite B2 by lia. specialize (A1 i ltac:(lia)). unfold f in A1. rewrite get1_ok in A1 by lia. congruence. }
    assert (V' : forall i, hb <= i -> nth i r 0%N = nth i dst 0%N) by (intros i Hi; rewrite B2, B1, B0 by lia; auto).
    exists r. split; auto. split; [lia|]. split; [|split; [|split; [|split]]].
    - apply bytes_ok_nth. intros i. destruct (Nat.eq_dec i 0) as [->|]; [rewrite A2; apply byte_lor; auto|]. destruct (Nat.lt_ge_cases i hb); [rewrite V by lia; auto|rewrite V' by lia; auto].
    - intros p Hp. replace p with (8 * 0 + p) by lia. rewrite bitat_ij by lia. rewrite A2, N.lor_spec, K0, Z0 by lia. destruct (Nat.ltb_spec p off); [|lia]. rewrite orb_false_r. f_equal.
    - intros p Hp. replace (fofs + p) with (off + p) by lia. pose proof (pos_split (off + p)) as [PS PM]. set (i := (off + p) / 8) in *. set (j := (off + p) mod 8) in *. clearbody i j. rewrite PS.
      rewrite !bitat_ij by auto. destruct (Nat.eq_dec i 0) as [->|]; [|rewrite V by lia; auto].
      rewrite A2, N.lor_spec, K0 by lia. destruct (Nat.ltb_spec j off); [lia|]. auto.
    - intros p Hp. unfold bitat. rewrite V' by (pose proof (pos_split p); lia). auto.
    - intros p P1 P2. lia. }
  destruct (Nat.ltb_spec off fofs) as [L|G].
  - set (o := fofs - off) in *. assert (HOO : 0 < o < 8) by lia. assert (HBN : hb = nb) by lia.
    destruct (upd_loop_ok (fun _ _ => Some 0%N) (hb - 1) 1 d0 ltac:(lia)) as (d1 & -> & L1 & A1 & B1); [eauto|]. cbn [bind].
    set (f := fun (i : nat) (x : N) => get2 data i (i + 1) (fun a b => N.lor x (N.lor (shl8 a o) (shr8 b (8 - o))))).
    destruct (upd_loop_ok f (hb - 1) 0 d1 ltac:(lia)) as (d2 & -> & L2 & A2 & B2).
    { intros i Hi. unfold f. rewrite get2_ok by lia. eauto. }
    cbn [bind]. destruct (upd1_ok (fun x => get1 data (hb - 1) (fun a => N.lor x (shl8 a o))) (hb - 1) d2 _ ltac:(lia) (get1_ok data (hb - 1) _ ltac:(lia))) as (r & -> & LR & A3 & B3).
    assert (W1 : forall i, i < hb -> nth i d1 0%N = if i =? 0 then nth 0 d0 0%N else 0%N).
    { intros i Hi. destruct (Nat.eqb_spec i 0) as [->|]; [apply B1; lia|]. specialize (A1 i ltac:(lia)). congruence. }
    assert (V : forall i, i < hb -> nth i r 0%N = N.lor (nth i d1 0%N) (N.lor (shl8 (nth i data 0%N) o) (shr8 (nth (i + 1) data 0%N) (8 - o)))).
    { intros i Hi. destruct (Nat.eq_dec i (hb - 1)) as [->|Ni].
      - rewrite A3, B2 by lia. rewrite (nth_overflow data 0%N (n := hb - 1 + 1)) by lia. unfold shr8. rewrite N.shiftr_0_l, N.lor_0_r. auto.
      - rewrite B3 by auto. specialize (A2 i ltac:(lia)). unfold f in A2. rewrite get2_ok in A2 by lia. congruence. }
    assert (V' : forall i, hb <= i -> nth i r 0%N = nth i dst 0%N) by (intros i Hi; rewrite B3, B2, B1, B0 by lia; auto).
    assert (F : forall i j, i < hb -> j < 8 -> bitat r (8 * i + j) = (if 8 * i + j <? off then bitat dst (8 * i + j) else false) || bitat data (8 * i + j + o)).
    { intros i j Hi Hj. rewrite bitat_ij, V, N.lor_spec, funnel_bitat, W1 by auto. f_equal. destruct (Nat.eqb_spec i 0) as [->|].
      - rewrite K0 by auto. auto.
      - destruct (Nat.ltb_spec (8 * i + j) off); [lia|]. apply N.bits_0. }
    exists r. split; auto. split; [lia|]. split; [|split; [|split; [|split]]].
    + apply bytes_ok_nth. intros i. destruct (Nat.lt_ge_cases i hb); [|rewrite V' by lia; auto]. rewrite V by auto. apply byte_lor; [|apply byte_lor; [apply shl8_lt|apply shr8_lt; auto]].
      rewrite W1 by auto. destruct (Nat.eqb_spec i 0); [auto|lia].
    + intros p Hp. replace p with (8 * 0 + p) at 1 by lia. rewrite F by lia. destruct (Nat.ltb_spec (8 * 0 + p) off); [|lia]. rewrite HZ by lia. apply orb_false_r.
    + intros p Hp. pose proof (pos_split (off + p)) as [PS PM]. set (i := (off + p) / 8) in *. set (j := (off + p) mod 8) in *. clearbody i j. rewrite PS. rewrite F by lia.
      destruct (Nat.ltb_spec (8 * i + j) off); [lia|]. cbn [orb]. f_equal. lia.
    + intros p Hp. unfold bitat. rewrite V' by (pose proof (pos_split p); lia). auto.
    + intros p P1 P2 _. pose proof (pos_split p) as [PS PM]. rewrite PS. rewrite F by lia. rewrite <- PS. destruct (Nat.ltb_spec p off); [lia|]. cbn [orb]. unfold bitat. rewrite nth_overflow; [apply N.bits_0|]. pose proof (pos_split (p + o)). lia.
  - set (o := off - fofs) in *. assert (HOO : 0 < o < 8) by lia. assert (HBN : hb = nb + 1) by lia.
    destruct (upd1_ok (fun x => get1 data 0 (fun a => N.lor x (shr8 a o))) 0 d0 _ ltac:(lia) (get1_ok data 0 _ ltac:(lia))) as (d1 & -> & L1 & A1 & B1). cbn [bind].
    assert (Q0 : forall j, j < 8 -> N.testbit (nth 0 d1 0%N) (N.of_nat (7 - j)) = if j <? off then bitat dst j else bitat data (j - o)).
    { intros j Hj. rewrite A1, N.lor_spec, K0, shr8_bit by auto. destruct (Nat.ltb_spec j off).
      - assert (S0 : N.testbit (nth 0 data 0%N) (N.of_nat (7 - j + o)) = false).
        { destruct (Nat.lt_ge_cases (7 - j + o) 8); [|apply tb_hi; auto]. replace (7 - j + o) with (7 - (j - o)) by lia. apply Z0. lia. }
        rewrite S0. apply orb_false_r.
      - cbn [orb]. replace (j - o) with (8 * 0 + (j - o)) by lia. rewrite bitat_ij by lia. do 2 f_equal. lia. }
    assert (D1 : (nth 0 d1 0 < 256)%N) by (rewrite A1; apply byte_lor; [auto|apply shr8_lt; auto]).
    (* the last byte *)
    assert (FIN : forall r, length r = length dst -> nth 0 r 0%N = nth 0 d1 0%N ->
       (forall i, 1 <= i < nb -> nth i r 0%N = N.lor (shl8 (nth (i - 1) data 0%N) (8 - o)) (shr8 (nth (i - 1 + 1) data 0%N) (8 - (8 - o)))) ->
       (forall j, j < o -> N.testbit (nth nb r 0%N) (N.of_nat (7 - j)) = bitat data (8 * nb + j - o)) -> (nth nb r 0 < 256)%N ->
       (forall i, hb <= i -> nth i r 0%N = nth i dst 0%N) ->
       (forall j, j < 8 -> off + w <= 8 * nb + j -> bitat dst (8 * nb + j) = false -> N.testbit (nth nb r 0%N) (N.of_nat (7 - j)) = false) ->
       length r = length dst /\ bytes_ok r /\ (forall p, p < off -> bitat r p = bitat dst p) /\ (forall p, p < w -> bitat r (off + p) = bitat data (fofs + p)) /\ (forall p, 8 * hb <= p -> bitat r p = bitat dst p) /\ (forall p, off + w <= p -> p < 8 * hb -> bitat dst p = false -> bitat r p = false)).
    { intros r LR R0 RM RL RB RT RP. split; auto. split; [|split; [|split; [|split]]].
      - apply bytes_ok_nth. intros i. destruct (Nat.eq_dec i 0) as [->|]; [rewrite R0; auto|]. destruct (Nat.lt_ge_cases i nb); [rewrite RM by lia; apply byte_lor; [apply shl8_lt|apply shr8_lt; auto]|].
        destruct (Nat.eq_dec i nb) as [->|]; auto. rewrite RT by lia. auto.
      - intros p Hp. replace p with (8 * 0 + p) at 1 by lia. rewrite bitat_ij, R0, Q0 by lia. destruct (Nat.ltb_spec p off); [auto|lia].
      - intros p Hp. pose proof (pos_split (off + p)) as [PS PM]. set (i := (off + p) / 8) in *. set (j := (off + p) mod 8) in *. clearbody i j. rewrite PS. rewrite bitat_ij by auto.
        destruct (Nat.eq_dec i 0) as [->|]; [rewrite R0, Q0 by auto; destruct (Nat.ltb_spec j off); [lia|]; f_equal; lia|].
        destruct (Nat.lt_ge_cases i nb).
        + rewrite RM, funnel_bitat by (auto; lia). f_equal. lia.
        + assert (i = nb) by lia. subst i. rewrite RL by lia. f_equal. lia.
      - intros p Hp. unfold bitat. rewrite RT by (pose proof (pos_split p); lia). auto.
      - intros p P1 P2 P3. pose proof (pos_split p) as [PS PM]. assert (p / 8 = nb) by lia. rewrite PS, bitat_ij by auto. replace (p / 8) with nb by auto. apply RP; [auto|lia|]. replace (8 * nb + p mod 8) with p by lia. auto. }
    destruct (Nat.eqb_spec nb 1) as [N1|N1].
    + destruct (upd1_ok (fun _ => get1 data 0 (fun a => shl8 a (8 - o))) 1 d1 _ ltac:(lia) (get1_ok data 0 _ ltac:(lia))) as (r & -> & LR & A2 & B2).
      exists r. split; auto. apply FIN; [lia|apply B2; lia|lia| | | |].
      * intros j Hj. rewrite N1, A2, shl8_bit by lia. destruct (Nat.leb_spec (8 - o) (7 - j)); [|lia]. replace (8 * 1 + j - o) with (8 * 0 + (8 + j - o)) by lia. rewrite bitat_ij by lia. do 2 f_equal. lia.
      * rewrite N1, A2. apply shl8_lt.
      * intros i Hi. rewrite B2, B1, B0 by lia. auto.
      * intros j Hj J1 _. rewrite N1, A2, shl8_bit by lia. destruct (Nat.leb_spec (8 - o) (7 - j)); [lia|]. auto.
    + set (f := fun (i : nat) (_ : N) => get2 data (i - 1) i (fun a b => N.lor (shl8 a (8 - o)) (shr8 b o))).
      destruct (upd_loop_ok f (hb - 2) 1 d1 ltac:(lia)) as (d2 & -> & L2 & A2 & B2).
      { intros i Hi. unfold f. rewrite get2_ok by lia. eauto. }
      cbn [bind]. set (tl := 8 * hb - (off + w)).
      destruct (upd1_ok (fun x => Some (N.land x (N.shiftl 1 (N.of_nat tl) - 1))) (hb - 1) d2 _ ltac:(lia) eq_refl) as (d3 & -> & L3 & A3 & B3). cbn [bind].
      destruct (upd1_ok (fun x => get1 data (hb - 1 - 1) (fun a => N.lor x (shl8 a (8 - o)))) (hb - 1) d3 _ ltac:(lia) (get1_ok data (hb - 1 - 1) _ ltac:(lia))) as (r & -> & LR & A4 & B4).
      replace (hb - 1) with nb in * by lia.
      exists r. split; auto. apply FIN; [lia| | | | | |].
      * rewrite B4, B3, B2 by lia. auto.
      * intros i Hi. rewrite B4, B3 by lia. specialize (A2 i ltac:(lia)). unfold f in A2. rewrite get2_ok in A2 by lia. replace (i - 1 + 1) with i by lia. replace (8 - (8 - o)) with o by lia. congruence.
      * intros j Hj. rewrite A4, A3, N.lor_spec, N.land_spec, shl8_bit by lia.
        assert (T : N.testbit (N.shiftl 1 (N.of_nat tl) - 1) (N.of_nat (7 - j)) = false).
        { replace (N.shiftl 1 (N.of_nat tl) - 1)%N with (N.ones (N.of_nat tl)) by (unfold N.ones; rewrite N.sub_1_r; auto). apply N.ones_spec_high. unfold tl. lia. }
        rewrite T, andb_false_r. cbn [orb]. destruct (Nat.leb_spec (8 - o) (7 - j)); [|lia]. replace (8 * nb + j - o) with (8 * (nb - 1) + (8 + j - o)) by lia. rewrite bitat_ij by lia. do 2 f_equal. lia.
      * rewrite A4. apply byte_lor; [|apply shl8_lt]. rewrite A3. apply land_byte_lt. rewrite B2, B1, B0 by lia. auto.
      * intros i Hi. rewrite B4, B3, B2, B1, B0 by lia. auto.
      * intros j Hj J1 J2. rewrite A4, A3, N.lor_spec, N.land_spec, shl8_bit by lia. rewrite B2, B1, B0 by lia. rewrite <- bitat_ij, J2 by lia. cbn [andb orb].
        destruct (Nat.leb_spec (8 - o) (7 - j)); [lia|]. auto.
Qed.
Theorem deparse_bits data w dst off : bytes_ok data -> bytes_ok dst -> off < 8 -> length data = nbw w -> off + w <= 8 * length dst ->
  (forall p, p < 8 * nbw w - w -> bitat data p = false) ->
  exists r, g_deparse data w dst off = Some r /\ length r = length dst /\ bytes_ok r /\
    (forall p, p < off -> bitat r p = bitat dst p) /\
    (forall p, p < w -> bitat r (off + p) = bitat data (8 * nbw w - w + p)) /\
    (forall p, 8 * nbw (off + w) <= p -> bitat r p = bitat dst p).
Proof. intros A B C D E F. destruct (deparse_bits_pad data w dst off A B C D E F) as (r & G & I & J & K & L & M & _). exists r. auto 10. Qed.
