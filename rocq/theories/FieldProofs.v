(** Arithmetic and codec lemmas for fields (C23, C24). *)
From Coq Require Import List Arith NArith ZArith Bool Lia.
From Verif Require Import Bits Bytes EntryListSpec EntryListProofs DataModel FieldModel FieldSpec.
Import ListNotations.
Local Open Scope Z_scope.

Lemma shl1 w : 0 <= w -> Z.shiftl 1 w = 2 ^ w.
Proof. intros H. rewrite Z.shiftl_mul_pow2 by auto. lia. Qed.
Lemma land_mask v w : 0 <= w -> Z.land v (2 ^ w - 1) = v mod 2 ^ w.
Proof. intros H. rewrite <- Z.land_ones by auto. rewrite Z.ones_equiv. f_equal. Qed.
Lemma pow_pos w : 0 <= w -> 0 < 2 ^ w.
Proof. intros. apply Z.pow_pos_nonneg; lia. Qed.
Lemma pow_succ w : 1 <= w -> 2 ^ w = 2 * 2 ^ (w - 1).
Proof. intros H. rewrite <- Z.pow_succ_r by lia. f_equal. lia. Qed.

(** ** Data operations *)
Lemma small_u32 u : 0 <= u < 2 ^ 32 -> get_uint u = Some u.
Proof.
  intros H. unfold get_uint. destruct (Z.ltb_spec u 0); [lia|]. f_equal. apply Z.mod_small. exact H.
Qed.
Lemma upred_small u : 1 <= u < 2 ^ 32 -> upred u = u - 1.
Proof. intros H. unfold upred. apply Z.mod_small. change two32 with (2 ^ 32). lia. Qed.

Lemma wrap_unique w r r' k k' : 1 <= w -> - 2 ^ (w - 1) <= r < 2 ^ (w - 1) -> - 2 ^ (w - 1) <= r' < 2 ^ (w - 1) ->
  r + k * 2 ^ w = r' + k' * 2 ^ w -> r = r'.
Proof.
  intros W A B E. rewrite (pow_succ w) in E by auto. pose proof (pow_pos (w - 1) ltac:(lia)). set (p := 2 ^ (w - 1)) in *.
  assert (k = k') by nia. subst. lia.
Qed.
Lemma two_comp_ok a w : 1 <= w < 2 ^ 32 -> exists r k, d_op DTwoComp a w = Some r /\ - 2 ^ (w - 1) <= r < 2 ^ (w - 1) /\ a = r + k * 2 ^ w.
Proof.
  intros W. cbn [d_op]. rewrite small_u32 by lia. rewrite upred_small by auto. rewrite !shl1 by lia.
  rewrite land_mask by lia. pose proof (pow_pos (w - 1) ltac:(lia)) as P. pose proof (pow_succ w ltac:(lia)) as E.
  pose proof (Z.mod_pos_bound a (2 ^ w) ltac:(lia)) as M. pose proof (Z.div_mod a (2 ^ w) ltac:(lia)) as D.
  set (p := 2 ^ (w - 1)) in *. set (q := 2 ^ w) in *. cbv zeta.
  destruct (Z.ltb_spec a (- p)); cbn [orb].
  - destruct (Z.gtb_spec (a mod q) (p - 1)).
    + exists (a mod q - q), (a / q + 1). split; auto. split; [lia|]. lia.
    + exists (a mod q), (a / q). split; auto. split; [lia|]. lia.
  - destruct (Z.gtb_spec a (p - 1)).
    + destruct (Z.gtb_spec (a mod q) (p - 1)).
      * exists (a mod q - q), (a / q + 1). split; auto. split; [lia|]. lia.
      * exists (a mod q), (a / q). split; auto. split; [lia|]. lia.
    + exists a, 0. split; auto. split; lia.
Qed.
Lemma clamp_cases l h v : l <= h -> clamp l h v = if v >? h then h else if v <? l then l else v.
Proof. intros H. unfold clamp. destruct (Z.gtb_spec v h); [lia|]. destruct (Z.ltb_spec v l); lia. Qed.

Lemma op_ok o a b r : indom o a b -> opspec o a b r -> d_op o a b = Some r.
Proof.
  intros D H. destruct H; try reflexivity.
  - cbn [d_op]. destruct (Z.geb_spec a 0); [|lia]. destruct (Z.gtb_spec b 0); [|lia]. cbn [andb]. f_equal.
    rewrite Z.rem_mod_nonneg by lia. symmetry. apply (Z.mod_unique_pos a b q r); lia.
  - cbn [d_op]. destruct (Z.geb_spec a 0); [|lia]. destruct (Z.gtb_spec b 0); [|lia]. cbn [andb]. f_equal.
    rewrite Z.quot_div_nonneg by lia. symmetry. apply (Z.div_unique_pos a b q r); lia.
  - cbn [d_op]. destruct (Z.geb_spec b 0); [|lia]. rewrite small_u32 by auto. rewrite Z.shiftl_mul_pow2 by lia. auto.
  - cbn [d_op]. destruct (Z.geb_spec b 0); [|lia]. rewrite small_u32 by auto. rewrite Z.shiftr_div_pow2 by lia. auto.
  - cbn [d_op]. f_equal. apply Z.bits_inj'. intros i Hi. rewrite Z.land_spec, H; auto.
  - cbn [d_op]. f_equal. apply Z.bits_inj'. intros i Hi. rewrite Z.lor_spec, H; auto.
  - cbn [d_op]. f_equal. apply Z.bits_inj'. intros i Hi. rewrite Z.lxor_spec, H; auto.
  - cbn [d_op]. f_equal. subst. unfold Z.lnot. lia.
  - destruct (two_comp_ok a w H) as (r' & k' & -> & B & E). f_equal. eapply wrap_unique with (k := k') (k' := k); eauto; lia.
  - cbn [d_op]. rewrite small_u32 by auto. cbv zeta. rewrite shl1 by lia. pose proof (pow_pos w ltac:(lia)). rewrite clamp_cases by lia. auto.
  - cbn [d_op]. rewrite small_u32 by lia. cbv zeta. rewrite upred_small, shl1 by lia. pose proof (pow_pos (w - 1) ltac:(lia)). rewrite clamp_cases by lia. auto.
Qed.

(** ** Bytes *)
Lemma be_bytes_enc n : forall v, 0 <= v -> be_enc n (Z.abs_N v) = be_bytes n v.
Proof.
  intros v Hv. assert (E : Z.abs_N v = Z.to_N v) by (destruct v; auto; lia). rewrite E. clear E.
  induction n as [|n IH]; [reflexivity|]. cbn [be_enc be_bytes]. rewrite IH. f_equal.
  apply N2Z.inj. rewrite N2Z.inj_mod, N2Z.inj_div, N2Z.inj_pow, Z2N.id by lia. rewrite nat_N_Z.
  rewrite Z2N.id by (apply Z.mod_pos_bound; lia). reflexivity.
Qed.
Lemma be_bytes_0 n : be_bytes n 0 = repeat 0%N n.
Proof. induction n; auto. cbn [be_bytes repeat]. rewrite IHn. reflexivity. Qed.
Lemma be_bytes_len n v : length (be_bytes n v) = n.
Proof. induction n; auto. cbn [be_bytes length]. rewrite IHn. auto. Qed.
Lemma be_bytes_ok n v : Forall (fun x => (x < 256)%N) (be_bytes n v).
Proof. induction n; cbn [be_bytes]; constructor; auto. pose proof (Z.mod_pos_bound (v / 256 ^ Z.of_nat n) 256 ltac:(lia)). lia. Qed.
Lemma import_be n : forall v, 0 <= v < 256 ^ Z.of_nat n -> import_bytes (be_bytes n v) = v.
Proof.
  unfold import_bytes.
  assert (G : forall n v, 0 <= v -> Z.of_N (be_val (be_bytes n v)) = v mod 256 ^ Z.of_nat n).
  { induction n0 as [|m IH]; intros v Hv; [cbn [be_bytes]; rewrite be_val_nil; change (256 ^ Z.of_nat 0) with 1; rewrite Z.mod_1_r; auto|].
    cbn [be_bytes]. rewrite be_val_cons, be_bytes_len, N2Z.inj_add, N2Z.inj_mul, N2Z.inj_pow, nat_N_Z, IH by auto.
    change (Z.of_N 256) with 256. rewrite Z2N.id by (apply Z.mod_pos_bound; lia).
    assert (P : 0 < 256 ^ Z.of_nat m) by (apply Z.pow_pos_nonneg; lia).
    replace (256 ^ Z.of_nat (S m)) with (256 ^ Z.of_nat m * 256) by (rewrite Nat2Z.inj_succ, Z.pow_succ_r by lia; lia).
    rewrite Z.rem_mul_r by lia. lia. }
  intros v Hv. rewrite G by lia. apply Z.mod_small. auto.
Qed.
Lemma pow_bytes w : 2 ^ Z.of_nat w <= 256 ^ Z.of_nat (nbytes_for w).
Proof.
  change 256 with (2 ^ 8). rewrite <- Z.pow_mul_r by lia. apply Z.pow_le_mono_r; [lia|]. unfold nbytes_for.
  pose proof (Nat.div_mod (w + 7) 8 ltac:(lia)). pose proof (Nat.mod_upper_bound (w + 7) 8 ltac:(lia)). lia.
Qed.
Lemma export_ok w dst v : dst = repeat 0%N (nbytes_for w) -> 0 <= v < 2 ^ Z.of_nat w -> export_bytes (nbytes_for w) dst v = Some (be_bytes (nbytes_for w) v).
Proof.
  intros -> H. unfold export_bytes. destruct (Z.eqb_spec v 0) as [->|N]; [rewrite be_bytes_0; auto|].
  pose proof (pow_bytes w). destruct (Z.ltb_spec (Z.abs v) (256 ^ Z.of_nat (nbytes_for w))); [|lia].
  rewrite skipn_all2 by (rewrite repeat_length; auto). rewrite app_nil_r, be_bytes_enc by lia. auto.
Qed.

(** ** One field *)
Definition RS (t : fty) (v : Z) (f : field) : Prop :=
  f_nbits f = ty_bits t /\ f_nbytes f = nbytes_for (ty_bits t) /\ f_signed f = ty_signed t /\ f_sat f = ty_sat t /\ f_arith f = true /\ f_VL f = ty_VL t /\
  f_mask f = 2 ^ Z.of_nat (ty_bits t) - 1 /\ f_max f = hi t /\ f_min f = lo t /\ f_value f = v /\ lo t <= v <= hi t /\ f_bytes f = encoding t v /\ wf_ty t.

Lemma range_ok t v : wf_ty t -> lo t <= stored t v <= hi t.
Proof.
  intros W. unfold stored, lo, hi, wf_ty in *. destruct t as [w sg st vl]; cbn in *. pose proof (pow_pos (Z.of_nat w) ltac:(lia)) as P.
  destruct sg; cbn.
  - destruct (W eq_refl) as [W1 _]. pose proof (pow_succ (Z.of_nat w) ltac:(lia)) as E. pose proof (pow_pos (Z.of_nat w - 1) ltac:(lia)).
    destruct st; [unfold clamp; lia|]. pose proof (Z.mod_pos_bound (v - - 2 ^ (Z.of_nat w - 1)) (2 ^ Z.of_nat w) ltac:(lia)). lia.
  - destruct st; [unfold clamp; lia|]. pose proof (Z.mod_pos_bound (v - 0) (2 ^ Z.of_nat w) ltac:(lia)). lia.
Qed.
Lemma lo_hi t : wf_ty t -> lo t <= 0 <= hi t.
Proof.
  intros W. unfold lo, hi, wf_ty in *. destruct t as [w sg st vl]; cbn in *. pose proof (pow_pos (Z.of_nat w) ltac:(lia)). destruct sg; [|lia].
  destruct (W eq_refl). pose proof (pow_pos (Z.of_nat w - 1) ltac:(lia)). lia.
Qed.
Lemma encoding_len t v : length (encoding t v) = nbytes_for (ty_bits t).
Proof. unfold encoding. apply be_bytes_len. Qed.

(** Wrapped value before the encoding *)
Lemma export_field t f v : wf_ty t -> storable t v ->
  f_nbits f = ty_bits t -> f_nbytes f = nbytes_for (ty_bits t) -> f_signed f = ty_signed t -> f_sat f = ty_sat t -> f_arith f = true -> f_VL f = ty_VL t ->
  f_mask f = 2 ^ Z.of_nat (ty_bits t) - 1 -> f_max f = hi t -> f_min f = lo t -> length (f_bytes f) = nbytes_for (ty_bits t) ->
  exists f', f_set false f v = Some f' /\ RS t (stored t v) f'.
Proof.
  intros W ST E1 E2 E3 E4 E5 E6 E7 E8 E9 E10. unfold f_set, f_export, f_get. cbn [with_value f_bytes f_sat f_signed f_mask f_max f_min f_nbytes f_value].
  rewrite E2, E3, E4, E7, E8, E9, E10.
  set (v1 := if ty_sat t then if v <? lo t then lo t else if v >? hi t then hi t else v else v).
  pose proof (lo_hi t W) as LH. pose proof (range_ok t v W) as RG.
  assert (V1 : ty_sat t = true -> v1 = stored t v).
  { intros S. unfold v1, stored. rewrite S. unfold clamp. destruct (Z.ltb_spec v (lo t)); [lia|]. destruct (Z.gtb_spec v (hi t)); lia. }
  assert (V1' : ty_sat t = false -> v1 = v) by (intros S; unfold v1; rewrite S; auto).
  clearbody v1. pose proof (pow_pos (Z.of_nat (ty_bits t)) ltac:(lia)) as P. rewrite land_mask by lia.
  cbv zeta.
  match goal with |- context [export_bytes _ _ ?o] => set (out := o) end.
  match goal with |- context [?a =? v] => set (v2 := a) end.
  assert (A : v2 = stored t v /\ out = stored t v mod 2 ^ Z.of_nat (ty_bits t)).
  { unfold out, v2. clear out v2. unfold storable, wf_ty, stored, lo, hi in *. destruct (ty_signed t) eqn:SG; cbn [negb].
    - destruct (W eq_refl) as [W1 _]. pose proof (pow_succ (Z.of_nat (ty_bits t)) ltac:(lia)) as E. pose proof (pow_pos (Z.of_nat (ty_bits t) - 1) ltac:(lia)) as P1.
      set (p := 2 ^ (Z.of_nat (ty_bits t) - 1)) in *. set (q := 2 ^ Z.of_nat (ty_bits t)) in *.
      assert (OUT : forall x, - p <= x <= p - 1 -> (if x >=? 0 then x else x - - p - - p) = x mod q).
      { intros x Hx. destruct (Z.geb_spec x 0); [rewrite Z.mod_small; lia|]. rewrite <- (Z.mod_add x 1 q) by lia. rewrite Z.mod_small; lia. }
      destruct (ty_sat t) eqn:S.
      + rewrite (V1 eq_refl) in *. set (y := clamp (- p) (p - 1) v) in *.
        destruct (Z.ltb_spec y (- p)); [lia|]. destruct (Z.gtb_spec y (q - 1)); [lia|]. cbn [orb]. split; auto.
      + rewrite (V1' eq_refl) in *. specialize (ST eq_refl eq_refl).
        pose proof (Z.mod_pos_bound v q ltac:(lia)) as M. pose proof (Z.div_mod v q ltac:(lia)) as D.
        assert (ME : forall r k, v = r + k * q -> - p <= r < p -> (v - - p) mod q + - p = r).
        { intros r k Ev Hr. replace (v - - p) with ((r + p) + k * q) by lia. rewrite Z.mod_add by lia. rewrite Z.mod_small; lia. }
        destruct (Z.ltb_spec v (- p)) as [A1|A1]; cbn [orb].
        * destruct (Z.gtb_spec (v mod q) (p - 1)).
          -- rewrite (ME (v mod q - q) (v / q + 1)) by lia. replace (v mod q - (q - 1 + 1)) with (v mod q - q) by lia. split; auto. apply OUT. lia.
          -- rewrite (ME (v mod q) (v / q)) by lia. split; auto. apply OUT. lia.
        * destruct (Z.gtb_spec v (q - 1)) as [A2|A2].
          -- destruct (Z.gtb_spec (v mod q) (p - 1)).
             ++ rewrite (ME (v mod q - q) (v / q + 1)) by lia. replace (v mod q - (q - 1 + 1)) with (v mod q - q) by lia. split; auto. apply OUT. lia.
             ++ rewrite (ME (v mod q) (v / q)) by lia. split; auto. apply OUT. lia.
          -- rewrite (ME v 0) by lia. split; auto. apply OUT. lia.
    - set (q := 2 ^ Z.of_nat (ty_bits t)) in *. destruct (ty_sat t) eqn:S.
      + rewrite (V1 eq_refl) in *. rewrite !(Z.mod_small (clamp 0 (q - 1) v)) by lia. auto.
      + rewrite (V1' eq_refl) in *. replace (v - 0) with v by lia. rewrite Z.add_0_r. rewrite Z.mod_mod by lia. auto. }
  destruct A as [A1 A2]. clearbody v2 out. subst v2 out.
  rewrite export_ok by (auto; apply Z.mod_pos_bound; lia).
  eexists. split; [reflexivity|]. destruct (Z.eqb_spec (stored t v) v) as [EQ|NE]; unfold RS; cbn [with_bytes with_value f_nbits f_nbytes f_signed f_sat f_arith f_VL f_mask f_max f_min f_value f_bytes];
    repeat (split; [solve [auto; lia]|]); auto.
Qed.

Lemma RS_set t x f v : RS t x f -> storable t v -> exists f', f_set false f v = Some f' /\ RS t (stored t v) f'.
Proof.
  intros (A1 & A2 & A3 & A4 & A5 & A6 & A7 & A8 & A9 & A10 & A11 & A12 & A13) S. apply export_field; auto. rewrite A12. apply encoding_len.
Qed.
Lemma stored_id t v : lo t <= v <= hi t -> wf_ty t -> stored t v = v.
Proof.
  intros H W. unfold stored. destruct (ty_sat t); [unfold clamp; lia|]. pose proof (lo_hi t W). rewrite Z.mod_small; [lia|]. unfold lo, hi, wf_ty in *.
  destruct (ty_signed t); [|lia]. destruct (W eq_refl). rewrite (pow_succ (Z.of_nat (ty_bits t))) by lia. lia.
Qed.
Lemma in_range_storable t v : lo t <= v <= hi t -> storable t v.
Proof. intros H S _ H1. unfold lo, hi in H. rewrite S in H. lia. Qed.

Lemma testbit_top x w : 1 <= w -> 0 <= x < 2 ^ w -> Z.testbit x (w - 1) = (2 ^ (w - 1) <=? x).
Proof.
  intros W H. rewrite (pow_succ w) in H by auto. pose proof (pow_pos (w - 1) ltac:(lia)) as P. destruct (Z.leb_spec (2 ^ (w - 1)) x).
  - replace (Z.testbit x (w - 1)) with (Z.testbit x (0 + (w - 1))) by (f_equal; lia). rewrite <- Z.div_pow2_bits by lia. rewrite <- (Z.div_unique_pos x (2 ^ (w - 1)) 1 (x - 2 ^ (w - 1))) by lia. reflexivity.
  - replace (Z.testbit x (w - 1)) with (Z.testbit x (0 + (w - 1))) by (f_equal; lia). rewrite <- Z.div_pow2_bits by lia. rewrite Z.div_small by lia. reflexivity.
Qed.
Lemma clear_top x w : 1 <= w -> 2 ^ (w - 1) <= x < 2 ^ w -> Z.clearbit x (w - 1) = x - 2 ^ (w - 1).
Proof.
  intros W H. assert (T : Z.testbit x (w - 1) = true) by (rewrite testbit_top by (auto; pose proof (pow_pos (w - 1) ltac:(lia)); lia); apply Z.leb_le; lia).
  apply Z.bits_inj'. intros i Hi. rewrite Z.clearbit_eqb by lia.
  assert (D : x = (x - 2 ^ (w - 1)) + 1 * 2 ^ (w - 1)) by lia. rewrite (pow_succ w) in H by auto. set (y := x - 2 ^ (w - 1)) in *.
  destruct (Z.eqb_spec (w - 1) i) as [<-|N]; cbn [negb].
  - rewrite andb_false_r. symmetry. replace (Z.testbit y (w - 1)) with (Z.testbit y (0 + (w - 1))) by (f_equal; lia). rewrite <- Z.div_pow2_bits by lia. rewrite Z.div_small by lia. reflexivity.
  - rewrite andb_true_r. destruct (Z.lt_ge_cases i (w - 1)).
    + rewrite <- (Z.mod_pow2_bits_low x (w - 1) i) by lia. rewrite D, Z.mod_add by (pose proof (pow_pos (w - 1) ltac:(lia)); lia). rewrite Z.mod_pow2_bits_low by lia. auto.
    + rewrite !Z.bits_above_log2; auto; try lia.
      * destruct (Z.eq_dec y 0) as [->|]; [cbn; lia|]. assert (Z.log2 y < w - 1) by (apply Z.log2_lt_pow2; lia). lia.
      * assert (Z.log2 x < w) by (apply Z.log2_lt_pow2; [lia|rewrite (pow_succ w) by auto; lia]). lia.
Qed.
Lemma sync_ok t f v : wf_ty t -> lo t <= v <= hi t -> f_nbits f = ty_bits t -> f_nbytes f = nbytes_for (ty_bits t) -> f_signed f = ty_signed t -> f_min f = lo t ->
  f_bytes f = encoding t v -> f_value (f_sync f) = v.
Proof.
  intros W R E1 E2 E3 E4 E5. unfold f_sync; cbn [with_value f_value]. rewrite E2, E5. rewrite firstn_all2 by (rewrite encoding_len; auto).
  unfold encoding. change ((ty_bits t + 7) / 8)%nat with (nbytes_for (ty_bits t)). pose proof (pow_bytes (ty_bits t)) as PB. pose proof (pow_pos (Z.of_nat (ty_bits t)) ltac:(lia)) as P.
  pose proof (Z.mod_pos_bound v (2 ^ Z.of_nat (ty_bits t)) P) as M. rewrite import_be by lia.
  rewrite E1, E3, E4. unfold lo, hi, wf_ty in *. destruct (ty_signed t) eqn:S; cbn [andb]; [|apply Z.mod_small; lia].
  destruct (W eq_refl) as [W1 _]. pose proof (pow_succ (Z.of_nat (ty_bits t)) ltac:(lia)) as E. rewrite testbit_top by lia.
  set (x := v mod 2 ^ Z.of_nat (ty_bits t)) in *. assert (X : x = if v <? 0 then v + 2 ^ Z.of_nat (ty_bits t) else v).
  { unfold x. destruct (Z.ltb_spec v 0); [|apply Z.mod_small; lia]. rewrite <- (Z.mod_add v 1) by lia. rewrite Z.mod_small; lia. }
  clearbody x. destruct (Z.leb_spec (2 ^ (Z.of_nat (ty_bits t) - 1)) x).
  - rewrite clear_top by lia. destruct (Z.ltb_spec v 0); lia.
  - destruct (Z.ltb_spec v 0); lia.
Qed.

(** ** Histories *)
Definition RC (c : cell) (f : field) : Prop :=
  match c with
  | (t, Some v) => RS t v f
  | (t, None) => f_signed f = false /\ f_sat f = ty_sat t /\ f_arith f = true /\ f_VL f = true /\ ty_VL t = true /\ ty_signed t = false
  end.
Definition RF (s : list cell) (fs : list field) : Prop := Forall2 RC s fs.

Lemma F2_nth {A B} (P : A -> B -> Prop) l m i a : Forall2 P l m -> nth_error l i = Some a -> exists b, nth_error m i = Some b /\ P a b.
Proof. intros H; revert i. induction H; intros [|i] E; try discriminate; cbn in *; [injection E as <-; eauto|eauto]. Qed.
Lemma F2_put {A B} (P : A -> B -> Prop) l m i a b : Forall2 P l m -> P a b -> (i < length l)%nat -> Forall2 P (firstn i l ++ a :: skipn (S i) l) (put m i b).
Proof.
  intros H; revert i. induction H; intros [|i] E L; cbn [length] in L; try lia.
  - cbn. constructor; auto.
  - change (Forall2 P (x :: (firstn i l ++ a :: skipn (S i) l)) (y :: put l' i b)). constructor; auto. apply IHForall2; auto. lia.
Qed.
Lemma nth_lt {A} (l : list A) i a : nth_error l i = Some a -> (i < length l)%nat.
Proof. intros H. apply nth_error_Some. congruence. Qed.
Lemma setc_len s d c : (d < length s)%nat -> length (setc s d c) = length s.
Proof. intros H. unfold setc. rewrite app_length, firstn_length_le by lia. cbn [length]. rewrite skipn_length. lia. Qed.

Lemma RC_VL t ov f : RC (t, ov) f -> f_signed f = ty_signed t /\ f_sat f = ty_sat t /\ f_arith f = true /\ f_VL f = ty_VL t.
Proof. destruct ov; cbn; [intros (A1 & A2 & A3 & A4 & A5 & A6 & _); auto|intros (A & B & C & D & E & F); rewrite E, F; auto]. Qed.
Lemma RC_unsigned t ov f : RC (t, ov) f -> ty_VL t = true -> ty_signed t = false.
Proof.
  destruct ov; cbn; [|tauto]. intros (A1 & A2 & A3 & A4 & A5 & A6 & A7 & A8 & A9 & A10 & A11 & A12 & W) V. destruct (ty_signed t) eqn:S; auto. destruct (W S). congruence.
Qed.

(** taking over the value (and, for variable-length fields, the size) of another field *)
Lemma RC_take t ot g u ou f h : RC (t, ot) g -> RC (u, ou) f ->
  (t = u \/ (ty_VL t = true /\ ty_VL u = true /\ ty_sat t = ty_sat u)) ->
  f_bytes h = f_bytes f -> f_value h = f_value f -> f_signed h = f_signed g -> f_sat h = f_sat g -> f_arith h = f_arith g -> f_VL h = f_VL g ->
  f_nbits h = (if ty_VL t then f_nbits f else f_nbits g) -> f_nbytes h = (if ty_VL t then f_nbytes f else f_nbytes g) ->
  f_mask h = (if ty_VL t then f_mask f else f_mask g) -> f_max h = (if ty_VL t then f_max f else f_max g) -> f_min h = (if ty_VL t then f_min f else f_min g) ->
  RC (u, ou) h.
Proof.
  intros Hg Hf TU B1 B2 B3 B4 B5 B6 B7 B8 B9 B10 B11. pose proof (RC_VL _ _ _ Hg) as (G1 & G2 & G3 & G4). pose proof (RC_VL _ _ _ Hf) as (F1 & F2 & F3 & F4).
  destruct (ty_VL t) eqn:V.
  - assert (ty_VL u = true /\ ty_sat t = ty_sat u) as [U1 U2] by (destruct TU as [->|(_ & A & B)]; auto).
    pose proof (RC_unsigned _ _ _ Hg V) as S1. pose proof (RC_unsigned _ _ _ Hf U1) as S2.
    destruct ou as [v|]; cbn [RC] in *.
    + destruct Hf as (A1 & A2 & A3 & A4 & A5 & A6 & A7 & A8 & A9 & A10 & A11 & A12 & A13). unfold RS. do 10 (split; [congruence|]). split; [exact A11|]. split; [congruence|exact A13].
    + destruct Hf as (A1 & A2 & A3 & A4 & A5 & A6). repeat split; congruence.
  - destruct TU as [->|[A _]]; [|congruence]. destruct ou as [v|]; cbn [RC] in *; [|destruct Hf as (_ & _ & _ & _ & A & _); congruence].
    destruct ot as [v'|]; cbn [RC] in *; [|destruct Hg as (_ & _ & _ & _ & A & _); congruence].
    destruct Hf as (A1 & A2 & A3 & A4 & A5 & A6 & A7 & A8 & A9 & A10 & A11 & A12 & A13).
    destruct Hg as (C1 & C2 & C3 & C4 & C5 & C6 & C7 & C8 & C9 & _). unfold RS. do 10 (split; [congruence|]). split; [exact A11|]. split; [congruence|exact A13].
Qed.

Lemma set_bytes_ok t f b v : wf_ty t -> lo t <= v <= hi t -> b = encoding t v ->
  f_nbits f = ty_bits t -> f_nbytes f = nbytes_for (ty_bits t) -> f_signed f = ty_signed t -> f_sat f = ty_sat t -> f_arith f = true -> f_VL f = ty_VL t ->
  f_mask f = 2 ^ Z.of_nat (ty_bits t) - 1 -> f_max f = hi t -> f_min f = lo t -> length (f_bytes f) = nbytes_for (ty_bits t) ->
  exists f', f_set_bytes f b = Some f' /\ RS t v f'.
Proof.
  intros W R -> E1 E2 E3 E4 E5 E6 E7 E8 E9 E10. unfold f_set_bytes. rewrite encoding_len, E2, Nat.eqb_refl, E5.
  rewrite skipn_all2 by lia. rewrite app_nil_r. eexists. split; [reflexivity|].
  pose proof (sync_ok t (with_bytes f (encoding t v)) v W R E1 E2 E3 E9 eq_refl) as SV.
  unfold RS. rewrite SV. cbn [f_sync with_value with_bytes f_nbits f_nbytes f_signed f_sat f_arith f_VL f_mask f_max f_min f_bytes].
  repeat (split; [solve [auto]|]). auto.
Qed.
Lemma resize_len n l : length (resize_bytes n l) = n.
Proof. unfold resize_bytes. rewrite app_length, firstn_length, repeat_length. lia. Qed.

Lemma fstep_ok s fs o x s' : RF s fs -> fspec s o x s' -> exists fs', f_step fs o = Some (fs', x) /\ RF s' fs'.
Proof.
  intros HR H. destruct H; cbn [f_step].
  - unfold f_new. assert (E : repeat 0%N (nbytes_for n) = encoding (mkTy n sg st vl) 0).
    { unfold encoding; cbn [ty_bits]. rewrite Z.mod_0_l by (pose proof (pow_pos (Z.of_nat n) ltac:(lia)); lia). rewrite be_bytes_0. auto. }
    rewrite !E. pose proof (lo_hi _ H) as LH. destruct sg.
    + destruct (H eq_refl) as [W1 W2]. cbn in W1, W2. destruct (Nat.ltb_spec 1 n); [|lia]. eexists. split; [reflexivity|]. apply Forall2_app; auto. constructor; [|constructor].
      cbn [RC]. unfold RS; cbn [f_nbits f_nbytes f_signed f_sat f_arith f_VL f_mask f_max f_min f_value f_bytes ty_bits ty_signed ty_sat ty_VL].
      rewrite !shl1 by lia. unfold hi, lo at 1; cbn [ty_signed ty_bits]. repeat (split; [solve [auto; lia]|]). auto.
    + eexists. split; [reflexivity|]. apply Forall2_app; auto. constructor; [|constructor].
      cbn [RC]. unfold RS; cbn [f_nbits f_nbytes f_signed f_sat f_arith f_VL f_mask f_max f_min f_value f_bytes ty_bits ty_signed ty_sat ty_VL].
      rewrite !shl1 by lia. unfold hi, lo at 1; cbn [ty_signed ty_bits]. repeat (split; [solve [auto; lia]|]). auto.
  - destruct (F2_nth _ _ _ _ _ HR H) as (f & E & HF). rewrite E. destruct (RS_set t x f v HF H0) as (f' & -> & R'). eexists. split; [reflexivity|]. apply F2_put; auto. eapply nth_lt; eauto.
  - destruct (F2_nth _ _ _ _ _ HR H) as (f & E & HF). destruct (F2_nth _ _ _ _ _ HR H0) as (fa & Ea & HFa). destruct (F2_nth _ _ _ _ _ HR H1) as (fb & Eb & HFb).
    rewrite E, Ea, Eb. unfold f_get. destruct HFa as (_ & _ & _ & _ & _ & _ & _ & _ & _ & VA & _). destruct HFb as (_ & _ & _ & _ & _ & _ & _ & _ & _ & VB & _).
    rewrite VA, VB, (op_ok _ _ _ _ H2 H3). destruct (RS_set t x f r HF H4) as (f' & -> & R'). eexists. split; [reflexivity|]. apply F2_put; auto. eapply nth_lt; eauto.
  - destruct (F2_nth _ _ _ _ _ HR H) as (f & E & HF). rewrite E. destruct HF as (A1 & A2 & A3 & A4 & A5 & A6 & A7 & A8 & A9 & A10 & A11 & A12 & A13).
    destruct (set_bytes_ok t f b v A13 H1 H2) as (f' & -> & R'); auto; [rewrite A12; apply encoding_len|].
    eexists. split; [reflexivity|]. apply F2_put; auto. eapply nth_lt; eauto.
  - destruct (F2_nth _ _ _ _ _ HR H) as (f & E & HF). destruct (F2_nth _ _ _ _ _ HR H0) as (g & Eg & HG). rewrite E, Eg. cbn [f_swap].
    pose proof (RC_VL _ _ _ HF) as (_ & _ & _ & FV). pose proof (RC_VL _ _ _ HG) as (_ & _ & _ & GV).
    eexists. split; [reflexivity|]. unfold setc at 1. apply F2_put.
    + apply F2_put; [auto| |eapply nth_lt; eauto]. eapply RC_take with (t := t) (g := f) (f := g); eauto; cbn; rewrite FV; reflexivity.
    + assert (VV : ty_VL t = ty_VL u) by (destruct H2 as [->|(P & Q & _)]; congruence).
      eapply RC_take with (t := u) (g := g) (f := f); eauto; cbn; try (rewrite FV, VV; reflexivity); auto. destruct H2 as [->|(P & Q & O)]; auto.
    + rewrite setc_len by (eapply nth_lt; eauto). eapply nth_lt; eauto.
  - destruct (F2_nth _ _ _ _ _ HR H) as (f & E & HF). destruct (F2_nth _ _ _ _ _ HR H0) as (g & Eg & HG). rewrite E, Eg.
    pose proof (RC_VL _ _ _ HF) as (_ & _ & _ & FV). eexists. split; [reflexivity|]. apply F2_put; [auto| |eapply nth_lt; eauto].
    eapply RC_take with (t := t) (g := f) (f := g); eauto; cbn; rewrite ?FV; reflexivity.
  - destruct (F2_nth _ _ _ _ _ HR H) as (f & E & HF). rewrite E. pose proof (RC_VL _ _ _ HF) as (FS & FT & FA & FV). pose proof (RC_unsigned _ _ _ HF H0) as US.
    unfold f_extract_VL. rewrite FS, US.
    assert (W : wf_ty t') by (intros X; discriminate X).
    edestruct (set_bytes_ok t') as (f' & E' & R'); [exact W|exact H2|exact H3| | | | | | | | | | |]; cycle 10.
    + rewrite E'. eexists. split; [reflexivity|]. apply F2_put; auto. eapply nth_lt; eauto.
    + reflexivity.
    + reflexivity.
    + cbn. congruence.
    + cbn. congruence.
    + cbn. auto.
    + cbn. congruence.
    + cbn [f_mask t' ty_bits]. rewrite shl1 by lia. auto.
    + cbn [f_max t' ty_bits hi ty_signed]. rewrite shl1 by lia. auto.
    + reflexivity.
    + cbn [f_bytes]. rewrite resize_len. auto.
  - destruct (F2_nth _ _ _ _ _ HR H) as (f & E & HF). destruct (F2_nth _ _ _ _ _ HR H0) as (g & Eg & HG). rewrite E, Eg.
    pose proof (RC_VL _ _ _ HF) as (FS & FT & FA & FV). pose proof (RC_unsigned _ _ _ HF H1) as US. pose proof (RC_unsigned _ _ _ HG H2) as UG.
    destruct HG as (A1 & A2 & A3 & A4 & A5 & A6 & A7 & A8 & A9 & A10 & A11 & A12 & A13).
    unfold f_assign_VL. rewrite FV, H1. unfold f_get at 1. rewrite A10. set (tt := mkTy (ty_bits u) false (ty_sat t) true).
    assert (W : wf_ty tt) by (intros X; discriminate X). assert (RR : lo tt <= v <= hi tt) by (unfold lo, hi in *; cbn; rewrite UG in A11; lia).
    edestruct (export_field tt) as (f' & E' & R'); [exact W|apply in_range_storable; exact RR| | | | | | | | | | |]; cycle 10.
    + rewrite E'. eexists. split; [reflexivity|]. rewrite stored_id in R' by auto. apply F2_put; auto. eapply nth_lt; eauto.
    + cbn. auto.
    + cbn. auto.
    + cbn. congruence.
    + cbn. congruence.
    + cbn. auto.
    + cbn. congruence.
    + cbn. auto.
    + cbn [f_max]. rewrite A8. unfold hi, tt; cbn. rewrite UG. auto.
    + cbn [f_min]. rewrite A9. unfold lo, tt; cbn. rewrite UG. auto.
    + cbn [f_bytes]. rewrite resize_len. auto.
  - destruct (F2_nth _ _ _ _ _ HR H) as (f & E & HF). rewrite E. pose proof (RC_VL _ _ _ HF) as (FS & FT & FA & FV). pose proof (RC_unsigned _ _ _ HF H0) as US.
    unfold f_reset_VL. rewrite FV, H0. eexists. split; [reflexivity|]. apply F2_put; auto; [|eapply nth_lt; eauto]. cbn. repeat split; congruence.
  - destruct (F2_nth _ _ _ _ _ HR H) as (f & E & HF). rewrite E. destruct HF as (A1 & A2 & A3 & A4 & A5 & A6 & A7 & A8 & A9 & A10 & A11 & A12 & A13).
    unfold f_get. rewrite A2, A10, A12. rewrite firstn_all2 by (rewrite encoding_len; auto). eexists. split; [reflexivity|auto].
Qed.
