(** Theorems about fields (C23) and arbitrary-precision data (C24). *)
From Coq Require Import List Arith NArith ZArith Bool Lia.
From Verif Require Import Bits Bytes EntryListSpec EntryListProofs DataModel FieldModel FieldSpec FieldProofs.
Import ListNotations.
Local Open Scope Z_scope.

(** ** C24: the operations compute their mathematical definition, and refuse operands out of their domain *)
Theorem C24_operations : forall o a b,
  (indom o a b -> exists r, opspec o a b r) /\
  (forall r, indom o a b -> opspec o a b r -> d_op o a b = Some r).
Proof.
  intros o a b. split; [|intros; apply op_ok; auto].
  intros D. destruct o; cbn in D.
  - eexists; constructor.
  - eexists; constructor.
  - eexists; constructor.
  - exists (a mod b). eapply os_mod with (q := a / b); try lia; [pose proof (Z.div_mod a b ltac:(lia)); lia|apply Z.mod_pos_bound; lia].
  - exists (a / b). eapply os_div with (r := a mod b); try lia; [pose proof (Z.div_mod a b ltac:(lia)); lia|apply Z.mod_pos_bound; lia].
  - eexists; constructor; auto.
  - eexists; constructor; auto.
  - exists (Z.land a b). constructor. intros. apply Z.land_spec.
  - exists (Z.lor a b). constructor. intros. apply Z.lor_spec.
  - exists (Z.lxor a b). constructor. intros. apply Z.lxor_spec.
  - eexists; constructor; auto.
  - destruct (two_comp_ok a b D) as (r & k & _ & H1 & H2). exists r. eapply os_twocomp; eauto.
  - eexists; constructor; auto.
  - eexists; constructor; auto.
Qed.
Theorem C24_refuses : forall a b,
  (a < 0 \/ b <= 0 -> d_op DMod a b = None /\ d_op DDiv a b = None) /\
  (b < 0 -> d_op DShl a b = None /\ d_op DShr a b = None /\ d_op DTwoComp a b = None /\ d_op DUsat a b = None /\ d_op DSat a b = None).
Proof.
  intros a b. split.
  - intros H. cbn [d_op]. destruct (Z.geb_spec a 0), (Z.gtb_spec b 0); cbn [andb]; auto; lia.
  - intros H. cbn [d_op]. unfold get_uint. destruct (Z.geb_spec b 0); [lia|]. destruct (Z.ltb_spec b 0); [auto|lia].
Qed.
(** Finding: shift amounts of 2^32 and more are neither honoured nor refused; the amount is taken modulo
    2^32, so that shifting 1 right by 2^32 gives 1. *)
Theorem C24_any_shift_amount_refuted : ~ (forall a b r, 0 <= b -> d_op DShr a b = Some r -> r = a / 2 ^ b).
Proof.
  assert (G : forall k, 0 < k -> 0 <= 1 < 2 ^ k) by (intros k Hk; split; [lia|]; apply Z.pow_gt_1; lia).
  intros H. assert (E : d_op DShr 1 (2 ^ 32) = Some 1) by (vm_compute; reflexivity).
  specialize (H 1 (2 ^ 32) 1 ltac:(discriminate) E). rewrite Z.div_small in H; [discriminate|].
  apply G. reflexivity.
Qed.
(** Finding: a signed cast to width 0 is neither refused nor 0. *)
Theorem C24_zero_width_cast_refuted : ~ (forall a r, d_op DSat a 0 = Some r -> r = 0).
Proof.
  intros H. assert (E : d_op DSat 1 0 = Some 1).
  { cbn [d_op]. change (get_uint 0) with (Some 0). cbv zeta. unfold upred. change ((0 - 1) mod two32) with (2 ^ 32 - 1).
    remember (2 ^ 32 - 1) as u eqn:U. assert (1 < u) by (subst u; reflexivity). clear U.
    rewrite shl1 by lia. assert (2 ^ 1 < 2 ^ u) by (apply Z.pow_lt_mono_r; lia). set (p := 2 ^ u) in *. change (2 ^ 1) with 2 in *.
    destruct (Z.gtb_spec 1 (p - 1)); [lia|]. destruct (Z.ltb_spec 1 (- p)); [lia|auto]. }
  specialize (H 1 1 E). clear E. discriminate H.
Qed.

(** Hexadecimal strings: an optional minus sign, an optional 0x, at least one digit; the value is the
    positional one. *)
Definition digit (c : N) : option N :=      (* 0-9, A-F, a-f *)
  find (fun d => existsb (N.eqb c) (if (d <? 10)%N then [48 + d] else [55 + d; 87 + d])%N) [0;1;2;3;4;5;6;7;8;9;10;11;12;13;14;15]%N.
Inductive hexval : list N -> Z -> Prop :=
| hv_nil : hexval [] 0
| hv_snoc : forall l v c d, hexval l v -> digit c = Some d -> hexval (l ++ [c]) (16 * v + Z.of_N d).
Lemma digit_c2d c : char2digit c = digit c.
Proof.
  destruct (N.lt_ge_cases c 128) as [L|G].
  - assert (A : forallb (fun c => match char2digit c, digit c with Some x, Some y => (x =? y)%N | None, None => true | _, _ => false end) (map N.of_nat (seq 0 128)) = true) by (vm_compute; reflexivity).
    rewrite forallb_forall in A. specialize (A c). assert (In c (map N.of_nat (seq 0 128))).
    { apply in_map_iff. exists (N.to_nat c). split; [lia|]. apply in_seq. lia. }
    specialize (A H). destruct (char2digit c), (digit c); try discriminate; auto. apply N.eqb_eq in A. subst; auto.
  - unfold char2digit. destruct (N.leb_spec c 57); [lia|]. destruct (N.leb_spec c 70); [lia|]. destruct (N.leb_spec c 102); [lia|]. rewrite !andb_false_r.
    symmetry. unfold digit. 
    destruct (find _ _) as [d|] eqn:E; auto. apply find_some in E as [I E]. apply existsb_exists in E as (y & Iy & Ey). apply N.eqb_eq in Ey. subst y.
    assert (d <= 15)%N by (cbn in I; intuition lia). destruct (d <? 10)%N; cbn [In] in Iy; intuition lia.
Qed.
Lemma c2d_lt c d : char2digit c = Some d -> (d < 16)%N.
Proof.
  unfold char2digit. repeat match goal with |- context [(?a <=? ?b)%N] => destruct (N.leb_spec a b) end; cbn [andb]; intros HH; try discriminate; injection HH as <-; lia.
Qed.
Lemma hexval_app l : forall v m, hexval l v -> Forall (fun c => exists d, char2digit c = Some d) m -> exists u, hexval m u /\ hexval (l ++ m) (v * 16 ^ Z.of_nat (length m) + u).
Proof.
  intros v m. revert l v. induction m as [|c m IH] using rev_ind; intros l v H F.
  - exists 0. split; [constructor|]. rewrite app_nil_r. cbn [length]. replace (v * 16 ^ Z.of_nat 0 + 0) with v by (cbn; lia). auto.
  - apply Forall_app in F as [F1 F2]. inversion F2 as [|x y (d & Hd) _]; subst. destruct (IH l v H F1) as (u & A & B).
    exists (16 * u + Z.of_N d). split; [constructor; auto; rewrite <- digit_c2d; auto|]. rewrite app_assoc.
    replace (v * 16 ^ Z.of_nat (length (m ++ [c])) + (16 * u + Z.of_N d)) with (16 * (v * 16 ^ Z.of_nat (length m) + u) + Z.of_N d).
    + constructor; auto. rewrite <- digit_c2d; auto.
    + rewrite app_length, Nat2Z.inj_add. cbn [length]. rewrite Z.pow_add_r by lia. change (16 ^ Z.of_nat 1) with 16. lia.
Qed.
Lemma hexval_digits l v : hexval l v -> Forall (fun c => exists d, char2digit c = Some d) l.
Proof. induction 1; auto. apply Forall_app. split; auto. constructor; auto. exists d. rewrite digit_c2d. auto. Qed.
Lemma hexval_fun l v : hexval l v -> forall u, hexval l u -> v = u.
Proof.
  induction 1; intros u Hu; inversion Hu; subst; auto.
  - destruct l; discriminate.
  - destruct l; discriminate.
  - match goal with E : ?a ++ [_] = _ ++ [_] |- _ => apply app_inj_tail in E as [-> ->] end. match goal with A : hexval l ?v0 |- _ => rewrite (IHhexval v0 A) end. congruence.
Qed.
Lemma pairs_len l b : hex_pairs l = Some b -> length l = (2 * length b)%nat.
Proof.
  revert b. assert (G : forall n l b, (length l <= n)%nat -> hex_pairs l = Some b -> length l = (2 * length b)%nat).
  { induction n as [|n IH]; intros l0 b L H; destruct l0 as [|x [|y r]]; cbn [hex_pairs length] in *; try lia; try discriminate; try (injection H as <-; reflexivity).
    destruct (char2digit x), (char2digit y), (hex_pairs r) as [t|] eqn:E; try discriminate. injection H as <-. cbn [length]. apply IH in E; lia. }
  intros b. apply (G (length l)). auto.
Qed.
Lemma pairs_ok n : forall l, (length l <= 2 * n)%nat -> Nat.even (length l) = true -> Forall (fun c => exists d, char2digit c = Some d) l ->
  exists b, hex_pairs l = Some b /\ hexval l (import_bytes b).
Proof.
  induction n as [|n IH]; intros l L E F.
  - destruct l; [|cbn in L; lia]. exists []. split; [reflexivity|]. constructor.
  - destruct l as [|x [|y r]]; [exists []; split; [reflexivity|constructor]|discriminate|].
    inversion F as [|? ? (dx & Hx) F1]; subst. inversion F1 as [|? ? (dy & Hy) F2]; subst.
    destruct (IH r) as (b & Hb & Vb); [cbn [length] in L; lia|exact E|auto|].
    cbn [hex_pairs]. rewrite Hx, Hy, Hb. eexists. split; [reflexivity|].
    assert (H2 : hexval [x; y] (16 * (16 * 0 + Z.of_N dx) + Z.of_N dy)).
    { apply (hv_snoc [x] _ y dy); [|rewrite <- digit_c2d; auto]. apply (hv_snoc [] 0 x dx); [constructor|rewrite <- digit_c2d; auto]. }
    destruct (hexval_app _ _ _ H2 F2) as (u & A & B). rewrite (hexval_fun _ _ A _ Vb) in B. clear A u.
    unfold import_bytes at 1. rewrite be_val_cons, N2Z.inj_add, N2Z.inj_mul, N2Z.inj_pow, nat_N_Z, N.shiftl_mul_pow2, N2Z.inj_add, N2Z.inj_mul.
    change (Z.of_N (2 ^ 4)) with 16. change (Z.of_N 256) with (16 ^ 2). rewrite <- Z.pow_mul_r by lia.
    rewrite (pairs_len r b Hb) in B. rewrite Nat2Z.inj_mul in B. change (Z.of_nat 2) with 2 in B. fold (import_bytes b).
    replace ((Z.of_N dx * 16 + Z.of_N dy) * 16 ^ (2 * Z.of_nat (length b)) + import_bytes b) with ((16 * (16 * 0 + Z.of_N dx) + Z.of_N dy) * 16 ^ (2 * Z.of_nat (length b)) + import_bytes b) by lia. exact B.
Qed.
Lemma hex_bytes_ok l v : l <> [] -> hexval l v -> exists b, hex_bytes l = Some b /\ import_bytes b = v.
Proof.
  intros NE H. pose proof (hexval_digits _ _ H) as F. unfold hex_bytes. destruct (Nat.odd (length l)) eqn:O.
  - destruct l as [|c r]; [congruence|]. inversion F as [|? ? (d & Hd) F2]; subst. rewrite Hd.
    assert (Ev : Nat.even (length r) = true) by (cbn [length] in O; rewrite Nat.odd_succ in O; auto).
    destruct (pairs_ok (length r) r ltac:(lia) Ev F2) as (b & Hb & Vb). rewrite Hb. eexists. split; [reflexivity|].
    assert (H1 : hexval [c] (16 * 0 + Z.of_N d)) by (apply (hv_snoc [] 0 c d); [constructor|rewrite <- digit_c2d; auto]).
    destruct (hexval_app _ _ _ H1 F2) as (u & A & B). rewrite (hexval_fun _ _ A _ Vb) in B. apply (hexval_fun _ _ B) in H. rewrite <- H.
    unfold import_bytes at 1. rewrite be_val_cons, N2Z.inj_add, N2Z.inj_mul, N2Z.inj_pow, nat_N_Z. change (Z.of_N 256) with (16 ^ 2). rewrite <- Z.pow_mul_r by lia.
    rewrite (pairs_len r b Hb), Nat2Z.inj_mul. change (Z.of_nat 2) with 2. fold (import_bytes b). lia.
  - assert (Ev : Nat.even (length l) = true) by (rewrite <- Nat.negb_odd, O; auto).
    destruct (pairs_ok (length l) l ltac:(lia) Ev F) as (b & Hb & Vb). exists b. split; auto. eapply hexval_fun; eauto.
Qed.
Lemma hex_bytes_none l : l <> [] -> (forall v, ~ hexval l v) -> hex_bytes l = None.
Proof.
  intros NE H. destruct (hex_bytes l) as [b|] eqn:E; auto. exfalso.
  assert (F : Forall (fun c => exists d, char2digit c = Some d) l).
  { assert (P : forall n l b, (length l <= n)%nat -> hex_pairs l = Some b -> Forall (fun c => exists d, char2digit c = Some d) l).
    { induction n as [|n IH]; intros l0 b0 L H0; destruct l0 as [|x [|y r]]; cbn [hex_pairs length] in *; try lia; try discriminate; auto.
      destruct (char2digit x) eqn:X, (char2digit y) eqn:Y, (hex_pairs r) eqn:R; try discriminate. constructor; [eauto|]. constructor; [eauto|]. eapply IH; eauto. lia. }
    unfold hex_bytes in E. destruct (Nat.odd (length l)).
    - destruct l as [|c r]; [congruence|]. destruct (char2digit c) eqn:C, (hex_pairs r) eqn:R; try discriminate. constructor; [eauto|]. eapply P; eauto.
    - eapply P; eauto. }
  destruct (hexval_app [] 0 l (hv_nil) F) as (u & A & _). apply (H u A).
Qed.
(** [digits] is what follows the optional sign and prefix. *)
Definition unprefixed (d : list N) : Prop := match d with c :: e :: _ => ~ (c = 48 /\ e = 120)%N | _ => True end.
Theorem C24_hexstring : forall (neg : bool) (pre d : list N),
  (pre = [] /\ unprefixed d /\ hd 0%N d <> 45%N \/ pre = [48; 120]%N) -> d <> [] ->
  let s := (if neg then [45]%N else []) ++ pre ++ d in
  (forall v, hexval d v -> set_hex s = Some (if neg then - v else v)) /\
  ((forall v, ~ hexval d v) -> set_hex s = None).
Proof.
  intros neg pre d HP NE s.
  assert (STEP : set_hex s = match hex_bytes d with None => None | Some b => Some (if neg then - import_bytes b else import_bytes b) end).
  { unfold s, set_hex. destruct HP as [(-> & U & ND)| ->].
    - assert (P : (match d with c :: d0 :: r => if (c =? 48)%N && (d0 =? 120)%N then r else d | _ => d end) = d).
      { destruct d as [|c [|e r]]; auto. cbn in U. destruct (N.eqb_spec c 48), (N.eqb_spec e 120); cbn; auto. tauto. }
      destruct neg; cbn [app].
      + change (45 =? 45)%N with true. cbv iota beta. rewrite P. destruct d; [congruence|auto].
      + destruct d as [|c r]; [congruence|]. cbn in ND. destruct (N.eqb_spec c 45); [congruence|]. rewrite P. auto.
    - destruct neg; cbn [app]; [change (45 =? 45)%N with true|change (48 =? 45)%N with false]; cbv iota beta; change ((48 =? 48)%N && (120 =? 120)%N) with true; cbv iota; destruct d; [congruence|auto|congruence|auto]. }
  rewrite STEP. split.
  - intros v Hv. destruct (hex_bytes_ok d v NE Hv) as (b & -> & <-). auto.
  - intros Hn. rewrite hex_bytes_none; auto.
Qed.
Example C24_hexstring_ex : set_hex [45; 48; 120; 49; 65; 102]%N = Some (-431) /\ hexval [49; 65; 102]%N 431 /\ set_hex [48; 120; 103]%N = None.
Proof.
  split; [vm_compute; reflexivity|]. split; [|vm_compute; reflexivity].
  apply (hv_snoc [49; 65]%N 26 102%N 15%N); [|reflexivity]. apply (hv_snoc [49]%N 1 65%N 10%N); [|reflexivity]. apply (hv_snoc [] 0 49%N 1%N); [constructor|reflexivity].
Qed.

(** The byte string of a value is the shortest big-endian encoding of its absolute value (one byte for 0). *)
Theorem C24_get_string : forall v, exists l, get_string v = Some l /\ Forall (fun b => (b < 256)%N) l /\ Z.of_N (be_val l) = Z.abs v /\ l <> [] /\ (Z.abs v <> 0 -> hd 0%N l <> 0%N).
Proof.
  intros v. unfold get_string. set (a := Z.abs v).
  destruct (Z.eq_dec v 0) as [->|NZ].
  - exists [0%N]. vm_compute. repeat split; auto; try discriminate.
  - assert (A : 0 < a) by (unfold a; lia). unfold bit_size. destruct (Z.eqb_spec v 0) as [|_]; [lia|]. fold a.
    set (n := Z.to_nat ((Z.log2 a + 1 + 7) / 8)). pose proof (Z.log2_nonneg a) as LN. pose proof (Z.log2_spec a A) as LS.
    pose proof (Z.div_mod (Z.log2 a + 1 + 7) 8 ltac:(lia)) as DM. pose proof (Z.mod_pos_bound (Z.log2 a + 1 + 7) 8 ltac:(lia)) as MB.
    set (m := (Z.log2 a + 1 + 7) / 8) in *. assert (Hn : Z.of_nat n = m) by (unfold n; rewrite Z2Nat.id; lia).
    assert (UP : a < 256 ^ Z.of_nat n).
    { rewrite Hn. change 256 with (2 ^ 8). rewrite <- Z.pow_mul_r by lia. eapply Z.lt_le_trans; [apply LS|]. apply Z.pow_le_mono_r; lia. }
    unfold export_bytes. destruct (Z.eqb_spec v 0) as [|_]; [lia|]. fold a. destruct (Z.ltb_spec a (256 ^ Z.of_nat n)); [|lia].
    rewrite skipn_all2 by (rewrite repeat_length; auto). rewrite app_nil_r.
    assert (EA : Z.abs_N v = Z.abs_N a) by (unfold a; lia). rewrite EA, be_bytes_enc by lia.
    eexists. split; [reflexivity|]. split; [apply be_bytes_ok|]. split; [apply (import_be n a); lia|].
    assert (n <> O) by lia. destruct n as [|n0]; [congruence|]. cbn [be_bytes hd]. split; [discriminate|]. intros _ Z0.
    assert (LOW : 256 ^ Z.of_nat n0 <= a).
    { change 256 with (2 ^ 8). rewrite <- Z.pow_mul_r by lia. eapply Z.le_trans; [|apply LS]. apply Z.pow_le_mono_r; lia. }
    assert (P : 0 < 256 ^ Z.of_nat n0) by (apply Z.pow_pos_nonneg; lia).
    rewrite Nat2Z.inj_succ, Z.pow_succ_r in UP by lia. assert (Q : 1 <= a / 256 ^ Z.of_nat n0) by (apply Z.div_le_lower_bound; lia).
    assert (Q2 : a / 256 ^ Z.of_nat n0 < 256) by (apply Z.div_lt_upper_bound; lia). rewrite Z.mod_small in Z0 by lia. lia.
Qed.

(** ** C23: every history of field operations *)
Theorem C23_history : forall ops outs s, fspec_run [] ops outs s -> exists fs, f_run [] ops = Some (fs, outs).
Proof.
  assert (G : forall ops s fs outs s', RF s fs -> fspec_run s ops outs s' -> exists fs', f_run fs ops = Some (fs', outs)).
  { induction ops as [|o ops IH]; intros s fs outs s' HR H; inversion H; subst; [exists fs; reflexivity|].
    match goal with A : fspec _ _ _ _ |- _ => destruct (fstep_ok _ _ _ _ _ HR A) as (fs1 & E & R1) end.
    match goal with A : fspec_run _ ops _ _ |- _ => destruct (IH _ _ _ _ R1 A) as (fs2 & E2) end.
    exists fs2. cbn [f_run]. rewrite E, E2. auto. }
  intros ops outs s H. apply (G ops [] [] outs s); auto. constructor.
Qed.
(** In every reachable state each field with a specified value is in range and its bytes encode it. *)
Theorem C23_storing : forall t x f v, wf_ty t -> RS t x f -> storable t v ->
  exists f', f_set false f v = Some f' /\ f_value f' = stored t v /\ f_bytes f' = encoding t (stored t v) /\ lo t <= stored t v <= hi t /\
    (ty_sat t = false -> exists k, v = stored t v + k * 2 ^ Z.of_nat (ty_bits t)).
Proof.
  intros t x f v W R S. destruct (RS_set t x f v R S) as (f' & E & A1 & A2 & A3 & A4 & A5 & A6 & A7 & A8 & A9 & A10 & A11 & A12 & A13).
  exists f'. split; auto. split; auto. split; auto. split; auto. intros NS. unfold stored. rewrite NS.
  exists ((v - lo t) / 2 ^ Z.of_nat (ty_bits t)). pose proof (pow_pos (Z.of_nat (ty_bits t)) ltac:(lia)).
  pose proof (Z.div_mod (v - lo t) (2 ^ Z.of_nat (ty_bits t)) ltac:(lia)). lia.
Qed.

(** Finding: a wrapping signed field does not wrap results in the upper half of the unsigned range: storing
    200 in an int<8> field leaves 200 in it. *)
Theorem C23_signed_wraps_refuted : ~ (forall n v fs a b, (1 < n)%nat -> f_run [] [FNew n true false false; FConst 0 v; FGet 0] = Some (fs, [FDone; FDone; FVal a b]) ->
  - 2 ^ (Z.of_nat n - 1) <= a < 2 ^ (Z.of_nat n - 1)).
Proof.
  intros H. destruct (f_run [] [FNew 8 true false false; FConst 0 200; FGet 0]) as [[fs outs]|] eqn:E; [|vm_compute in E; discriminate].
  assert (outs = [FDone; FDone; FVal 200 [200%N]]) by (vm_compute in E; congruence). subst. specialize (H 8%nat 200 fs 200 [200%N] ltac:(lia) E). vm_compute in H. destruct H; discriminate.
Qed.
(** ... but its bytes are right for every result. *)
Theorem C23_bytes_always_right : forall t x f v, RS t x f -> ty_sat t = false ->
  exists f', f_set false f v = Some f' /\ f_bytes f' = encoding t v.
Proof.
  intros t x f v R S. destruct (ty_signed t) eqn:SG.
  - destruct (Z_le_gt_dec (2 ^ (Z.of_nat (ty_bits t) - 1)) v) as [A|A]; [destruct (Z_lt_ge_dec v (2 ^ Z.of_nat (ty_bits t))) as [B|B]|].
    + pose proof R as (A1 & A2 & A3 & A4 & A5 & A6 & A7 & A8 & A9 & A10 & A11 & A12 & A13). destruct (A13 SG) as [W1 _].
      unfold f_set, f_export, f_get. cbn [with_value f_bytes f_sat f_signed f_mask f_max f_min f_nbytes f_value].
      rewrite A2, A3, A4, A7, A8, A9, A12, S, SG, encoding_len. cbn [negb]. unfold lo, hi. rewrite SG.
      pose proof (pow_pos (Z.of_nat (ty_bits t) - 1) ltac:(lia)). destruct (Z.ltb_spec v (- 2 ^ (Z.of_nat (ty_bits t) - 1))); [lia|].
      destruct (Z.gtb_spec v (2 ^ Z.of_nat (ty_bits t) - 1)); [lia|]. cbn [orb]. destruct (Z.geb_spec v 0); [|lia].
      rewrite export_ok by (auto; lia). eexists. split; [reflexivity|]. unfold encoding. rewrite (Z.mod_small v) by lia. destruct (v =? v); auto.
    + destruct (RS_set t x f v R) as (f' & E & RR); [intros _ _; lia|]. exists f'. split; auto. destruct RR as (_ & _ & _ & _ & _ & _ & _ & _ & _ & _ & _ & E2 & W).
      rewrite E2. unfold encoding. f_equal. unfold stored. rewrite S. pose proof (pow_pos (Z.of_nat (ty_bits t)) ltac:(lia)). rewrite Zplus_mod_idemp_l. f_equal. lia.
    + destruct (RS_set t x f v R) as (f' & E & RR); [intros _ _; lia|]. exists f'. split; auto. destruct RR as (_ & _ & _ & _ & _ & _ & _ & _ & _ & _ & _ & E2 & W).
      rewrite E2. unfold encoding. f_equal. unfold stored. rewrite S. pose proof (pow_pos (Z.of_nat (ty_bits t)) ltac:(lia)). rewrite Zplus_mod_idemp_l. f_equal. lia.
  - destruct (RS_set t x f v R) as (f' & E & RR); [intros X; congruence|]. exists f'. split; auto. destruct RR as (_ & _ & _ & _ & _ & _ & _ & _ & _ & _ & _ & E2 & W).
    rewrite E2. unfold encoding. f_equal. unfold stored. rewrite S. pose proof (pow_pos (Z.of_nat (ty_bits t)) ltac:(lia)). rewrite Zplus_mod_idemp_l. f_equal. lia.
Qed.

(** Finding: a reset variable-length field keeps its old value and gets mask 1, so that assigning from it
    (here the 8-bit value 1 of an earlier packet) makes the number exporter run with a word size of 0. *)
Theorem C23_reset_varbit_assign_refuted : ~ (forall n b, f_run [] [FNew 0 false false true; FNew 0 false false true; FExtractVL 0 n b; FResetVL 0] <> None ->
  f_run [] [FNew 0 false false true; FNew 0 false false true; FExtractVL 0 n b; FResetVL 0; FAssignVL 1 0] <> None).
Proof. intros H. apply (H 8%nat [1%N]); vm_compute; congruence. Qed.
(** Finding: with the option that makes reads of invalid headers return zero, a write to a field of an
    invalid header leaves bytes and value in disagreement. *)
Theorem C23_write_invalid_zero_refuted : ~ (forall t x f v f', RS t x f -> f_set true f v = Some f' -> f_bytes f' = encoding t (f_value f')).
Proof.
  intros H. set (f := mkF 8 1 [0%N] false false true false 255 255 0 0). set (f' := mkF 8 1 [0%N] false false true false 255 255 0 5).
  assert (R : RS (mkTy 8 false false false) 0 f) by (unfold RS; repeat split; try (vm_compute; congruence); discriminate).
  specialize (H _ _ f 5 f' R ltac:(vm_compute; reflexivity)). vm_compute in H. discriminate.
Qed.

(** ** Non-vacuity: a history with wrapping, saturation, signed values and a variable-length field *)
Definition ex_f_ops : list fop :=
  [FNew 12 false false false; FNew 8 true true false; FNew 5 true false false; FNew 0 false false true;
   FConst 0 5000; FGet 0; FOp DMul 1 0 0; FGet 1; FConst 2 (-17); FGet 2; FOp DSub 0 2 1; FGet 0;
   FResetVL 3; FExtractVL 3 16 [1; 2]%N; FGet 3; FOp DShr 0 3 2].
Example ex_f_run : option_map snd (f_run [] (firstn 15 ex_f_ops)) =
  Some [FDone; FDone; FDone; FDone; FDone; FVal 904 [3; 136]%N; FDone; FVal 127 [127]%N; FDone; FVal 15 [15]%N; FDone; FVal 3984 [15; 144]%N; FDone; FDone; FVal 258 [1; 2]%N].
Proof. vm_compute. reflexivity. Qed.
Example ex_f_spec : exists s, fspec_run [] [FNew 12 false false false; FNew 5 true false false; FConst 0 5000; FConst 1 (-17); FOp DMul 0 0 1; FGet 0; FGet 1]
  [FDone; FDone; FDone; FDone; FDone; FVal 1272 [4; 248]%N; FVal 15 [15]%N] s.
Proof.
  eexists. eapply fsr_cons; [apply fs_new; intros X; discriminate X|]. eapply fsr_cons; [apply fs_new; intros _; cbn; split; [lia|auto]|].
  eapply fsr_cons; [eapply fs_const; [reflexivity|intros X; discriminate X]|].
  eapply fsr_cons; [eapply fs_const; [reflexivity|intros _ _; cbn [ty_bits]; lia]|].
  eapply fsr_cons; [eapply fs_op with (r := 904 * 15); try reflexivity; [apply (os_mul 904 15)|intros X; discriminate X]|].
  eapply fsr_cons; [apply (fs_get _ 0 (mkTy 12 false false false) 1272); reflexivity|]. eapply fsr_cons; [apply (fs_get _ 1 (mkTy 5 true false false) 15); reflexivity|]. constructor.
Qed.

Print Assumptions C24_operations.
Print Assumptions C24_refuses.
Print Assumptions C24_any_shift_amount_refuted.
Print Assumptions C24_zero_width_cast_refuted.
Print Assumptions C24_hexstring.
Print Assumptions C24_get_string.
Print Assumptions C23_history.
Print Assumptions C23_storing.
Print Assumptions C23_signed_wraps_refuted.
Print Assumptions C23_bytes_always_right.
Print Assumptions C23_reset_varbit_assign_refuted.
Print Assumptions C23_write_invalid_zero_refuted.
