From Coq Require Import List Arith NArith ZArith Bool Lia Permutation Sorting.Sorted.
From Verif Require Import Base Bits Bytes EntryListModel EntryListSpec EntryListProofs
  MatchUnitSpec KeyBuilderModel KeyBuilderSpec KeyBuilderProofs.
Import ListNotations.

Definition chunk0 (key : list N) (nbits : nat) : list N :=
  match key with [] => [] | b :: r => N.land b (byte0_mask nbits) :: r end.

Lemma append_param_ok data key nbits : key <> [] ->
  append_param data (length data) key nbits = Some (data ++ chunk0 key nbits).
Proof.
  intros H. destruct key as [|b r]; [congruence|]. unfold append_param, chunk0.
  rewrite nth_error_app2, Nat.sub_diag by auto. cbn [nth_error]. f_equal.
  induction data as [|x data IH]; cbn [app length list_set]; [reflexivity|]. f_equal. exact IH.
Qed.

Lemma chunk0_props key nbits : 0 < nbits -> bytes_ok key -> length key = nbytes_of nbits ->
  bytes_ok (chunk0 key nbits) /\ length (chunk0 key nbits) = nbytes_of nbits /\
  be_val (chunk0 key nbits) = (be_val key mod 2 ^ N.of_nat nbits)%N.
Proof.
  intros H0 Hk L. pose proof (Nat.div_mod nbits 8 ltac:(lia)) as DM.
  pose proof (Nat.mod_upper_bound nbits 8 ltac:(lia)) as UB.
  set (q := nbits / 8) in *. set (r := nbits mod 8) in *.
  assert (NB : nbytes_of nbits = if r =? 0 then q else S q).
  { unfold nbytes_of. destruct (Nat.eqb_spec r 0).
    - symmetry. apply (Nat.div_unique _ _ q 7); lia.
    - symmetry. apply (Nat.div_unique _ _ (S q) (r - 1)); lia. }
  destruct key as [|b t].
  { exfalso. cbn [length] in L. rewrite NB in L. destruct (Nat.eqb_spec r 0); lia. }
  apply bytes_ok_cons in Hk as [Hb Ht]. cbn [chunk0 length] in *.
  split; [|split; auto].
  { apply bytes_ok_cons. split; auto. apply land_byte_lt; auto. }
  rewrite !be_val_cons. unfold byte0_mask. fold r. destruct (Nat.eqb_spec r 0) as [E|E].
  - change 255%N with (N.ones 8). rewrite N.land_ones, (N.mod_small b) by exact Hb.
    symmetry. apply N.mod_small.
    replace nbits with (8 * S (length t)) by lia.
    pose proof (be_val_lt2 (b :: t)) as V. cbn [length] in V. rewrite be_val_cons in V. apply V.
    apply bytes_ok_cons; auto.
  - rewrite N.shiftl_1_l. replace (2 ^ N.of_nat r - 1)%N with (N.ones (N.of_nat r)) by (rewrite N.ones_equiv; lia).
    rewrite N.land_ones. replace nbits with (8 * length t + r) by lia.
    rewrite Nat2N.inj_add, N.pow_add_r, <- pow256, N.mod_mul_r by (apply N.pow_nonzero; lia).
    rewrite (N.add_comm (b * _)), N.mod_add, N.div_add by (apply N.pow_nonzero; lia).
    pose proof (be_val_lt _ Ht). rewrite (N.mod_small (be_val t)), (N.div_small (be_val t)) by auto.
    rewrite N.add_0_l. lia.
Qed.

(** masks of prefixes *)
Definition pmask (p size : nat) : list N :=
  repeat 255%N (p / 8) ++
  (if p mod 8 =? 0 then repeat 0%N (size - p / 8)
   else N.shiftl (N.ones (N.of_nat (p mod 8))) (N.of_nat (8 - p mod 8)) :: repeat 0%N (size - p / 8 - 1)).

Lemma skipn_repeat {A} (x : A) a b : skipn a (repeat x b) = repeat x (b - a).
Proof. revert b; induction a as [|a IH]; intros [|b]; simpl; auto. Qed.

Lemma list_set_app_at {A} (l m : list A) x : list_set (l ++ m) (length l) x =
  l ++ match m with [] => [] | _ :: r => x :: r end.
Proof. induction l as [|y l IH]; cbn; [destruct m; reflexivity|]. rewrite IH. reflexivity. Qed.

Lemma create_mask_ok p size : p <= 8 * size -> create_mask (Z.of_nat p) size = pmask p size.
Proof.
  intros H. unfold create_mask, pmask.
  pose proof (Nat.div_mod p 8 ltac:(lia)) as DM. pose proof (Nat.mod_upper_bound p 8 ltac:(lia)) as UB.
  change 8%Z with (Z.of_nat 8). rewrite <- Nat2Z.inj_div, <- Nat2Z.inj_mod, Nat2Z.id, skipn_repeat.
  set (q := p / 8) in *. set (r := p mod 8) in *.
  destruct (Nat.eqb_spec r 0) as [E|E].
  - rewrite E. reflexivity.
  - destruct (Z.eqb_spec (Z.of_nat r) 0); [lia|].
    rewrite <- (repeat_length 255%N q) at 3. rewrite list_set_app_at. f_equal.
    destruct (size - q) as [|k] eqn:K; [lia|]. cbn [repeat]. replace (S k - 1) with k by lia. f_equal.
    assert (R : r = 1 \/ r = 2 \/ r = 3 \/ r = 4 \/ r = 5 \/ r = 6 \/ r = 7) by lia.
    clear - R. destruct R as [->|[->|[->|[->|[->|[->| ->]]]]]]; reflexivity.
Qed.

Lemma pmask_length p size : p <= 8 * size -> length (pmask p size) = size.
Proof.
  intros H. unfold pmask.
  pose proof (Nat.div_mod p 8 ltac:(lia)) as DM. pose proof (Nat.mod_upper_bound p 8 ltac:(lia)) as UB.
  rewrite app_length, repeat_length. destruct (Nat.eqb_spec (p mod 8) 0); cbn [length]; rewrite repeat_length; lia.
Qed.
Lemma pmask_bytes p size : bytes_ok (pmask p size).
Proof.
  unfold pmask. pose proof (Nat.mod_upper_bound p 8 ltac:(lia)) as UB.
  apply bytes_ok_app. split; [apply bytes_ok_repeat; lia|].
  destruct (Nat.eqb_spec (p mod 8) 0) as [E|E]; [apply bytes_ok_repeat; lia|].
  apply bytes_ok_cons. split; [|apply bytes_ok_repeat; lia].
  assert (R : p mod 8 = 1 \/ p mod 8 = 2 \/ p mod 8 = 3 \/ p mod 8 = 4 \/ p mod 8 = 5 \/ p mod 8 = 6 \/ p mod 8 = 7) by lia.
  clear - R. destruct R as [->|[->|[->|[->|[->|[->| ->]]]]]]; reflexivity.
Qed.

Lemma pmask_val p size : p <= 8 * size ->
  be_val (pmask p size) = N.shiftl (N.ones (N.of_nat p)) (N.of_nat (8 * size - p)).
Proof.
  intros H. unfold pmask.
  pose proof (Nat.div_mod p 8 ltac:(lia)) as DM. pose proof (Nat.mod_upper_bound p 8 ltac:(lia)) as UB.
  set (q := p / 8) in *. set (r := p mod 8) in *.
  rewrite be_val_app, be_val_ones. rewrite !N.shiftl_mul_pow2, !N.ones_equiv.
  pose proof (N.pow_nonzero 2 (N.of_nat (8 * q)) ltac:(lia)).
  destruct (Nat.eqb_spec r 0) as [E|E].
  - rewrite be_val_zeros, repeat_length, pow256. replace (8 * (size - q)) with (8 * size - p) by lia.
    replace (N.of_nat p) with (N.of_nat (8 * q)) by lia. apply N.add_0_r.
  - rewrite be_val_cons, be_val_zeros. cbn [length]. rewrite !repeat_length, !pow256.
    replace (8 * size - p) with ((8 - r) + 8 * (size - q - 1)) by lia.
    replace (8 * S (size - q - 1)) with (r + (8 - r) + 8 * (size - q - 1)) by lia.
    replace p with (8 * q + r) by lia.
    rewrite !Nat2N.inj_add, !N.pow_add_r.
    pose proof (N.pow_nonzero 2 (N.of_nat r) ltac:(lia)). pose proof (N.pow_nonzero 2 (N.of_nat (8 - r)) ltac:(lia)).
    set (a := (2 ^ N.of_nat (8 * q))%N) in *. set (b := (2 ^ N.of_nat r)%N) in *.
    set (c := (2 ^ N.of_nat (8 - r))%N) in *. set (d := (2 ^ N.of_nat (8 * (size - q - 1)))%N) in *.
    assert (A : exists u, a = N.succ u) by (exists (N.pred a); lia).
    assert (B : exists v, b = N.succ v) by (exists (N.pred b); lia).
    clearbody a b c d. destruct A as [u ->], B as [v ->].
    replace (N.succ u * N.succ v)%N with (N.succ (u * v + u + v)) by nia.
    rewrite !N.pred_succ. nia.
Qed.

Lemma land_pmask x p w : (x < 2 ^ N.of_nat w)%N -> p <= w ->
  N.land x (N.shiftl (N.ones (N.of_nat p)) (N.of_nat (w - p))) =
  N.shiftl (N.shiftr x (N.of_nat (w - p))) (N.of_nat (w - p)).
Proof.
  intros Hx H. apply N.bits_inj. intros i. rewrite N.land_spec.
  destruct (N.lt_ge_cases i (N.of_nat (w - p))) as [L|L].
  - rewrite !N.shiftl_spec_low by auto. apply andb_false_r.
  - rewrite !N.shiftl_spec_high', N.shiftr_spec' by auto. replace (i - N.of_nat (w - p) + N.of_nat (w - p))%N with i by lia.
    destruct (N.lt_ge_cases i (N.of_nat w)) as [M|M].
    + rewrite N.ones_spec_low by lia. apply andb_true_r.
    + rewrite <- (N2Nat.id i), (testbit_high x w) by (auto; lia). reflexivity.
Qed.

Lemma popcount_sweep :
  forallb (fun r => (Z.of_N (popcount8 (N.shiftl (N.ones (N.of_nat r)) (N.of_nat (8 - r)))) =? Z.of_nat r)%Z)
    (seq 0 8) = true.
Proof. vm_compute. reflexivity. Qed.

Lemma pref_fold_app a b z :
  fold_left (fun pref c => if (c =? 255)%N then (pref + 8)%Z else (pref + Z.of_N (popcount8 c))%Z) (a ++ b) z =
  fold_left (fun pref c => if (c =? 255)%N then (pref + 8)%Z else (pref + Z.of_N (popcount8 c))%Z) b
   (fold_left (fun pref c => if (c =? 255)%N then (pref + 8)%Z else (pref + Z.of_N (popcount8 c))%Z) a z).
Proof. apply fold_left_app. Qed.

Lemma pref_len_pmask p size : p <= 8 * size -> pref_len_from_mask (pmask p size) = Z.of_nat p.
Proof.
  intros H. unfold pref_len_from_mask, pmask. rewrite pref_fold_app.
  pose proof (Nat.div_mod p 8 ltac:(lia)) as DM. pose proof (Nat.mod_upper_bound p 8 ltac:(lia)) as UB.
  set (q := p / 8) in *. set (r := p mod 8) in *.
  assert (A : forall k z, fold_left (fun pref c => if (c =? 255)%N then (pref + 8)%Z else (pref + Z.of_N (popcount8 c))%Z)
     (repeat 255%N k) z = (z + 8 * Z.of_nat k)%Z).
  { induction k as [|k IH]; intros z; [cbn; lia|]. cbn [repeat fold_left]. rewrite IH.
    change (255 =? 255)%N with true. cbv iota. lia. }
  assert (B : forall k z, fold_left (fun pref c => if (c =? 255)%N then (pref + 8)%Z else (pref + Z.of_N (popcount8 c))%Z)
     (repeat 0%N k) z = z).
  { induction k as [|k IH]; intros z; [reflexivity|]. cbn [repeat fold_left]. rewrite IH.
    change (popcount8 0) with 0%N. change (0 =? 255)%N with false. cbv iota. cbn. lia. }
  rewrite A. destruct (Nat.eqb_spec r 0) as [E|E].
  - rewrite B. lia.
  - cbn [fold_left]. rewrite B.
    pose proof (proj1 (forallb_forall _ _) popcount_sweep r) as P.
    rewrite Z.eqb_eq in P. rewrite P by (apply in_seq; lia).
    destruct (N.eqb_spec (N.shiftl (N.ones (N.of_nat r)) (N.of_nat (8 - r))) 255) as [E1|E1]; [|lia].
    exfalso. assert (R : r = 1 \/ r = 2 \/ r = 3 \/ r = 4 \/ r = 5 \/ r = 6 \/ r = 7) by lia.
    clear - R E1. destruct R as [R|[R|[R|[R|[R|[R|R]]]]]]; rewrite R in E1; discriminate.
Qed.

(** ** memcmp *)
Lemma memcmp_gt_ok a b : bytes_ok a -> bytes_ok b -> length a = length b ->
  memcmp_gt (length a) a b = (be_val b <? be_val a)%N.
Proof.
  intros Ha; revert b; induction Ha as [|x a Hx Ha IH]; intros [|y b] Hb L; cbn [length] in L; try lia; auto.
  apply bytes_ok_cons in Hb as [Hy Hb]. cbn [memcmp_gt length]. rewrite !be_val_cons.
  pose proof (be_val_lt _ Ha) as A. pose proof (be_val_lt _ Hb) as B.
  assert (LL : length b = length a) by lia. rewrite LL in B |- *.
  set (p := (256 ^ N.of_nat (length a))%N) in *.
  destruct (N.eqb_spec x y) as [E|E].
  - subst y. rewrite IH by (auto; lia).
    destruct (N.ltb_spec (be_val b) (be_val a)), (N.ltb_spec (x * p + be_val b) (x * p + be_val a)); auto; lia.
  - destruct (N.ltb_spec y x), (N.ltb_spec (y * p + be_val b) (x * p + be_val a)); auto; nia.
Qed.

Lemma mt_eqb_iff a b : mt_eqb a b = true <-> a = b.
Proof. destruct a, b; cbn; split; intros; try discriminate; reflexivity. Qed.

Lemma sane_param_iff f p : field_ok f -> param_typed p -> sane_param f p = true <-> param_acceptable f p.
Proof.
  intros (_ & B32 & _) (Bk & Bm & PR). unfold sane_param, param_acceptable.
  rewrite !andb_true_iff, mt_eqb_iff, Nat.eqb_eq.
  split.
  - intros [[T L] H]. rewrite T in H. split; [auto|split; [auto|]]. destruct (f_type f); auto.
    + apply andb_true_iff in H as [H1 H2]. apply Nat.eqb_eq in H1. split; auto.
      rewrite <- L, memcmp_gt_ok in H2 by (auto; lia). apply negb_true_iff, N.ltb_ge in H2. auto.
    + apply negb_true_iff, Z.ltb_ge in H.
      destruct (Z.neg_nonneg_cases (p_plen p)) as [Ng|Ng].
      * rewrite <- (Z.mod_unique (p_plen p) (2 ^ 64) (-1) (p_plen p + 2 ^ 64)) in H by lia. lia.
      * rewrite Z.mod_small in H by lia. lia.
    + apply Nat.eqb_eq; auto.
  - intros (T & L & H). rewrite T. split; [split; auto|]. destruct (f_type f); auto.
    + destruct H as [H1 H2]. apply andb_true_iff. split; [apply Nat.eqb_eq; auto|].
      rewrite <- L, memcmp_gt_ok by (auto; lia). apply negb_true_iff, N.ltb_ge. auto.
    + apply negb_true_iff, Z.ltb_ge. rewrite Z.mod_small; lia.
    + apply Nat.eqb_eq; auto.
Qed.

(** ** Ternary and range matching on strings *)
Lemma byte_ternary_land d m k : byte_ternary d m k <-> N.land k m = N.land d m.
Proof.
  unfold byte_ternary. split.
  - intros H. apply N.bits_inj. intros j. rewrite !N.land_spec. specialize (H j).
    destruct (N.testbit m j); [rewrite H; auto|rewrite !andb_false_r; auto].
  - intros E j Hj. apply (f_equal (fun x => N.testbit x j)) in E. rewrite !N.land_spec, Hj, !andb_true_r in E. exact E.
Qed.

Lemma map2_eq_nth a b m : length a = length m -> length b = length m ->
  map2 N.land a m = map2 N.land b m <->
  (forall i, i < length m -> N.land (nth i a 0%N) (nth i m 0%N) = N.land (nth i b 0%N) (nth i m 0%N)).
Proof.
  intros La Lb. split.
  - intros E i Hi. apply (f_equal (fun l => nth i l 0%N)) in E.
    rewrite !(map2_nth N.land _ _ i 0%N 0%N 0%N) in E by lia. exact E.
  - intros H. apply (nth_ext _ _ 0%N 0%N).
    + rewrite !map2_length; lia.
    + intros i Hi. rewrite map2_length in Hi by lia.
      rewrite !(map2_nth N.land _ _ i 0%N 0%N 0%N) by lia. apply H. lia.
Qed.

Lemma ternary_from_iff off n k key : length (k_data k) = n -> length (k_mask k) = n -> length key = n -> off <= n ->
  ternary_matches_from off n k key <->
  map2 N.land (skipn off key) (skipn off (k_mask k)) = map2 N.land (skipn off (k_data k)) (skipn off (k_mask k)).
Proof.
  intros Ld Lm Lk Lo. rewrite map2_eq_nth by (rewrite !skipn_length; lia).
  unfold ternary_matches_from. rewrite skipn_length, Lm.
  assert (NS : forall (l : list N) i, nth i (skipn off l) 0%N = nth (off + i) l 0%N).
  { clear. intros l; revert off; induction l as [|x l IH]; intros [|o] i; cbn; auto. destruct i; auto. }
  split.
  - intros H i Hi. rewrite !NS. apply byte_ternary_land. apply H. lia.
  - intros H i Hi. apply byte_ternary_land. specialize (H (i - off) ltac:(lia)). rewrite !NS in H.
    replace (off + (i - off)) with i in H by lia. exact H.
Qed.

Lemma slice_app_mid (a b c : list N) off w : length a = off -> length b = w -> slice off w (a ++ b ++ c) = b.
Proof. intros La Lb. unfold slice. rewrite skipn_app_len by auto. apply firstn_app_len. auto. Qed.

Lemma range_from_iff {A} (D M K : A -> list N) (w : A -> nat) (n : nat) k key lr : forall pd pm pk rd rm rk,
  k_data k = pd ++ flat_map D lr ++ rd -> k_mask k = pm ++ flat_map M lr ++ rm -> key = pk ++ flat_map K lr ++ rk ->
  length pd = length pk -> length pm = length pk ->
  (forall i, In i lr -> length (D i) = w i /\ length (M i) = w i /\ length (K i) = w i) ->
  range_matches_from (map w lr) (length pk) n k key <->
  ((forall i, In i lr -> (be_val (D i) <= be_val (K i) <= be_val (M i))%N) /\
   ternary_matches_from (length pk + list_sum (map w lr)) n k key).
Proof.
  induction lr as [|x lr IH]; intros pd pm pk rd rm rk Ed Em Ek Ld Lm W; cbn [map range_matches_from].
  - cbn [list_sum fold_right]. rewrite Nat.add_0_r. split; [intros H; split; [intros i []|auto]|intros [_ H]; auto].
  - destruct (W x (or_introl eq_refl)) as (WD & WM & WK). cbn [flat_map] in *.
    rewrite <- !app_assoc in *.
    assert (I := IH (pd ++ D x) (pm ++ M x) (pk ++ K x) rd rm rk).
    rewrite <- !app_assoc, !app_length in I. specialize (I Ed Em Ek ltac:(lia) ltac:(lia)).
    rewrite WK in I. rewrite I by (intros; apply W; right; auto).
    assert (SK : slice (length pk) (w x) key = K x) by (rewrite Ek; apply slice_app_mid; auto).
    rewrite SK, Ed, Em. rewrite !slice_app_mid by (auto; lia).
    change (list_sum (w x :: map w lr)) with (w x + list_sum (map w lr)). rewrite Nat.add_assoc.
    split.
    + intros (B & R & T). split; auto. intros i [<-|Hi]; auto.
    + intros (B & T). split; [apply B; left; auto|]. split; auto. intros; apply B; right; auto.
Qed.
