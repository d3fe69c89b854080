From Coq Require Import List Arith NArith ZArith Bool Lia Permutation Sorting.Sorted.
From Verif Require Import Base Bits Bytes EntryListModel EntryListSpec EntryListProofs
  MatchUnitSpec KeyBuilderModel KeyBuilderSpec KeyBuilderProofs KeyBuilderProofs2.
Import ListNotations.

Lemma sorted_split (rk : nat -> nat) r l : StronglySorted (fun i j => rk i <= rk j) l ->
  l = filter (fun i => rk i <=? r) l ++ filter (fun i => negb (rk i <=? r)) l.
Proof.
  induction 1 as [|x l S IH A]; cbn [filter]; [reflexivity|].
  destruct (Nat.leb_spec (rk x) r); cbn [negb app].
  - rewrite <- IH. reflexivity.
  - assert (E : filter (fun i => rk i <=? r) l = []).
    { clear IH S. induction A as [|y l Hy _ IH]; cbn [filter]; [reflexivity|].
      destruct (Nat.leb_spec (rk y) r); [lia|]. exact IH. }
    rewrite E in *. cbn [app] in *. congruence.
Qed.

Lemma filter_perm_length {A} (f : A -> bool) l l' : Permutation l l' -> length (filter f l) = length (filter f l').
Proof. induction 1; cbn [filter]; auto; try congruence; repeat destruct (f _); cbn; congruence. Qed.

Lemma filter_map_length {A B} (f : B -> bool) (g : A -> B) l : length (filter f (map g l)) = length (filter (fun i => f (g i)) l).
Proof. induction l as [|x l IH]; cbn; auto. destruct (f (g x)); cbn; auto. Qed.

Lemma list_sum_fold l : fold_left Nat.add l 0 = list_sum l.
Proof.
  assert (H : forall l a, fold_left Nat.add l a = a + list_sum l).
  { induction l0 as [|x l0 IH]; intros a; cbn [fold_left]; [cbn; lia|]. rewrite IH. unfold list_sum. cbn [fold_right]. lia. }
  rewrite H. reflexivity.
Qed.

Definition dummyP : param := mkParam TExact [] [] 0.

Section Entry.
Variable kd : mkind.
Variable fs : list kfield.
Variable ps : list param.
Let n := length fs.
Let kb := kb_build fs.
Let inv := kb_inv kb.
Let F i := nth i fs dummyF.
Let P i := nth i ps dummyP.

Hypothesis Hlay : layout_ok kd fs.
Hypothesis Htyp : Forall param_typed ps.

Let Hok : Forall field_ok fs := proj1 Hlay.

Lemma in_inv i : In i inv <-> i < n.
Proof. apply (inv_In _ _ (build_perm fs)). Qed.

Lemma P_typed i : i < length ps -> param_typed (P i).
Proof. intros H. rewrite Forall_forall in Htyp. apply Htyp, nth_In. auto. Qed.

Lemma combine_map {A B} (g : A -> B) l : combine l (map g l) = map (fun i => (i, g i)) l.
Proof. induction l as [|x l IH]; cbn; [|rewrite IH]; reflexivity. Qed.

Lemma ifs_eq : combine (kb_inv kb) (kb_input kb) = map (fun i => (i, F i)) inv.
Proof. apply combine_map. Qed.

Lemma sanity_iff : kb_sanity kb ps = true <->
  length ps = n /\ forall i, i < n -> param_acceptable (F i) (P i).
Proof.
  unfold kb_sanity. rewrite andb_true_iff, Nat.eqb_eq, forallb_forall, ifs_eq.
  replace (length (kb_input kb)) with n.
  2:{ unfold kb. rewrite build_input, map_length. symmetry. apply (inv_length _ _ (build_perm fs)). }
  split; intros [L H]; split; auto.
  - intros i Hi. specialize (H (i, F i)). cbn [fst snd] in H.
    rewrite (nth_error_nth' ps dummyP) in H by lia. apply sane_param_iff; auto.
    + apply F_ok; auto.
    + apply P_typed. lia.
    + apply H. apply in_map_iff. exists i. split; auto. apply in_inv; auto.
  - intros x Hx. apply in_map_iff in Hx as (i & <- & Hi). apply in_inv in Hi. cbn [fst snd].
    rewrite (nth_error_nth' ps dummyP) by lia. apply sane_param_iff; auto.
    + apply F_ok; auto.
    + apply P_typed. lia.
    + apply H; auto.
Qed.

Hypothesis Hlen : length ps = n.
Hypothesis Hacc : forall i, i < n -> param_acceptable (F i) (P i).

Definition D0 i := chunk0 (p_key (P i)) (f_bits (F i)).
Definition M0 i :=
  match p_type (P i) with
  | TValid => [255%N]
  | TExact => repeat 255%N (length (p_key (P i)))
  | TLpm => create_mask (p_plen (P i)) (length (p_key (P i)))
  | TRange | TTernary => p_mask (P i)
  end.

Lemma nb_pos i : i < n -> 0 < f_nbytes (F i).
Proof.
  intros H. destruct (F_ok fs Hok i H) as [B _]. unfold f_nbytes, nbytes_of.
  apply Nat.div_str_pos. unfold F. lia.
Qed.
Lemma ps_at i : i < n -> nth_error ps i = Some (P i) /\ p_key (P i) <> [].
Proof.
  intros H. split; [apply nth_error_nth'; lia|]. destruct (Hacc i H) as (_ & L & _).
  pose proof (nb_pos i H). intros E. rewrite E in L. cbn [length] in L. lia.
Qed.
Lemma key_len i : i < n -> length (p_key (P i)) = f_nbytes (F i).
Proof. intros H. apply Hacc; auto. Qed.

Lemma chunk0_len key b : length (chunk0 key b) = length key.
Proof. destruct key; reflexivity. Qed.

Lemma to_exact_ok l data : (forall i, In i l -> i < n) ->
  to_entry_exact (map (fun i => (i, F i)) l) ps data (length data) = Some (data ++ flat_map D0 l).
Proof.
  revert data; induction l as [|i l IH]; intros data H; cbn [map to_entry_exact flat_map]; [rewrite app_nil_r; auto|].
  destruct (ps_at i (H i (or_introl eq_refl))) as [E NE]. rewrite E, append_param_ok by auto.
  replace (length data + length (p_key (P i))) with (length (data ++ D0 i))
    by (unfold D0; rewrite app_length, chunk0_len; reflexivity).
  fold (D0 i). rewrite IH by (intros; apply H; right; auto). rewrite app_assoc. reflexivity.
Qed.

Definition pl i : Z :=
  match p_type (P i) with
  | TValid => 8 | TExact => 8 * Z.of_nat (length (p_key (P i))) | TLpm => p_plen (P i) | _ => 0
  end%Z.
Definition zsum (l : list Z) : Z := fold_right Z.add 0%Z l.
Lemma to_lpm_ok l data z : (forall i, In i l -> i < n /\ p_type (P i) <> TRange /\ p_type (P i) <> TTernary) ->
  to_entry_lpm (map (fun i => (i, F i)) l) ps data z (length data) = Some (data ++ flat_map D0 l, (z + zsum (map pl l))%Z).
Proof.
  revert data z; induction l as [|i l IH]; intros data z H; cbn [map to_entry_lpm flat_map zsum fold_right].
  { rewrite app_nil_r, Z.add_0_r; auto. }
  destruct (H i (or_introl eq_refl)) as (Hi & T1 & T2).
  destruct (ps_at i Hi) as [E NE]. rewrite E, append_param_ok by auto.
  replace (length data + length (p_key (P i))) with (length (data ++ D0 i))
    by (unfold D0; rewrite app_length, chunk0_len; reflexivity).
  fold (D0 i). fold (zsum (map pl l)). unfold pl at 1.
  destruct (p_type (P i)); try congruence; rewrite IH by (intros; apply H; right; auto);
    rewrite app_assoc, Z.add_assoc; reflexivity.
Qed.

Lemma to_tr_ok l data mask : (forall i, In i l -> i < n) ->
  to_entry_tr (map (fun i => (i, F i)) l) ps data mask (length data) = Some (data ++ flat_map D0 l, mask ++ flat_map M0 l).
Proof.
  revert data mask; induction l as [|i l IH]; intros data mask H; cbn [map to_entry_tr flat_map]; [rewrite !app_nil_r; auto|].
  destruct (ps_at i (H i (or_introl eq_refl))) as [E NE]. rewrite E, append_param_ok by auto.
  replace (length data + length (p_key (P i))) with (length (data ++ D0 i))
    by (unfold D0; rewrite app_length, chunk0_len; reflexivity).
  fold (D0 i). cbv zeta. fold (M0 i). rewrite IH by (intros; apply H; right; auto). rewrite !app_assoc. reflexivity.
Qed.

Definition isr i := match p_type (P i) with TRange => true | _ => false end.
Lemma widths_ok l : (forall i, In i l -> i < n) ->
  range_widths l ps = Some (map (fun i => f_nbytes (F i)) (filter isr l)).
Proof.
  induction l as [|i l IH]; intros H; cbn [range_widths filter]; auto.
  assert (Hi : i < n) by (apply H; left; auto).
  destruct (ps_at i Hi) as [E NE]. rewrite E, IH by (intros; apply H; right; auto).
  change (isr i) with (match p_type (P i) with TRange => true | _ => false end).
  destruct (p_type (P i)); cbn [map]; rewrite ?key_len by auto; reflexivity.
Qed.

Lemma D0_props i : i < n -> bytes_ok (D0 i) /\ length (D0 i) = f_nbytes (F i) /\
  be_val (D0 i) = (be_val (p_key (P i)) mod 2 ^ N.of_nat (f_bits (F i)))%N.
Proof.
  intros H. apply chunk0_props.
  - apply (F_ok fs Hok i H).
  - apply P_typed. lia.
  - apply key_len. auto.
Qed.

Lemma plen_nat i : i < n -> f_type (F i) = TLpm ->
  (p_plen (P i) = Z.of_nat (Z.to_nat (p_plen (P i))))%Z /\ Z.to_nat (p_plen (P i)) <= 8 * f_nbytes (F i).
Proof.
  intros H T. destruct (Hacc i H) as (_ & _ & A). rewrite T in A. split; [lia|].
  assert (f_bits (F i) <= 8 * f_nbytes (F i)); [|lia].
  unfold f_nbytes, nbytes_of. pose proof (Nat.div_mod (f_bits (F i) + 7) 8 ltac:(lia)).
  pose proof (Nat.mod_upper_bound (f_bits (F i) + 7) 8 ltac:(lia)). lia.
Qed.

Lemma ptype i : i < n -> p_type (P i) = f_type (F i).
Proof. intros H. apply Hacc; auto. Qed.

Lemma M0_lpm i : i < n -> f_type (F i) = TLpm -> M0 i = pmask (Z.to_nat (p_plen (P i))) (f_nbytes (F i)).
Proof.
  intros H T. unfold M0. rewrite ptype, T, key_len by auto.
  destruct (plen_nat i H T) as [E L]. rewrite E at 1. apply create_mask_ok. auto.
Qed.

Lemma nb8 : nbytes_of 8 = 1. Proof. reflexivity. Qed.

Lemma M0_props i : i < n -> bytes_ok (M0 i) /\ length (M0 i) = f_nbytes (F i).
Proof.
  intros H. destruct (Hacc i H) as (T & L & A).
  destruct (P_typed i ltac:(lia)) as (_ & Bm & _).
  destruct (f_type (F i)) eqn:E.
  - unfold M0. rewrite T. tauto.
  - unfold M0. rewrite T. split; [repeat constructor|].
    destruct (F_ok fs Hok i H) as (_ & _ & _ & V). destruct (V E) as [W _]. unfold f_nbytes.
    unfold F. rewrite W. reflexivity.
  - unfold M0. rewrite T. split; [apply bytes_ok_repeat; lia|rewrite repeat_length; auto].
  - rewrite M0_lpm by auto. destruct (plen_nat i H E). split; [apply pmask_bytes|apply pmask_length; auto].
  - unfold M0. rewrite T. tauto.
Qed.

(** data chunk stored in the entry, before the static mask *)
Definition D1 i : list N :=
  match kd with
  | KExact | KLpm => D0 i
  | KTernary => map2 N.land (D0 i) (M0 i)
  | KRange => if isr i then D0 i else map2 N.land (D0 i) (M0 i)
  end.
Lemma D1_props i : i < n -> bytes_ok (D1 i) /\ length (D1 i) = f_nbytes (F i).
Proof.
  intros H. destruct (D0_props i H) as (A & B & _). destruct (M0_props i H) as [C D].
  unfold D1. destruct kd; auto.
  - split; [apply bytes_ok_map2_land; auto|rewrite map2_length; lia].
  - destruct (isr i); auto. split; [apply bytes_ok_map2_land; auto|rewrite map2_length; lia].
Qed.
Definition D2 i := mchunk (F i) (D1 i).
Lemma D2_props i : i < n -> bytes_ok (D2 i) /\ length (D2 i) = f_nbytes (F i) /\ be_val (D2 i) = smask (F i) (be_val (D1 i)).
Proof. intros H. destruct (D1_props i H). apply mchunk_props; auto. apply F_ok; auto. Qed.

Lemma smask_land f x m : smask f (N.land x m) = N.land (smask f x) m.
Proof.
  unfold smask. destruct (f_mask f); auto. rewrite <- !N.land_assoc. f_equal. apply N.land_comm.
Qed.

Lemma D2_val i : i < n -> be_val (D2 i) =
  match kd with
  | KExact | KLpm => param_value (F i) (P i)
  | KTernary => N.land (param_value (F i) (P i)) (be_val (M0 i))
  | KRange => if isr i then param_value (F i) (P i) else N.land (param_value (F i) (P i)) (be_val (M0 i))
  end.
Proof.
  intros H. destruct (D2_props i H) as (_ & _ & E). rewrite E.
  destruct (D0_props i H) as (A & B & V). destruct (M0_props i H) as [C D].
  unfold D1, param_value. destruct kd; rewrite ?V; auto.
  - rewrite be_val_land, V, smask_land by (auto; lia). reflexivity.
  - destruct (isr i); rewrite ?V; auto. rewrite be_val_land, V, smask_land by (auto; lia). reflexivity.
Qed.

(** splitting range fields from the others, and the prefix field from the others *)
Let lr := filter (fun i => mt_rank (f_type (F i)) <=? 0) inv.
Let lo := filter (fun i => negb (mt_rank (f_type (F i)) <=? 0)) inv.
Lemma inv_split_range : inv = lr ++ lo.
Proof. apply (sorted_split (fun i => mt_rank (f_type (F i)))). apply build_sorted. Qed.
Lemma lr_spec i : In i lr <-> i < n /\ f_type (F i) = TRange.
Proof.
  unfold lr. rewrite filter_In, in_inv. destruct (f_type (F i)); cbn; intuition discriminate.
Qed.
Lemma lo_spec i : In i lo <-> i < n /\ f_type (F i) <> TRange.
Proof.
  unfold lo. rewrite filter_In, in_inv. destruct (f_type (F i)); cbn; intuition discriminate.
Qed.
Lemma isr_lr : filter isr inv = lr.
Proof.
  apply filter_ext_in. intros i Hi. apply in_inv in Hi. unfold isr. rewrite ptype by auto.
  destruct (f_type (F i)); reflexivity.
Qed.

Lemma flat_map_ext_lt {A} (g h : nat -> list A) l : (forall i, In i l -> g i = h i) -> flat_map g l = flat_map h l.
Proof. intros H. rewrite !flat_map_concat_map. f_equal. apply map_ext_in. auto. Qed.

Definition total := list_sum (map (fun i => f_nbytes (F i)) inv).
Lemma flat_len (g : nat -> list N) l : (forall i, In i l -> length (g i) = f_nbytes (F i)) ->
  length (flat_map g l) = list_sum (map (fun i => f_nbytes (F i)) l).
Proof. intros H. rewrite flat_map_length_sum. f_equal. apply map_ext_in. auto. Qed.

Definition ekey (prio : Z) : mkey :=
  mkKey (flat_map D2 inv)
    (match kd with KTernary | KRange => flat_map M0 inv | _ => [] end)
    (match kd with KLpm => Z.to_nat (zsum (map pl inv)) | _ => 0 end)
    (match kd with KExact | KLpm => 0%Z | _ => prio end)
    (match kd with KRange => map (fun i => f_nbytes (F i)) lr | _ => [] end).

Lemma build_entry_ok prio : kb_build_entry kd kb ps prio = Some (BEntry (ekey prio)).
Proof.
  unfold kb_build_entry. rewrite (proj2 sanity_iff) by (split; auto).
  assert (BB : forall i, In i inv -> i < n) by (intros i; apply in_inv).
  assert (TY : forall i, i < n -> type_in kd (f_type (F i))).
  { intros i Hi. destruct (proj2 Hlay) as (T & _). rewrite Forall_forall in T. apply T, nth_In. auto. }
  assert (AB : apply_big kb (flat_map D1 inv) = flat_map D2 inv).
  { apply apply_big_ok; auto. apply D1_props. }
  assert (E : kb_to_entry kd kb ps = Some (mkKey (flat_map D1 inv) (k_mask (ekey 0)) (k_plen (ekey 0)) 0 (k_widths (ekey 0)))).
  { unfold kb_to_entry, ekey. rewrite ifs_eq. unfold D1. remember kd as k0 eqn:KD in |- *; symmetry in KD; destruct k0; cbn [k_mask k_plen k_widths].
    - pose proof (to_exact_ok inv [] BB) as Q. cbn [length app] in Q. rewrite Q. reflexivity.
    - pose proof (to_lpm_ok inv [] 0%Z) as Q. cbn [length app] in Q. rewrite Q.
      2:{ intros i Hi. apply BB in Hi. rewrite ptype by auto. specialize (TY i Hi). rewrite KD in TY. cbn in TY.
          split; auto. split; intros E; rewrite E in TY; intuition discriminate. }
      rewrite Z.add_0_l. reflexivity.
    - pose proof (to_tr_ok inv [] [] BB) as Q. cbn [length app] in Q. rewrite Q.
      assert (L : length (flat_map D0 inv) = length (flat_map M0 inv)).
      { rewrite !flat_len; auto; intros i Hi; [apply M0_props|apply D0_props]; auto. }
      rewrite L, Nat.eqb_refl. do 2 f_equal. unfold format_ternary.
      rewrite apply_mask_map2 by auto. apply map2_flat_map.
      intros i Hi. destruct (D0_props i (BB i Hi)) as (_ & -> & _). symmetry. apply M0_props; auto.
    - pose proof (to_tr_ok inv [] [] BB) as Q. cbn [length app] in Q. rewrite Q. fold inv. rewrite widths_ok, isr_lr by auto.
      rewrite list_sum_fold.
      assert (L : length (flat_map D0 inv) = length (flat_map M0 inv)).
      { rewrite !flat_len; auto; intros i Hi; [apply M0_props|apply D0_props]; auto. }
      assert (Hlr : forall i, In i lr -> i < n) by (intros i Hi; apply lr_spec in Hi; tauto).
      assert (Hlo : forall i, In i lo -> i < n) by (intros i Hi; apply lo_spec in Hi; tauto).
      set (w := list_sum (map (fun i => f_nbytes (F i)) lr)).
      assert (Ld : length (flat_map D0 lr) = w) by (apply flat_len; intros i Hi; apply D0_props; auto).
      assert (Lm : length (flat_map M0 lr) = w) by (apply flat_len; intros i Hi; apply M0_props; auto).
      rewrite L, Nat.eqb_refl. cbn [andb].
      rewrite inv_split_range, !flat_map_app, app_length, Lm.
      destruct (Nat.leb_spec w (w + length (flat_map M0 lo))); [|lia].
      do 2 f_equal. rewrite firstn_app_len, !skipn_app_len by auto. f_equal.
      + apply flat_map_ext_lt. intros i Hi. apply lr_spec in Hi as [Hi T]. unfold isr. rewrite ptype, T by auto. reflexivity.
      + unfold format_ternary. rewrite apply_mask_map2.
        * rewrite map2_flat_map.
          -- apply flat_map_ext_lt. intros i Hi. apply lo_spec in Hi as [Hi T]. unfold isr. rewrite ptype by auto.
             destruct (f_type (F i)); try reflexivity. congruence.
          -- intros i Hi. destruct (D0_props i (Hlo i Hi)) as (_ & -> & _). symmetry. apply M0_props; auto.
        * rewrite !flat_len; auto; intros i Hi; [apply M0_props|apply D0_props]; auto. }
  rewrite E. cbn [k_data k_mask k_plen k_widths]. rewrite AB. reflexivity.
Qed.

Lemma masked_chunk i : i < n -> kd = KTernary \/ (kd = KRange /\ f_type (F i) <> TRange) ->
  map2 N.land (D2 i) (M0 i) = D2 i.
Proof.
  intros H K. destruct (D2_props i H) as (A & B & _). destruct (M0_props i H) as [C D].
  apply be_val_inj; auto.
  - apply bytes_ok_map2_land; auto.
  - rewrite map2_length; lia.
  - rewrite be_val_land by (auto; lia). rewrite D2_val by auto.
    destruct K as [->|[-> T]].
    + rewrite <- N.land_assoc, N.land_diag. reflexivity.
    + unfold isr. rewrite ptype by auto. destruct (f_type (F i)); try congruence; rewrite <- N.land_assoc, N.land_diag; reflexivity.
Qed.

Lemma map2_id_nth a m : length a = length m -> map2 N.land a m = a ->
  forall i, i < length a -> N.land (nth i a 0%N) (nth i m 0%N) = nth i a 0%N.
Proof.
  intros L E i Hi. rewrite <- (map2_nth N.land a m i 0%N 0%N 0%N) by auto. rewrite E. reflexivity.
Qed.

Lemma nth_skip (l : list N) off i : nth i (skipn off l) 0%N = nth (off + i) l 0%N.
Proof. revert off; induction l as [|x l IH]; intros [|o]; cbn; auto. destruct i; auto. Qed.

Lemma total_eq : list_sum (map (fun i => f_nbytes (F i)) inv) = key_bytes fs.
Proof. apply sum_inv. Qed.

Lemma lpm_last : kd = KLpm -> exists l j, inv = l ++ [j] /\ f_type (F j) = TLpm /\ forall i, In i l -> f_type (F i) = TValid \/ f_type (F i) = TExact.
Proof.
  intros K. destruct (proj2 Hlay) as (T & C). specialize (C K). rewrite K in T.
  pose proof (sorted_split (fun i => mt_rank (f_type (F i))) 2 inv (build_sorted fs)) as S.
  set (l := filter (fun i => mt_rank (f_type (F i)) <=? 2) inv) in *.
  set (m := filter (fun i => negb (mt_rank (f_type (F i)) <=? 2)) inv) in *.
  assert (TY : forall i, i < n -> type_in KLpm (f_type (F i))).
  { intros i Hi. rewrite Forall_forall in T. apply T, nth_In. auto. }
  assert (M1 : length m = 1).
  { rewrite <- C, <- (F_map fs), filter_map_length. unfold m.
    rewrite (filter_perm_length _ _ _ (build_perm fs)). f_equal. apply filter_ext_in. intros i Hi. apply in_inv in Hi.
    specialize (TY i Hi). unfold F in *. unfold is_lpm. destruct TY as [->|[->| ->]]; reflexivity. }
  destruct m as [|j [|? ?]] eqn:Em; try discriminate. exists l, j. split; [exact S|].
  assert (Ij : In j m) by (rewrite Em; left; auto).
  split.
  - unfold m in Ij. apply filter_In in Ij as [Ij R]. apply in_inv in Ij. specialize (TY j Ij).
    destruct TY as [E|[E|E]]; auto; rewrite E in R; discriminate.
  - intros i Hi. unfold l in Hi. apply filter_In in Hi as [Hi R]. apply in_inv in Hi. specialize (TY i Hi).
    destruct TY as [E|[E|E]]; auto. rewrite E in R. discriminate.
Qed.

Lemma zsum_exact l : (forall i, In i l -> i < n /\ (f_type (F i) = TValid \/ f_type (F i) = TExact)) ->
  zsum (map pl l) = Z.of_nat (8 * list_sum (map (fun i => f_nbytes (F i)) l)).
Proof.
  induction l as [|i l IH]; intros H; [reflexivity|].
  change (zsum (map pl (i :: l))) with (pl i + zsum (map pl l))%Z.
  change (list_sum (map (fun i => f_nbytes (F i)) (i :: l))) with (f_nbytes (F i) + list_sum (map (fun i => f_nbytes (F i)) l)).
  rewrite IH by (intros; apply H; right; auto).
  destruct (H i (or_introl eq_refl)) as [Hi T]. unfold pl. rewrite ptype, key_len by auto.
  destruct T as [T|T]; rewrite T; [|lia].
  destruct (F_ok fs Hok i Hi) as (_ & _ & _ & V). destruct (V T) as [W _].
  unfold f_nbytes at 2. unfold F. rewrite W. change (nbytes_of 8) with 1. lia.
Qed.

Lemma zsum_app a b : zsum (a ++ b) = (zsum a + zsum b)%Z.
Proof. unfold zsum. induction a as [|x a IH]; cbn [app fold_right]; lia. Qed.

Lemma entry_key_ok prio : key_ok kd (key_bytes fs) (ekey prio).
Proof.
  assert (BB : forall i, In i inv -> i < n) by (intros i; apply in_inv).
  assert (LD : length (flat_map D2 inv) = key_bytes fs)
    by (rewrite <- total_eq; apply flat_len; intros i Hi; apply D2_props; auto).
  assert (LM : length (flat_map M0 inv) = key_bytes fs)
    by (rewrite <- total_eq; apply flat_len; intros i Hi; apply M0_props; auto).
  split; [apply bytes_ok_flat_map; intros i Hi; apply D2_props; auto|].
  split; [exact LD|].
  unfold ekey. remember kd as k0 eqn:K in |- *; symmetry in K; destruct k0; cbn [k_plen k_mask k_data k_widths]; auto.
  - destruct (lpm_last K) as (l & j & S & T & TE).
    assert (Hj : j < n) by (apply BB; rewrite S; apply in_or_app; right; left; auto).
    rewrite <- total_eq, S, !map_app, zsum_app, list_sum_app.
    rewrite zsum_exact by (intros i Hi; split; [apply BB; rewrite S; apply in_or_app; auto|auto]).
    cbn [map zsum fold_right list_sum]. unfold pl. rewrite ptype, T by auto.
    destruct (plen_nat j Hj T). lia.
  - split; [exact LM|]. split; [apply bytes_ok_flat_map; intros i Hi; apply M0_props; auto|].
    intros i Hi. apply map2_id_nth; [lia| |lia].
    rewrite map2_flat_map by (intros j Hj; destruct (D2_props j (BB j Hj)) as (_ & -> & _); symmetry; apply M0_props; auto).
    apply flat_map_ext_lt. intros j Hj. apply masked_chunk; auto.
  - split; [exact LM|]. split; [apply bytes_ok_flat_map; intros i Hi; apply M0_props; auto|].
    change (fold_right Nat.add 0 (map (fun i => f_nbytes (F i)) lr)) with (list_sum (map (fun i => f_nbytes (F i)) lr)).
    set (w := list_sum (map (fun i => f_nbytes (F i)) lr)).
    assert (Hlr : forall i, In i lr -> i < n) by (intros i Hi; apply lr_spec in Hi; tauto).
    assert (Hlo : forall i, In i lo -> i < n) by (intros i Hi; apply lo_spec in Hi; tauto).
    assert (Ld : length (flat_map D2 lr) = w) by (apply flat_len; intros i Hi; apply D2_props; auto).
    assert (Lm : length (flat_map M0 lr) = w) by (apply flat_len; intros i Hi; apply M0_props; auto).
    split.
    { rewrite <- total_eq, inv_split_range, map_app, list_sum_app. fold w. lia. }
    intros i Hi.
    pose proof (map2_id_nth (flat_map D2 lo) (flat_map M0 lo)) as Q.
    rewrite inv_split_range, !flat_map_app.
    rewrite inv_split_range, flat_map_app, app_length, Ld in LD.
    rewrite inv_split_range, flat_map_app, app_length, Lm in LM.
    rewrite !app_nth2 by lia. rewrite Ld, Lm. apply Q; [lia| |lia].
    rewrite map2_flat_map by (intros j Hj; destruct (D2_props j (Hlo j Hj)) as (_ & -> & _); symmetry; apply M0_props; auto).
    apply flat_map_ext_lt. intros j Hj. apply lo_spec in Hj as [Hj T]. apply masked_chunk; auto.
Qed.

Lemma plen_ekey prio : kd = KLpm -> forall l j, inv = l ++ [j] -> f_type (F j) = TLpm ->
  (forall i, In i l -> f_type (F i) = TValid \/ f_type (F i) = TExact) ->
  k_plen (ekey prio) = 8 * list_sum (map (fun i => f_nbytes (F i)) l) + Z.to_nat (p_plen (P j)).
Proof.
  intros K l j S T TE. unfold ekey. rewrite K. cbn [k_plen].
  assert (BB : forall i, In i inv -> i < n) by (intros i; apply in_inv).
  assert (Hj : j < n) by (apply BB; rewrite S; apply in_or_app; right; left; auto).
  rewrite S, map_app, zsum_app, zsum_exact by (intros i Hi; split; [apply BB; rewrite S; apply in_or_app; auto|auto]).
  cbn [map zsum fold_right]. unfold pl. rewrite ptype, T by auto.
  destruct (plen_nat j Hj T). lia.
Qed.

(** ** Matching *)
Section Match.
Variable phv : nat -> pfield.
Hypothesis Hphv : phv_ok fs phv.
Let K := kchunk fs phv.

Definition pad_shift (f : kfield) (p : param) : N := N.of_nat (8 * f_nbytes f - Z.to_nat (p_plen p)).

Lemma K_props i : i < n -> bytes_ok (K i) /\ length (K i) = f_nbytes (F i) /\
  be_val (K i) = smask (F i) (field_value (F i) phv).
Proof. apply kchunk_props; auto. Qed.

(** ternary comparison of one chunk *)
Lemma tern_chunk i : i < n -> f_type (F i) <> TRange -> kd = KTernary \/ kd = KRange ->
  map2 N.land (K i) (M0 i) = map2 N.land (D2 i) (M0 i) <-> param_holds_sh pad_shift (F i) (P i) phv.
Proof.
  intros H T KD.
  destruct (K_props i H) as (A & B & C). destruct (D2_props i H) as (A' & B' & _). destruct (M0_props i H) as [A'' B''].
  assert (PV : (be_val (D0 i) < 2 ^ N.of_nat (8 * f_nbytes (F i)))%N).
  { destruct (D0_props i H) as (X & <- & _). apply be_val_lt2. auto. }
  assert (XV : (be_val (K i) < 2 ^ N.of_nat (8 * f_nbytes (F i)))%N) by (rewrite <- B; apply be_val_lt2; auto).
  assert (YV : (param_value (F i) (P i) < 2 ^ N.of_nat (8 * f_nbytes (F i)))%N).
  { destruct (D0_props i H) as (X & Y & V). unfold param_value. rewrite <- V.
    unfold smask. destruct (f_mask (F i)); auto. apply land_lt_l; auto. }
  assert (EQ : map2 N.land (K i) (M0 i) = map2 N.land (D2 i) (M0 i) <->
     N.land (be_val (K i)) (be_val (M0 i)) = N.land (param_value (F i) (P i)) (be_val (M0 i))).
  { transitivity (N.land (be_val (K i)) (be_val (M0 i)) = N.land (be_val (D2 i)) (be_val (M0 i))).
    - rewrite <- !be_val_land by (auto; lia). split; [congruence|].
      apply be_val_inj; try (apply bytes_ok_map2_land; auto). rewrite !map2_length; lia.
    - rewrite D2_val by auto. destruct KD as [-> | ->].
      + rewrite <- N.land_assoc, N.land_diag. reflexivity.
      + unfold isr. rewrite ptype by auto. destruct (f_type (F i)); try congruence; rewrite <- N.land_assoc, N.land_diag; reflexivity. }
  rewrite EQ. unfold param_holds_sh. rewrite <- C.
  assert (ONES : forall x, (x < 2 ^ N.of_nat (8 * f_nbytes (F i)))%N ->
     N.land x (N.ones (N.of_nat (8 * f_nbytes (F i)))) = x).
  { intros x Hx. rewrite N.land_ones. apply N.mod_small; auto. }
  pose proof (ptype i H) as PT. pose proof (key_len i H) as KL.
  destruct (f_type (F i)) eqn:E; try congruence.
  - unfold M0. rewrite PT. destruct (F_ok fs Hok i H) as (_ & _ & _ & V). destruct (V E) as [W _].
    assert (NB : f_nbytes (F i) = 1) by (unfold f_nbytes, F; rewrite W; reflexivity).
    rewrite NB in ONES, XV, YV. change (be_val [255%N]) with (N.ones (N.of_nat (8 * 1))). rewrite !ONES by auto. reflexivity.
  - unfold M0. rewrite PT, KL, be_val_ones, !ONES by auto. reflexivity.
  - rewrite M0_lpm by auto. destruct (plen_nat i H E) as [_ L].
    rewrite pmask_val by auto. rewrite !land_pmask by auto. unfold pad_shift.
    set (s := N.of_nat (8 * f_nbytes (F i) - Z.to_nat (p_plen (P i)))).
    split; [|congruence]. intros Q. apply (f_equal (fun z => N.shiftr z s)) in Q.
    rewrite !N.shiftr_shiftl_l, N.sub_diag, !N.shiftl_0_r in Q by lia. exact Q.
  - unfold M0. rewrite PT. reflexivity.
Qed.

Lemma exact_chunk i : i < n -> f_type (F i) = TValid \/ f_type (F i) = TExact -> kd = KExact \/ kd = KLpm ->
  D2 i = K i <-> param_holds_sh pad_shift (F i) (P i) phv.
Proof.
  intros H T KD. destruct (K_props i H) as (A & B & C). destruct (D2_props i H) as (A' & B' & _).
  transitivity (be_val (K i) = be_val (D2 i)).
  - split; [congruence|]. intros E. apply be_val_inj; auto. congruence.
  - rewrite D2_val by auto. unfold param_holds_sh. rewrite <- C.
    destruct T as [-> | ->], KD as [-> | ->]; reflexivity.
Qed.

Lemma match_iff prio : key_matches kd (key_bytes fs) (ekey prio) (kb_key kb phv) <->
  forall i, i < n -> param_holds_sh pad_shift (F i) (P i) phv.
Proof.
  assert (BB : forall i, In i inv -> i < n) by (intros i; apply in_inv).
  assert (TY : forall i, i < n -> type_in kd (f_type (F i))).
  { intros i Hi. destruct (proj2 Hlay) as (T & _). rewrite Forall_forall in T. apply T, nth_In. auto. }
  assert (KE : kb_key kb phv = flat_map K inv) by (apply kb_key_ok; auto). rewrite KE.
  assert (INV : (forall i, i < n -> param_holds_sh pad_shift (F i) (P i) phv) <->
                (forall i, In i inv -> param_holds_sh pad_shift (F i) (P i) phv)).
  { split; intros H i Hi; apply H; apply in_inv; auto. }
  rewrite INV. clear INV.
  assert (LK : length (flat_map K inv) = key_bytes fs)
    by (rewrite <- total_eq; apply flat_len; intros i Hi; apply K_props; auto).
  assert (LD : length (flat_map D2 inv) = key_bytes fs)
    by (rewrite <- total_eq; apply flat_len; intros i Hi; apply D2_props; auto).
  assert (LM : length (flat_map M0 inv) = key_bytes fs)
    by (rewrite <- total_eq; apply flat_len; intros i Hi; apply M0_props; auto).
  remember kd as k0 eqn:KD in |- *; symmetry in KD; destruct k0; rewrite KD in TY; cbn [key_matches].
  - unfold ekey; cbn [k_data]. rewrite flat_map_eq_iff.
    + split; intros H i Hi; specialize (H i Hi); apply exact_chunk in H; auto; apply (TY i); auto.
    + intros i Hi. destruct (K_props i (BB i Hi)) as (_ & -> & _). apply D2_props; auto.
  - destruct (lpm_last KD) as (l & j & S & T & TE).
    assert (PL := plen_ekey prio KD l j S T TE). rewrite PL.
    assert (Hl : forall i, In i l -> i < n) by (intros i Hi; apply BB; rewrite S; apply in_or_app; auto).
    assert (Hj : j < n) by (apply BB; rewrite S; apply in_or_app; right; left; auto).
    unfold ekey; cbn [k_data]. rewrite S, !flat_map_app, !bits_of_bytes_app. cbn [flat_map]. rewrite !app_nil_r.
    assert (Ld : length (flat_map D2 l) = list_sum (map (fun i => f_nbytes (F i)) l))
      by (apply flat_len; intros i Hi; apply D2_props; auto).
    assert (Lk : length (flat_map K l) = list_sum (map (fun i => f_nbytes (F i)) l))
      by (apply flat_len; intros i Hi; apply K_props; auto).
    rewrite firstn_app, bits_of_bytes_length, Ld.
    rewrite firstn_all2 by (rewrite bits_of_bytes_length; lia).
    replace (8 * list_sum (map (fun i => f_nbytes (F i)) l) + Z.to_nat (p_plen (P j)) -
             8 * list_sum (map (fun i => f_nbytes (F i)) l)) with (Z.to_nat (p_plen (P j))) by lia.
    rewrite is_prefix_app by (rewrite !bits_of_bytes_length; lia).
    destruct (K_props j Hj) as (A & B & C). destruct (D2_props j Hj) as (A' & B' & _).
    destruct (plen_nat j Hj T) as [_ PB].
    rewrite prefix_bits_iff by (auto; lia). rewrite B'.
    assert (J : N.shiftr (be_val (K j)) (N.of_nat (8 * f_nbytes (F j) - Z.to_nat (p_plen (P j)))) =
       N.shiftr (be_val (D2 j)) (N.of_nat (8 * f_nbytes (F j) - Z.to_nat (p_plen (P j)))) <->
       param_holds_sh pad_shift (F j) (P j) phv).
    { rewrite D2_val by auto. unfold param_holds_sh. rewrite <- C, T, KD. unfold pad_shift. reflexivity. }
    rewrite J.
    assert (E1 : bits_of_bytes (flat_map D2 l) = bits_of_bytes (flat_map K l) <->
                 forall i, In i l -> param_holds_sh pad_shift (F i) (P i) phv).
    { transitivity (flat_map D2 l = flat_map K l).
      - split; [|congruence]. apply bits_of_bytes_inj; apply bytes_ok_flat_map; intros i Hi; [apply D2_props|apply K_props]; auto.
      - rewrite flat_map_eq_iff.
        + split; intros H i Hi; specialize (H i Hi); apply exact_chunk in H; auto.
        + intros i Hi. destruct (K_props i (Hl i Hi)) as (_ & -> & _). apply D2_props; auto. }
    rewrite E1. split.
    + intros [H1 H2] i Hi. apply in_app_or in Hi as [Hi|[<-|[]]]; auto.
    + intros H. split; [intros i Hi; apply H; apply in_or_app; auto|apply H; apply in_or_app; right; left; auto].
  - rewrite ternary_from_iff by (unfold ekey; rewrite ?KD; cbn [k_data k_mask]; rewrite ?KD; auto; lia).
    unfold ekey; rewrite KD; cbn [k_data k_mask skipn]. rewrite !map2_flat_map.
    + rewrite flat_map_eq_iff.
      * split; intros H i Hi; specialize (H i Hi); apply tern_chunk in H; auto; apply (TY i); auto.
      * intros i Hi. destruct (K_props i (BB i Hi)) as (_ & X & _). destruct (D2_props i (BB i Hi)) as (_ & Y & _).
        destruct (M0_props i (BB i Hi)) as (_ & Z). rewrite !map2_length; lia.
    + intros i Hi. destruct (D2_props i (BB i Hi)) as (_ & -> & _). symmetry. apply M0_props; auto.
    + intros i Hi. destruct (K_props i (BB i Hi)) as (_ & -> & _). symmetry. apply M0_props; auto.
  - assert (Hlr : forall i, In i lr -> i < n) by (intros i Hi; apply lr_spec in Hi; tauto).
    assert (Hlo : forall i, In i lo -> i < n) by (intros i Hi; apply lo_spec in Hi; tauto).
    unfold ekey at 1. rewrite KD. cbn [k_widths].
    rewrite (range_from_iff D2 M0 K (fun i => f_nbytes (F i)) (key_bytes fs) (ekey prio) (flat_map K inv) lr
       [] [] [] (flat_map D2 lo) (flat_map M0 lo) (flat_map K lo)); auto.
    2-4: unfold ekey; rewrite ?KD; cbn [k_data k_mask app]; rewrite inv_split_range, flat_map_app; reflexivity.
    2:{ intros i Hi. split; [apply D2_props; auto|]. split; [apply M0_props; auto|apply K_props; auto]. }
    cbn [length Nat.add].
    set (w := list_sum (map (fun i => f_nbytes (F i)) lr)).
    assert (Lw : w <= key_bytes fs).
    { rewrite <- total_eq, inv_split_range, map_app, list_sum_app. fold w. lia. }
    rewrite ternary_from_iff by (unfold ekey; rewrite ?KD; cbn [k_data k_mask]; auto).
    unfold ekey; rewrite ?KD; cbn [k_data k_mask]. rewrite inv_split_range, !flat_map_app.
    rewrite !skipn_app_len by (apply flat_len; intros i Hi; first [apply D2_props|apply M0_props|apply K_props]; auto).
    rewrite !map2_flat_map.
    + rewrite flat_map_eq_iff.
      2:{ intros i Hi. destruct (K_props i (Hlo i Hi)) as (_ & X & _). destruct (D2_props i (Hlo i Hi)) as (_ & Y & _).
          destruct (M0_props i (Hlo i Hi)) as (_ & Z). rewrite !map2_length; lia. }
      assert (R : forall i, In i lr -> (be_val (D2 i) <= be_val (K i) <= be_val (M0 i))%N <-> param_holds_sh pad_shift (F i) (P i) phv).
      { intros i Hi. apply lr_spec in Hi as [Hi T]. destruct (K_props i Hi) as (_ & _ & C).
        rewrite D2_val, KD by auto. unfold isr, M0, param_holds_sh. rewrite ptype, T, <- C by auto. reflexivity. }
      split.
      * intros [H1 H2] i Hi. apply in_app_or in Hi as [Hi|Hi].
        -- apply R; auto.
        -- specialize (H2 i Hi). apply lo_spec in Hi as [Hi T]. apply tern_chunk in H2; auto.
      * intros H. split.
        -- intros i Hi. apply R; auto. apply H. apply in_or_app; auto.
        -- intros i Hi. assert (Q := H i (in_or_app _ _ _ (or_intror Hi))).
           apply lo_spec in Hi as [Hi T]. apply tern_chunk in Q; auto.
    + intros i Hi. destruct (D2_props i (Hlo i Hi)) as (_ & -> & _). symmetry. apply M0_props; auto.
    + intros i Hi. destruct (K_props i (Hlo i Hi)) as (_ & -> & _). symmetry. apply M0_props; auto.
Qed.
End Match.

(** ** Reading parameters back *)
Lemma field_at_ok i : i < n -> kb_field_at kb i = F i.
Proof.
  intros H. destruct (inv_build_map inv n (build_perm fs) i H) as [L E].
  unfold kb_field_at. change (kb_map kb) with (build_map inv n). change (kb_input kb) with (map F inv).
  assert (LI : length inv = n) by apply (inv_length inv n (build_perm fs)).
  rewrite (nth_indep (map F inv) dummyF (F 0)) by (rewrite map_length, LI; auto).
  rewrite (map_nth F inv 0). rewrite E. reflexivity.
Qed.
Lemma slice_ok g i : (forall j, j < n -> length (g j) = f_nbytes (F j)) -> i < n ->
  kb_slice kb i (flat_map g inv) = g i.
Proof. intros G H. unfold kb_slice. rewrite field_at_ok by auto. apply build_slice; auto. Qed.
Lemma map_len : length (kb_map kb) = n.
Proof. apply build_map_length, build_perm. Qed.

Lemma slice_data prio i : i < n -> kb_slice kb i (k_data (ekey prio)) = D2 i.
Proof. intros H. apply slice_ok; auto. intros j Hj. apply D2_props; auto. Qed.
Lemma slice_mask prio i : i < n -> kd = KTernary \/ kd = KRange -> kb_slice kb i (k_mask (ekey prio)) = M0 i.
Proof.
  intros H K. replace (k_mask (ekey prio)) with (flat_map M0 inv) by (unfold ekey; destruct K as [-> | ->]; reflexivity).
  apply slice_ok; auto. intros j Hj. apply M0_props; auto.
Qed.

Lemma D2_enc i : i < n -> D2 i = be_enc (f_nbytes (F i)) (be_val (D2 i)).
Proof. intros H. destruct (D2_props i H) as (A & <- & _). symmetry. apply be_enc_val. auto. Qed.

Lemma param_value_lt i : i < n -> (param_value (F i) (P i) < 2 ^ N.of_nat (8 * f_nbytes (F i)))%N.
Proof.
  intros H. destruct (D0_props i H) as (X & Y & V). unfold param_value. rewrite <- V.
  assert (be_val (D0 i) < 2 ^ N.of_nat (8 * f_nbytes (F i)))%N by (rewrite <- Y; apply be_val_lt2; auto).
  unfold smask. destruct (f_mask (F i)); auto. apply land_lt_l; auto.
Qed.

Lemma land_M0 i : i < n -> f_type (F i) = TValid \/ f_type (F i) = TExact ->
  N.land (param_value (F i) (P i)) (be_val (M0 i)) = param_value (F i) (P i).
Proof.
  intros H T. pose proof (param_value_lt i H) as L.
  assert (E : be_val (M0 i) = N.ones (N.of_nat (8 * f_nbytes (F i)))).
  { unfold M0. rewrite ptype, key_len by auto. destruct T as [T|T]; rewrite T; [|apply be_val_ones].
    destruct (F_ok fs Hok i H) as (_ & _ & _ & V). destruct (V T) as [W _].
    unfold f_nbytes, F. rewrite W. reflexivity. }
  rewrite E, N.land_ones. apply N.mod_small. auto.
Qed.

Lemma ternary_param prio i : i < n -> kd = KTernary \/ kd = KRange ->
  type_in kd (f_type (F i)) ->
  match f_type (kb_field_at kb i) with
  | TValid | TExact => mkParam (f_type (kb_field_at kb i)) (kb_slice kb i (k_data (ekey prio))) [] 0
  | TRange | TTernary => mkParam (f_type (kb_field_at kb i)) (kb_slice kb i (k_data (ekey prio)))
                                 (kb_slice kb i (k_mask (ekey prio))) 0
  | TLpm => mkParam (f_type (kb_field_at kb i)) (kb_slice kb i (k_data (ekey prio))) []
                    (pref_len_from_mask (kb_slice kb i (k_mask (ekey prio))))
  end = canon kd (F i) (P i).
Proof.
  intros H K TI. rewrite field_at_ok, slice_data, slice_mask by auto. rewrite D2_enc by auto. unfold canon.
  pose proof (param_value_lt i H) as PV.
  pose proof (ptype i H) as PT.
  destruct (f_type (F i)) eqn:T.
  - rewrite D2_val by auto. unfold isr, M0. rewrite PT. destruct K as [K|K]; rewrite K in *; [cbn in TI; congruence|]. reflexivity.
  - rewrite D2_val by auto. rewrite land_M0 by auto. destruct K as [K|K]; rewrite K; [reflexivity|destruct (isr i); reflexivity].
  - rewrite D2_val by auto. rewrite land_M0 by auto. destruct K as [K|K]; rewrite K; [reflexivity|destruct (isr i); reflexivity].
  - destruct (plen_nat i H T) as [E L]. rewrite M0_lpm, pref_len_pmask, <- E by auto.
    rewrite D2_val by auto. rewrite M0_lpm, pmask_val, land_pmask by auto.
    unfold isr. rewrite PT. destruct K as [K|K]; rewrite K; reflexivity.
  - rewrite D2_val by auto. unfold isr, M0. rewrite PT. destruct K as [K|K]; rewrite K; reflexivity.
Qed.

Lemma exact_param i : i < n -> kd = KExact \/ kd = KLpm -> f_type (F i) = TValid \/ f_type (F i) = TExact ->
  mkParam (f_type (F i)) (D2 i) [] 0 = canon kd (F i) (P i).
Proof.
  intros H K T. rewrite D2_enc, D2_val by auto. unfold canon.
  destruct K as [K|K], T as [T|T]; rewrite K, T; reflexivity.
Qed.

Lemma from_lpm_loop_ok prio j : kd = KLpm -> j < n -> f_type (F j) = TLpm ->
  (forall i, i < n -> i <> j -> f_type (F i) = TValid \/ f_type (F i) = TExact) ->
  forall is acc idx pref, (forall i, In i is -> i < n) ->
  from_lpm_loop kb (ekey prio) is acc idx pref =
  Some (acc ++ map (fun i => mkParam (f_type (F i)) (D2 i) [] 0) is,
        if in_dec Nat.eq_dec j is then j else idx,
        (pref - zsum (map (fun i => if Nat.eq_dec i j then 0 else 8 * Z.of_nat (f_nbytes (F i))) is))%Z).
Proof.
  intros K Hj Tj TE. induction is as [|i is IH]; intros acc idx pref B; cbn [from_lpm_loop].
  - cbn. rewrite app_nil_r, Z.sub_0_r. reflexivity.
  - assert (Hi : i < n) by (apply B; left; auto).
    assert (B' : forall i, In i is -> i < n) by (intros; apply B; right; auto).
    rewrite field_at_ok, slice_data by auto.
    change (zsum (map ?f (i :: is))) with (f i + zsum (map f is))%Z. cbn [map]. 
    destruct (Nat.eq_dec i j) as [E|E].
    + assert (Ti : f_type (F i) = TLpm) by congruence. rewrite Ti. rewrite IH by auto. rewrite <- app_assoc. cbn [app].
      assert (X : (if in_dec Nat.eq_dec j is then j else i) = if in_dec Nat.eq_dec j (i :: is) then j else idx).
      { destruct (in_dec Nat.eq_dec j is), (in_dec Nat.eq_dec j (i :: is)) as [|N]; auto; exfalso; apply N; left; auto. }
      rewrite X, Z.add_0_l. reflexivity.
    + assert (X : (if in_dec Nat.eq_dec j is then j else idx) = if in_dec Nat.eq_dec j (i :: is) then j else idx).
      { destruct (in_dec Nat.eq_dec j is) as [I|I], (in_dec Nat.eq_dec j (i :: is)) as [J|J]; auto;
        [exfalso; apply J; right; auto|destruct J; congruence]. }
      destruct (TE i Hi E) as [T|T]; rewrite T, IH by auto; rewrite <- app_assoc; cbn [app];
      rewrite X, <- Z.sub_add_distr; reflexivity.
Qed.

Lemma zsum_perm l l' : Permutation l l' -> zsum l = zsum l'.
Proof. unfold zsum. induction 1; cbn [fold_right]; lia. Qed.

Lemma list_set_map {A} (f g : nat -> A) j k : j < k -> (forall i, i < k -> i <> j -> f i = g i) ->
  list_set (map f (seq 0 k)) j (g j) = map g (seq 0 k).
Proof.
  intros Hj E. apply nth_error_ext. intros i. destruct (Nat.eq_dec j i) as [->|N].
  - rewrite nth_error_list_set_eq by (rewrite map_length, seq_length; auto).
    symmetry. exact (map_nth_error g i _ (nth_error_seq 0 k i Hj)).
  - rewrite nth_error_list_set_neq by auto. destruct (Nat.lt_ge_cases i k) as [L|L].
    + rewrite (map_nth_error f i _ (nth_error_seq 0 k i L)), (map_nth_error g i _ (nth_error_seq 0 k i L)).
      f_equal. apply E; auto.
    + rewrite !(proj2 (nth_error_None _ _)); auto; rewrite map_length, seq_length; auto.
Qed.

Lemma to_params_ok prio : kb_to_params kd kb (ekey prio) = Some (map (fun i => canon kd (F i) (P i)) (seq 0 n)).
Proof.
  assert (SB : forall i, In i (seq 0 n) -> i < n) by (intros i Hi; apply in_seq in Hi; lia).
  assert (TY : forall i, i < n -> type_in kd (f_type (F i))).
  { intros i Hi. destruct (proj2 Hlay) as (T & _). rewrite Forall_forall in T. apply T, nth_In. auto. }
  unfold kb_to_params. remember kd as k0 eqn:KD in |- *; symmetry in KD; destruct k0; rewrite KD in TY.
  - unfold from_entry_exact. rewrite map_len.
    rewrite (proj2 (forallb_forall _ _)).
    + f_equal. apply map_ext_in. intros i Hi. apply SB in Hi. rewrite field_at_ok, slice_data, <- KD by auto.
      apply exact_param; auto. apply (TY i Hi).
    + intros i Hi. apply SB in Hi. rewrite field_at_ok by auto. destruct (TY i Hi) as [-> | ->]; reflexivity.
  - destruct (lpm_last KD) as (l & j & S & T & TE).
    assert (Hj : j < n) by (apply in_inv; rewrite S; apply in_or_app; right; left; auto).
    assert (NJ : ~ In j l).
    { intros I. destruct (TE j I) as [E|E]; congruence. }
    assert (TE' : forall i, i < n -> i <> j -> f_type (F i) = TValid \/ f_type (F i) = TExact).
    { intros i Hi N. apply TE. apply in_inv in Hi. rewrite S in Hi. apply in_app_or in Hi as [|[|[]]]; auto. congruence. }
    unfold from_entry_lpm. rewrite map_len, (from_lpm_loop_ok prio j) by auto. cbn [app].
    destruct (in_dec Nat.eq_dec j (seq 0 n)) as [_|N]; [|exfalso; apply N, in_seq; lia].
    rewrite (map_nth_error _ j _ (nth_error_seq 0 n j Hj)). cbn [Nat.add p_type p_key p_mask].
    assert (PL : (Z.of_nat (k_plen (ekey prio)) - zsum (map (fun i => if Nat.eq_dec i j then 0
        else 8 * Z.of_nat (f_nbytes (F i))) (seq 0 n)) = p_plen (P j))%Z).
    { rewrite (zsum_perm _ _ (Permutation_map _ (build_perm fs))). fold kb inv. rewrite S at 1.
      rewrite map_app, zsum_app. cbn [map]. destruct (Nat.eq_dec j j) as [_|]; [|congruence].
      rewrite (plen_ekey prio KD l j S T TE).
      destruct (plen_nat j Hj T) as [E _].
      assert (Z : zsum (map (fun i => if Nat.eq_dec i j then 0%Z else (8 * Z.of_nat (f_nbytes (F i)))%Z) l) =
        Z.of_nat (8 * list_sum (map (fun i => f_nbytes (F i)) l))).
      { clear - NJ. induction l as [|a l IH]; [reflexivity|].
        change (zsum (map ?f (a :: l))) with (f a + zsum (map f l))%Z.
        change (list_sum (map ?f (a :: l))) with (f a + list_sum (map f l)).
        rewrite IH by (intros I; apply NJ; right; auto).
        destruct (Nat.eq_dec a j) as [->|]; [exfalso; apply NJ; left; auto|]. lia. }
      rewrite Z. cbn [zsum fold_right]. lia. }
    rewrite PL, T. f_equal.
    replace (mkParam TLpm (D2 j) [] (p_plen (P j))) with (canon kd (F j) (P j)).
    + rewrite <- KD. apply (list_set_map _ (fun i => canon kd (F i) (P i))); auto.
      intros i Hi N. apply exact_param; auto.
    + unfold canon. rewrite T, (D2_enc j Hj), D2_val, KD by auto. reflexivity.
  - unfold from_entry_ternary. rewrite map_len. f_equal. apply map_ext_in. intros i Hi. apply SB in Hi.
    cbv zeta. rewrite <- KD. apply ternary_param; auto. rewrite KD. auto.
  - unfold from_entry_ternary. rewrite map_len. f_equal. apply map_ext_in. intros i Hi. apply SB in Hi.
    cbv zeta. rewrite <- KD. apply ternary_param; auto. rewrite KD. auto.
Qed.
End Entry.
