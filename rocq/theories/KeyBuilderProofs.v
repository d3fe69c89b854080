From Coq Require Import List Arith NArith ZArith Bool Lia Permutation Sorting.Sorted.
From Verif Require Import Base Bits Bytes EntryListModel EntryListSpec EntryListProofs
  MatchUnitSpec KeyBuilderModel KeyBuilderSpec.
Import ListNotations.

(** ** Sorting *)
Section Sort.
Variable lt : nat -> nat -> bool.
Lemma sort_insert_perm x l : Permutation (x :: l) (sort_insert lt x l).
Proof.
  induction l as [|y r IH]; simpl; auto. destruct (lt x y); auto.
  rewrite perm_swap. constructor. auto.
Qed.
Lemma sort_idx_perm l : Permutation l (sort_idx lt l).
Proof. induction l as [|x r IH]; simpl; auto. rewrite <- sort_insert_perm. auto. Qed.
Variable le : nat -> nat -> Prop.
Hypothesis lt_le : forall x y, lt x y = true -> le x y.
Hypothesis nlt_le : forall x y, lt x y = false -> le y x.
Hypothesis le_trans : forall x y z, le x y -> le y z -> le x z.
Lemma sort_insert_sorted x l : StronglySorted le l -> StronglySorted le (sort_insert lt x l).
Proof.
  induction 1 as [|y r H IH F]; simpl; [repeat constructor|].
  destruct (lt x y) eqn:E.
  - constructor; [constructor; auto|]. constructor; [auto|].
    eapply Forall_impl; [|exact F]. simpl. intros a Ha. eapply le_trans; eauto.
  - constructor; auto. eapply Permutation_Forall; [apply sort_insert_perm|]. constructor; auto.
Qed.
Lemma sort_idx_sorted l : StronglySorted le (sort_idx lt l).
Proof. induction l; simpl; [constructor|]. apply sort_insert_sorted; auto. Qed.
End Sort.

Lemma flat_map_eq_iff {A B} (g h : A -> list B) l : (forall i, In i l -> length (g i) = length (h i)) ->
  flat_map g l = flat_map h l <-> (forall i, In i l -> g i = h i).
Proof.
  induction l as [|x l IH]; intros L; simpl.
  - split; [intros _ i []|auto].
  - assert (Lx := L x (or_introl eq_refl)).
    assert (L' : forall i, In i l -> length (g i) = length (h i)) by (intros; apply L; right; auto).
    specialize (IH L'). split.
    + intros E i Hi.
      assert (E1 : g x = h x /\ flat_map g l = flat_map h l).
      { revert E Lx. generalize (g x) (h x). induction l0 as [|a u IHu]; intros [|b v]; simpl; intros E K; try lia; auto.
        injection E as -> E. destruct (IHu v E) as [-> ?]; auto. }
      destruct E1 as [E1 E2], Hi as [<-|Hi]; auto. apply IH; auto.
    + intros H. f_equal; [apply H; auto|]. apply IH. auto.
Qed.

Lemma flat_map_length_sum {A B} (g : A -> list B) l : length (flat_map g l) = list_sum (map (fun i => length (g i)) l).
Proof. induction l as [|x l IH]; simpl; auto. rewrite app_length, IH. reflexivity. Qed.

Lemma list_sum_perm l l' : Permutation l l' -> list_sum l = list_sum l'.
Proof. induction 1; cbn [list_sum fold_right] in *; unfold list_sum in *; cbn [fold_right] in *; lia. Qed.

Lemma bytes_ok_flat_map {A} (g : A -> list N) l : (forall i, In i l -> bytes_ok (g i)) -> bytes_ok (flat_map g l).
Proof.
  induction l as [|x l IH]; simpl; intros H; [constructor|]. apply bytes_ok_app. split; [apply H; auto|apply IH; auto].
Qed.

Lemma map2_flat_map {A} (f : N -> N -> N) (g h : A -> list N) l : (forall i, In i l -> length (g i) = length (h i)) ->
  map2 f (flat_map g l) (flat_map h l) = flat_map (fun i => map2 f (g i) (h i)) l.
Proof.
  induction l as [|x l IH]; simpl; intros H; auto. rewrite map2_app by (apply H; auto). rewrite IH; auto.
Qed.

Lemma apply_mask_map2 a m : length a = length m -> apply_mask a m = map2 N.land a m.
Proof. revert m; induction a as [|x a IH]; intros [|y m] H; simpl in *; try lia; auto. f_equal; apply IH; lia. Qed.

(** ** Facts about the mapping *)
Section Map.
Variable inv : list nat.
Variable n : nat.
Hypothesis Hp : Permutation (seq 0 n) inv.

Lemma inv_length : length inv = n.
Proof. rewrite <- (Permutation_length Hp). apply seq_length. Qed.
Lemma inv_In i : In i inv <-> i < n.
Proof.
  split; intros H.
  - apply (Permutation_in _ (Permutation_sym Hp)) in H. apply in_seq in H. lia.
  - apply (Permutation_in _ Hp). apply in_seq. lia.
Qed.
Lemma inv_NoDup : NoDup inv.
Proof. eapply Permutation_NoDup; [exact Hp|apply seq_NoDup]. Qed.
Lemma inv_inj i j : i < n -> j < n -> nth i inv 0 = nth j inv 0 -> i = j.
Proof.
  intros Hi Hj E. apply (proj1 (NoDup_nth inv 0) inv_NoDup); auto; rewrite inv_length; auto.
Qed.

Lemma build_map_aux l km : NoDup l -> (forall x, In x l -> x < n) -> length km = n ->
  let r := fold_left (fun km idx => list_set km (nth idx inv 0) idx) l km in
  length r = n /\ forall j, j < n -> nth (nth j inv 0) r 0 = if in_dec Nat.eq_dec j l then j else nth (nth j inv 0) km 0.
Proof.
  revert km; induction l as [|x l IH]; intros km ND B L; simpl.
  - split; auto.
  - apply NoDup_cons_iff in ND as [NI ND]. assert (Hx : x < n) by (apply B; left; auto).
    destruct (IH (list_set km (nth x inv 0) x)) as [L' H']; auto.
    { intros y Hy. apply B; right; auto. }
    { rewrite list_set_length; auto. }
    split; auto. intros j Hj. rewrite H' by auto.
    assert (In (nth x inv 0) inv) as Ix by (apply nth_In; rewrite inv_length; auto).
    apply inv_In in Ix.
    destruct (in_dec Nat.eq_dec j l) as [I|I], (Nat.eq_dec x j) as [->|Ne]; auto.
    + apply nth_list_set_eq. rewrite L. auto.
    + apply nth_list_set_neq. intros E. apply Ne. apply inv_inj; auto.
Qed.

Lemma build_map_length : length (build_map inv n) = n.
Proof. apply build_map_aux; [apply inv_NoDup|apply inv_In|apply repeat_length]. Qed.
Lemma build_map_inv j : j < n -> nth (nth j inv 0) (build_map inv n) 0 = j.
Proof.
  intros Hj. unfold build_map.
  destruct (build_map_aux inv (repeat 0 n)) as [_ H]; [apply inv_NoDup|apply inv_In|apply repeat_length|].
  rewrite H by auto. destruct (in_dec Nat.eq_dec j inv) as [|N]; auto. exfalso. apply N. apply inv_In. auto.
Qed.
Lemma inv_build_map i : i < n -> nth i (build_map inv n) 0 < n /\ nth (nth i (build_map inv n) 0) inv 0 = i.
Proof.
  intros Hi. assert (I : In i inv) by (apply inv_In; auto).
  destruct (In_nth inv i 0 I) as (j & Hj & E). rewrite inv_length in Hj. rewrite <- E at 1 3.
  rewrite <- E. rewrite build_map_inv by auto. auto.
Qed.
End Map.

(** ** Chunked strings *)
Lemma skipn_app_len {A} (a b : list A) n : length a = n -> skipn n (a ++ b) = b.
Proof. intros <-. rewrite skipn_app, skipn_all, Nat.sub_diag. reflexivity. Qed.
Lemma firstn_app_len {A} (a b : list A) n : length a = n -> firstn n (a ++ b) = a.
Proof. intros <-. rewrite firstn_app, firstn_all, Nat.sub_diag. simpl. apply app_nil_r. Qed.

Lemma nth_split_map {A B} (g : A -> list B) (l : list A) j d : j < length l ->
  exists l1 l2, l = l1 ++ nth j l d :: l2 /\ length l1 = j.
Proof.
  intros H. exists (firstn j l), (skipn (S j) l). split; [|rewrite firstn_length; lia].
  rewrite <- (firstn_skipn j l) at 1. f_equal.
  revert l H; induction j as [|j IH]; intros [|x l] H; simpl in *; try lia; auto. apply IH. lia.
Qed.

Lemma offsets_nth fs o j : j < length fs ->
  nth j (offsets_from o fs) 0 = o + list_sum (map f_nbytes (firstn j fs)).
Proof.
  revert o j; induction fs as [|f fs IH]; intros o [|j] H; simpl in *; try lia.
  rewrite IH by lia. lia.
Qed.

Section Build.
Variable fs : list kfield.
Let n := length fs.
Let kb := kb_build fs.
Let inv := kb_inv kb.
Let F i := nth i fs dummyF.

Lemma build_perm : Permutation (seq 0 n) inv.
Proof. apply sort_idx_perm. Qed.

Lemma build_sorted : StronglySorted (fun i j => mt_rank (f_type (F i)) <= mt_rank (f_type (F j))) inv.
Proof.
  assert (S : StronglySorted (fun i j => match nth_error fs i with Some f => mt_rank (f_type f) | None => 0 end <=
     match nth_error fs j with Some f => mt_rank (f_type f) | None => 0 end) inv).
  { apply sort_idx_sorted.
    - unfold sort_lt. intros x y. destruct (Nat.eqb_spec (match nth_error fs x with Some f => mt_rank (f_type f) | None => 0 end)
        (match nth_error fs y with Some f => mt_rank (f_type f) | None => 0 end)); intros H; [lia|]. apply Nat.ltb_lt in H. lia.
    - unfold sort_lt. intros x y. destruct (Nat.eqb_spec (match nth_error fs x with Some f => mt_rank (f_type f) | None => 0 end)
        (match nth_error fs y with Some f => mt_rank (f_type f) | None => 0 end)); intros H; [lia|]. apply Nat.ltb_ge in H. lia.
    - intros; lia. }
  assert (B : forall i, In i inv -> i < n) by (intros i; apply (inv_In _ _ build_perm)).
  clearbody inv. induction S as [|x l H IH A]; constructor.
  - apply IH. intros; apply B; right; auto.
  - rewrite Forall_forall in *. intros y Hy. specialize (A y Hy).
    assert (Hx : x < n) by (apply B; left; auto). assert (Hy' : y < n) by (apply B; right; auto).
    unfold F. rewrite (nth_error_nth' fs dummyF Hx), (nth_error_nth' fs dummyF Hy') in A. exact A.
Qed.

Lemma build_input : kb_input kb = map F inv.
Proof. reflexivity. Qed.
Lemma build_nb : kb_nbytes kb = key_bytes fs.
Proof.
  unfold kb, kb_build, key_bytes; simpl.
  assert (H : forall l a, fold_left (fun a f => a + f_nbytes f) l a = a + list_sum (map f_nbytes l)).
  { induction l as [|x l IH]; intros a; simpl; [lia|]. rewrite IH. lia. }
  rewrite H. reflexivity.
Qed.

Lemma F_map : map F (seq 0 n) = fs.
Proof.
  apply nth_error_ext. intros i. destruct (Nat.lt_ge_cases i n) as [L|L].
  - rewrite (map_nth_error F i (seq 0 n) (nth_error_seq 0 n i L)).
    symmetry. apply nth_error_nth'. auto.
  - rewrite (proj2 (nth_error_None _ _)), (proj2 (nth_error_None _ _)); auto. rewrite map_length, seq_length; auto.
Qed.

Lemma sum_inv : list_sum (map (fun i => f_nbytes (F i)) inv) = key_bytes fs.
Proof.
  rewrite (list_sum_perm _ (map (fun i => f_nbytes (F i)) (seq 0 n))).
  - rewrite <- (map_map F f_nbytes), F_map. reflexivity.
  - apply Permutation_map, Permutation_sym, build_perm.
Qed.

(** position of declared field [i] in the key *)
Lemma build_slice g i : (forall j, j < n -> length (g j) = f_nbytes (F j)) -> i < n ->
  sub (flat_map g inv) (nth i (kb_offs kb) 0) (f_nbytes (F i)) = g i.
Proof.
  intros L Hi. destruct (inv_build_map inv n build_perm i Hi) as [Hj E].
  assert (KO : nth i (kb_offs kb) 0 = nth (nth i (build_map inv n) 0) (offsets_from 0 (map F inv)) 0).
  { unfold kb, kb_build; simpl. erewrite nth_indep by (rewrite map_length, build_map_length; auto; apply build_perm).
    exact (map_nth (fun j => nth j (offsets_from 0 (map F inv)) 0) (build_map inv n) 0 i). }
  rewrite KO. set (j := nth i (build_map inv n) 0) in *.
  rewrite offsets_nth by (rewrite map_length, (inv_length _ _ build_perm); auto).
  destruct (nth_split_map g inv j 0) as (l1 & l2 & S & L1); [rewrite (inv_length _ _ build_perm); auto|].
  rewrite E in S. rewrite S, flat_map_app, map_app. simpl flat_map.
  rewrite firstn_app_len by (rewrite map_length; auto).
  assert (LL : length (flat_map g l1) = 0 + list_sum (map f_nbytes (map F l1))).
  { rewrite flat_map_length_sum, map_map. simpl. f_equal. apply map_ext_in. intros a Ha. apply L.
    apply (inv_In _ _ build_perm). rewrite S. apply in_or_app; auto. }
  unfold sub. rewrite skipn_app_len by auto. apply firstn_app_len. auto.
Qed.

(** the big mask *)
Lemma write_at_chunk {A} (g : A -> list N) l1 x l2 m off :
  length (flat_map g l1) = off -> length m = length (g x) ->
  write_at (flat_map g (l1 ++ x :: l2)) off m = flat_map g l1 ++ m ++ flat_map g l2.
Proof.
  intros L M. unfold write_at. rewrite flat_map_app. simpl.
  rewrite firstn_app_len by auto. do 2 f_equal.
  rewrite app_assoc. apply skipn_app_len. rewrite app_length. lia.
Qed.

Lemma write_masks_ok (m : nat -> list N) : (forall j, j < n -> length (m j) = f_nbytes (F j)) ->
  forall is g, NoDup is -> (forall i, In i is -> i < n) -> (forall j, j < n -> length (g j) = f_nbytes (F j)) ->
  write_masks (flat_map g inv) (map (fun i => nth i (kb_offs kb) 0) is) (map m is) =
  flat_map (fun i => if in_dec Nat.eq_dec i is then m i else g i) inv.
Proof.
  intros Lm is. induction is as [|i is IH]; intros g ND B Lg; cbn [write_masks map].
  - apply flat_map_ext. intros i. destruct (in_dec Nat.eq_dec i []); [contradiction|reflexivity].
  - apply NoDup_cons_iff in ND as [NI ND]. assert (Hi : i < n) by (apply B; left; auto).
    set (g' := fun j => if Nat.eq_dec j i then m i else g j).
    assert (W : write_at (flat_map g inv) (nth i (kb_offs kb) 0) (m i) = flat_map g' inv).
    { destruct (inv_build_map inv n build_perm i Hi) as [Hj E].
      assert (KO : nth i (kb_offs kb) 0 = nth (nth i (build_map inv n) 0) (offsets_from 0 (map F inv)) 0).
      { unfold kb, kb_build; simpl. erewrite nth_indep by (rewrite map_length, build_map_length; auto; apply build_perm).
        exact (map_nth (fun j => nth j (offsets_from 0 (map F inv)) 0) (build_map inv n) 0 i). }
      rewrite KO. set (j := nth i (build_map inv n) 0) in *.
      rewrite offsets_nth by (rewrite map_length, (inv_length _ _ build_perm); auto).
      destruct (nth_split_map g inv j 0) as (l1 & l2 & S & L1); [rewrite (inv_length _ _ build_perm); auto|].
      rewrite E in S.
      assert (BB : forall a, In a inv -> a < n) by (intros a; apply (inv_In _ _ build_perm)).
      assert (NDi : NoDup inv) by apply (inv_NoDup _ n build_perm).
      replace (firstn j (map F inv)) with (map F l1)
        by (rewrite S, map_app; symmetry; apply firstn_app_len; rewrite map_length; auto).
      rewrite S in *.
      rewrite write_at_chunk.
      - rewrite flat_map_app. cbn [flat_map].
        assert (G : forall l, (forall a, In a l -> a <> i) -> flat_map g' l = flat_map g l).
        { intros l Hl. rewrite !flat_map_concat_map. f_equal. apply map_ext_in. intros a Ha. unfold g'.
          destruct (Nat.eq_dec a i); [|reflexivity]. exfalso. eapply Hl; eauto. }
        apply NoDup_remove_2 in NDi.
        rewrite !G by (intros a Ha ->; apply NDi; apply in_or_app; auto).
        unfold g' at 1. destruct (Nat.eq_dec i i); [reflexivity|congruence].
      - rewrite flat_map_length_sum, map_map. simpl. f_equal. apply map_ext_in. intros a Ha. apply Lg.
        apply BB. apply in_or_app; auto.
      - rewrite Lm, Lg; auto. }
    rewrite W, IH; auto.
    + apply flat_map_ext. intros a. unfold g'.
      destruct (in_dec Nat.eq_dec a is) as [I|I], (in_dec Nat.eq_dec a (i :: is)) as [J|J], (Nat.eq_dec a i) as [->|Na]; auto;
        try (exfalso; apply J; right; assumption);
        try (exfalso; apply J; left; reflexivity);
        destruct J as [J|J]; congruence.
    + intros j Hj. apply B; right; auto.
    + intros j Hj. unfold g'. destruct (Nat.eq_dec j i) as [->|]; auto.
Qed.

Lemma mask_len f : field_ok f -> length (f_maskbytes f) = f_nbytes f.
Proof.
  intros (_ & _ & M & _). unfold f_maskbytes. destruct (f_mask f) as [m|]; [apply M; auto|apply repeat_length].
Qed.
Lemma mask_bytes f : field_ok f -> bytes_ok (f_maskbytes f).
Proof.
  intros (_ & _ & M & _). unfold f_maskbytes. destruct (f_mask f) as [m|]; [apply M; auto|apply bytes_ok_repeat; lia].
Qed.

Hypothesis Hok : Forall field_ok fs.
Lemma F_ok i : i < n -> field_ok (F i).
Proof. intros H. rewrite Forall_forall in Hok. apply Hok. apply nth_In. auto. Qed.

Lemma flat_zeros l : flat_map (fun i => repeat 0%N (f_nbytes (F i))) l =
  repeat 0%N (list_sum (map (fun i => f_nbytes (F i)) l)).
Proof. induction l as [|x l IH]; simpl; auto. rewrite IH, <- repeat_app. reflexivity. Qed.

Lemma build_big : kb_big kb = flat_map (fun i => f_maskbytes (F i)) inv.
Proof.
  assert (E : kb_big kb = write_masks (repeat 0%N (kb_nbytes kb)) (kb_offs kb) (map f_maskbytes fs)) by reflexivity.
  rewrite E, build_nb, <- sum_inv, <- flat_zeros.
  assert (KL : length (kb_offs kb) = n).
  { unfold kb, kb_build. cbn [kb_offs]. rewrite map_length. apply build_map_length, build_perm. }
  replace (kb_offs kb) with (map (fun i => nth i (kb_offs kb) 0) (seq 0 n)) at 1.
  2:{ rewrite <- KL. clear. generalize (kb_offs kb). intros l.
      apply nth_error_ext. intros i. destruct (Nat.lt_ge_cases i (length l)) as [L|L].
      - rewrite (map_nth_error (fun i => nth i l 0) i _ (nth_error_seq 0 _ i L)).
        symmetry. apply nth_error_nth'. auto.
      - rewrite (proj2 (nth_error_None _ _)), (proj2 (nth_error_None _ _)); auto. rewrite map_length, seq_length; auto. }
  replace (map f_maskbytes fs) with (map (fun i => f_maskbytes (F i)) (seq 0 n)).
  2:{ transitivity (map f_maskbytes (map F (seq 0 n))); [rewrite map_map; reflexivity|rewrite F_map; reflexivity]. }
  rewrite (write_masks_ok (fun i => f_maskbytes (F i))).
  - rewrite !flat_map_concat_map. f_equal. apply map_ext_in. intros a Ha. apply (inv_In _ _ build_perm) in Ha.
    destruct (in_dec Nat.eq_dec a (seq 0 n)) as [|H]; auto. exfalso. apply H. apply in_seq. lia.
  - intros j Hj. apply mask_len, F_ok; auto.
  - apply seq_NoDup.
  - intros i Hi. apply in_seq in Hi. lia.
  - intros j Hj. apply repeat_length.
Qed.

(** applying the static masks field by field *)
Definition mchunk (f : kfield) (l : list N) : list N :=
  match f_mask f with Some m => map2 N.land l m | None => l end.

Lemma land_255 l n0 : bytes_ok l -> length l = n0 -> map2 N.land l (repeat 255%N n0) = l.
Proof.
  intros H <-. induction H as [|x l Hx _ IH]; simpl; auto. f_equal; auto.
  change 255%N with (N.ones 8). rewrite N.land_ones. apply N.mod_small. exact Hx.
Qed.

Lemma apply_big_ok g : (forall j, j < n -> bytes_ok (g j) /\ length (g j) = f_nbytes (F j)) ->
  apply_big kb (flat_map g inv) = flat_map (fun i => mchunk (F i) (g i)) inv.
Proof.
  intros G. unfold apply_big. rewrite build_big.
  assert (B : forall a, In a inv -> a < n) by (intros a; apply (inv_In _ _ build_perm)).
  destruct (kb_has kb) eqn:H.
  - rewrite apply_mask_map2.
    + rewrite map2_flat_map.
      * rewrite !flat_map_concat_map. f_equal. apply map_ext_in. intros a Ha. destruct (G a (B a Ha)).
        unfold mchunk, f_maskbytes. destruct (f_mask (F a)); auto. apply land_255; auto.
      * intros a Ha. destruct (G a (B a Ha)). rewrite mask_len by (apply F_ok; auto). auto.
    + rewrite !flat_map_length_sum. f_equal. apply map_ext_in. intros a Ha. destruct (G a (B a Ha)).
      rewrite mask_len by (apply F_ok; auto). auto.
  - rewrite !flat_map_concat_map. f_equal. apply map_ext_in. intros a Ha.
    unfold mchunk. destruct (f_mask (F a)) as [m|] eqn:E; auto. exfalso.
    assert (X : kb_has kb = true); [|congruence].
    unfold kb, kb_build; cbn [kb_has]. apply existsb_exists. exists (F a). split; [apply nth_In; apply B; auto|].
    rewrite E. reflexivity.
Qed.

Lemma mchunk_props f l : field_ok f -> bytes_ok l -> length l = f_nbytes f ->
  bytes_ok (mchunk f l) /\ length (mchunk f l) = f_nbytes f /\ be_val (mchunk f l) = smask f (be_val l).
Proof.
  intros (_ & _ & M & _) Hl Ll. unfold mchunk, smask. destruct (f_mask f) as [m|]; auto.
  destruct (M m eq_refl) as [Hm Lm]. split; [|split].
  - apply bytes_ok_map2_land; auto.
  - rewrite map2_length; lia.
  - apply be_val_land; auto. lia.
Qed.

(** ** The packet key *)
Definition pchunk (phv : nat -> pfield) (f : kfield) : list N :=
  let p := phv (f_ref f) in
  match f_type f with
  | TValid => [if pf_valid p then 1%N else 0%N]
  | _ => if pf_valid p || pf_hidden p then pf_bytes p else repeat 0%N (length (pf_bytes p))
  end.

Lemma kb_key_fold phv l a :
  fold_left (fun key f =>
       let p := phv (f_ref f) in
       match f_type f with
       | TValid => key ++ [if pf_valid p then 1%N else 0%N]
       | _ => if pf_valid p || pf_hidden p then key ++ pf_bytes p
              else key ++ repeat 0%N (length (pf_bytes p))
       end) l a = a ++ flat_map (pchunk phv) l.
Proof.
  revert a; induction l as [|f l IH]; intros a; simpl; [rewrite app_nil_r; auto|].
  rewrite IH, app_assoc. f_equal. unfold pchunk. cbv zeta.
  destruct (f_type f); auto; destruct (pf_valid _ || pf_hidden _); auto.
Qed.

Lemma pchunk_props phv f : field_ok f -> phv_ok [f] phv ->
  bytes_ok (pchunk phv f) /\ length (pchunk phv f) = f_nbytes f /\ be_val (pchunk phv f) = field_value f phv /\
  (be_val (pchunk phv f) < 2 ^ N.of_nat (f_bits f))%N.
Proof.
  intros (H0 & _ & _ & V) P. unfold phv_ok in P. apply Forall_inv in P.
  unfold pchunk, field_value. cbv zeta.
  assert (NV : f_type f <> TValid ->
    bytes_ok (if pf_valid (phv (f_ref f)) || pf_hidden (phv (f_ref f)) then pf_bytes (phv (f_ref f))
              else repeat 0%N (length (pf_bytes (phv (f_ref f))))) /\
    length (if pf_valid (phv (f_ref f)) || pf_hidden (phv (f_ref f)) then pf_bytes (phv (f_ref f))
              else repeat 0%N (length (pf_bytes (phv (f_ref f))))) = f_nbytes f /\
    be_val (if pf_valid (phv (f_ref f)) || pf_hidden (phv (f_ref f)) then pf_bytes (phv (f_ref f))
              else repeat 0%N (length (pf_bytes (phv (f_ref f))))) =
    (if pf_valid (phv (f_ref f)) || pf_hidden (phv (f_ref f)) then be_val (pf_bytes (phv (f_ref f))) else 0)%N /\
    (be_val (if pf_valid (phv (f_ref f)) || pf_hidden (phv (f_ref f)) then pf_bytes (phv (f_ref f))
              else repeat 0%N (length (pf_bytes (phv (f_ref f))))) < 2 ^ N.of_nat (f_bits f))%N).
  { intros N. destruct (P N) as (A & B & C). destruct (_ || _); auto.
    rewrite be_val_zeros, repeat_length. repeat split; auto; [apply bytes_ok_repeat; lia|].
    apply N.neq_0_lt_0, N.pow_nonzero. lia. }
  destruct (f_type f) eqn:T; try (apply NV; discriminate).
  destruct (V eq_refl) as [W _]. unfold f_nbytes. rewrite W.
  destruct (pf_valid (phv (f_ref f))); cbn; repeat split; try reflexivity; repeat constructor; lia.
Qed.

Section Key.
Variable phv : nat -> pfield.
Hypothesis Hphv : phv_ok fs phv.
Lemma phv_ok_at i : i < n -> phv_ok [F i] phv.
Proof.
  intros H. constructor; [|constructor]. unfold phv_ok in Hphv. rewrite Forall_forall in Hphv.
  apply Hphv. apply nth_In. auto.
Qed.
Definition kchunk i := mchunk (F i) (pchunk phv (F i)).
Lemma kb_key_ok : kb_key kb phv = flat_map kchunk inv.
Proof.
  unfold kb_key. rewrite kb_key_fold, build_input. cbn [app].
  replace (flat_map (pchunk phv) (map F inv)) with (flat_map (fun i => pchunk phv (F i)) inv)
    by (rewrite !flat_map_concat_map, map_map; reflexivity).
  rewrite apply_big_ok; auto.
  intros j Hj. destruct (pchunk_props phv (F j)) as (A & B & _); auto using F_ok, phv_ok_at.
Qed.
Lemma kchunk_props i : i < n -> bytes_ok (kchunk i) /\ length (kchunk i) = f_nbytes (F i) /\
  be_val (kchunk i) = smask (F i) (field_value (F i) phv).
Proof.
  intros H. destruct (pchunk_props phv (F i)) as (A & B & C & _); auto using F_ok, phv_ok_at.
  destruct (mchunk_props (F i) (pchunk phv (F i))) as (X & Y & Z); auto using F_ok.
  rewrite C in Z. auto.
Qed.
Lemma kb_key_shape : bytes_ok (kb_key kb phv) /\ length (kb_key kb phv) = key_bytes fs.
Proof.
  assert (B : forall a, In a inv -> a < n) by (intros a; apply (inv_In _ _ build_perm)).
  rewrite kb_key_ok. split.
  - apply bytes_ok_flat_map. intros i Hi. apply kchunk_props; auto.
  - rewrite flat_map_length_sum, <- sum_inv. f_equal. apply map_ext_in. intros a Ha. apply kchunk_props; auto.
Qed.
End Key.
End Build.
