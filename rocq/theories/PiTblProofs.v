(** When do two lists of parameters give the same key? *)
From Coq Require Import List Arith NArith ZArith Bool Lia Sorted Permutation.
From Verif Require Import Base Bits Bytes EntryListModel EntryListSpec MatchUnitModel MatchUnitSpec
  KeyBuilderModel KeyBuilderSpec KeyBuilderProofs KeyBuilderProofs2 KeyBuilderProofs3 KeyBuilderProps.
Import ListNotations.

Definition sameP (f : kfield) (p p' : param) : Prop :=
  match f_type f with
  | TValid | TExact => param_value f p = param_value f p'
  | TLpm => p_plen p = p_plen p' /\
      N.shiftr (param_value f p) (pad_shift f p) = N.shiftr (param_value f p') (pad_shift f p)
  | TTernary => p_mask p = p_mask p' /\
      N.land (param_value f p) (be_val (p_mask p)) = N.land (param_value f p') (be_val (p_mask p))
  | TRange => param_value f p = param_value f p' /\ p_mask p = p_mask p'
  end.

Lemma app_len_inj {A} (a b c d : list A) : length a = length c -> a ++ b = c ++ d -> a = c /\ b = d.
Proof.
  revert c; induction a as [|x a IH]; intros [|y c] L E; cbn [length app] in *; try discriminate; auto.
  injection E as -> E. destruct (IH c ltac:(lia) E) as [-> ->]. auto.
Qed.

Section SK.
Variables (kd : mkind) (fs : list kfield) (ps ps' : list param).
Let n := length fs.
Notation F i := (nth i fs dummyF).
Notation P i := (nth i ps dummyP).
Notation P' i := (nth i ps' dummyP).
Hypothesis HL : layout_ok kd fs.
Hypothesis T1 : Forall param_typed ps.
Hypothesis T2 : Forall param_typed ps'.
Hypothesis L1 : length ps = n.
Hypothesis L2 : length ps' = n.
Hypothesis A1 : forall i, i < n -> param_acceptable (F i) (P i).
Hypothesis A2 : forall i, i < n -> param_acceptable (F i) (P' i).

Let D := D2 kd fs ps.
Let D' := D2 kd fs ps'.
Let M := M0 ps.
Let M' := M0 ps'.

Lemma D_eq i : i < n -> D i = D' i <-> be_val (D i) = be_val (D' i).
Proof.
  intros H. destruct (D2_props kd fs ps HL T1 L1 A1 i H) as (A & B & _).
  destruct (D2_props kd fs ps' HL T2 L2 A2 i H) as (A' & B' & _).
  split; [intros ->; auto|]. apply be_val_inj; auto. unfold D, D'. rewrite B, B'. auto.
Qed.

Lemma M0_val i : i < n -> f_type (F i) <> TLpm -> f_type (F i) <> TTernary -> f_type (F i) <> TRange ->
  M i = M' i.
Proof.
  intros H N1 N2 N3. destruct (A1 i H) as (X1 & X2 & _), (A2 i H) as (Y1 & Y2 & _).
  unfold M, M', M0. rewrite X1, Y1, X2, Y2. destruct (f_type (F i)); congruence.
Qed.

Lemma pv_lt i : i < n -> (param_value (F i) (P i) < 2 ^ N.of_nat (8 * f_nbytes (F i)))%N.
Proof. apply (param_value_lt kd fs ps HL T1 L1 A1). Qed.
Lemma pv_lt' i : i < n -> (param_value (F i) (P' i) < 2 ^ N.of_nat (8 * f_nbytes (F i)))%N.
Proof. apply (param_value_lt kd fs ps' HL T2 L2 A2). Qed.

Lemma shl_inj a b s : N.shiftl a s = N.shiftl b s -> a = b.
Proof.
  intros Q. apply (f_equal (fun z => N.shiftr z s)) in Q.
  rewrite !N.shiftr_shiftl_l, N.sub_diag, !N.shiftl_0_r in Q by lia. exact Q.
Qed.

Lemma ranked_chunk i : i < n -> kd = KTernary \/ kd = KRange ->
  (D i = D' i /\ M i = M' i) <-> sameP (F i) (P i) (P' i).
Proof.
  intros H K. rewrite D_eq by auto. unfold D, D'.
  rewrite (D2_val kd fs ps HL T1 L1 A1 i H), (D2_val kd fs ps' HL T2 L2 A2 i H). cbv beta.
  pose proof (ptype fs ps A1 i H) as PT. pose proof (ptype fs ps' A2 i H) as PT'. cbv beta in PT, PT'.
  assert (E : forall (A B C : N), (match kd with
             | KTernary => B | KRange => if isr ps i then A else B | _ => A end =
             match f_type (F i) with TRange => match kd with KTernary => B | _ => A end | _ => B end)).
  { intros A B _. unfold isr. rewrite PT. destruct K as [-> | ->]; destruct (f_type (F i)); reflexivity. }
  assert (E' : forall (A B C : N), (match kd with
             | KTernary => B | KRange => if isr ps' i then A else B | _ => A end =
             match f_type (F i) with TRange => match kd with KTernary => B | _ => A end | _ => B end)).
  { intros A B _. unfold isr. rewrite PT'. destruct K as [-> | ->]; destruct (f_type (F i)); reflexivity. }
  rewrite E, E' by exact 0%N. clear E E'.
  assert (TI : type_in kd (f_type (F i))).
  { destruct (proj2 HL) as (T & _). rewrite Forall_forall in T. apply T, nth_In. auto. }
  unfold sameP. destruct (f_type (F i)) eqn:T.
  - (* range *)
    assert (kd = KRange) as -> by (destruct K as [-> | ->]; [exfalso; apply TI; auto|auto]).
    unfold M, M', M0. rewrite PT, PT'. reflexivity.
  - rewrite (land_M0 kd fs ps HL T1 L1 A1 i H), (land_M0 kd fs ps' HL T2 L2 A2 i H) by (left; exact T).
    rewrite M0_val by (auto; congruence). tauto.
  - rewrite (land_M0 kd fs ps HL T1 L1 A1 i H), (land_M0 kd fs ps' HL T2 L2 A2 i H) by (right; exact T).
    rewrite M0_val by (auto; congruence). tauto.
  - destruct (plen_nat fs ps L1 A1 i H T) as [Z1 B1]. destruct (plen_nat fs ps' L2 A2 i H T) as [Z2 B2]. cbv beta in *.
    unfold M, M'. rewrite (M0_lpm fs ps L1 A1 i H T), (M0_lpm fs ps' L2 A2 i H T). cbv beta.
    rewrite !pmask_val by auto. rewrite !land_pmask by (auto using pv_lt, pv_lt').
    unfold pad_shift. split.
    + intros [X Y].
      assert (PE : p_plen (P i) = p_plen (P' i)).
      { apply (f_equal pref_len_from_mask) in Y. rewrite !pref_len_pmask in Y by auto. congruence. }
      split; auto. rewrite <- PE in X. apply shl_inj in X. exact X.
    + intros [PE X]. rewrite <- PE. split; [congruence|reflexivity].
  - unfold M, M', M0. rewrite PT, PT'. split; intros [X Y]; split; auto; congruence.
Qed.

Lemma exact_chunk' i : i < n -> f_type (F i) = TValid \/ f_type (F i) = TExact -> kd = KExact \/ kd = KLpm ->
  D i = D' i <-> sameP (F i) (P i) (P' i).
Proof.
  intros H T K. rewrite D_eq by auto. unfold D, D'.
  rewrite (D2_val kd fs ps HL T1 L1 A1 i H), (D2_val kd fs ps' HL T2 L2 A2 i H). cbv beta.
  unfold sameP. destruct T as [-> | ->], K as [-> | ->]; reflexivity.
Qed.

Lemma same_key_iff pr pr' :
  same_key kd (ekey kd fs ps pr) (ekey kd fs ps' pr') <->
  (forall i, i < n -> sameP (F i) (P i) (P' i)) /\ (kd = KTernary \/ kd = KRange -> pr = pr').
Proof.
  set (inv := kb_inv (kb_build fs)).
  assert (BB : forall i, In i inv <-> i < n) by (intros i; apply in_inv).
  assert (TY : forall i, i < n -> type_in kd (f_type (F i))).
  { intros i Hi. destruct (proj2 HL) as (T & _). rewrite Forall_forall in T. apply T, nth_In. auto. }
  assert (FD : flat_map D inv = flat_map D' inv <-> forall i, In i inv -> D i = D' i).
  { apply flat_map_eq_iff. intros i Hi. apply BB in Hi. unfold D, D'.
    destruct (D2_props kd fs ps HL T1 L1 A1 i Hi) as (_ & -> & _).
    destruct (D2_props kd fs ps' HL T2 L2 A2 i Hi) as (_ & -> & _). reflexivity. }
  assert (FM : flat_map M inv = flat_map M' inv <-> forall i, In i inv -> M i = M' i).
  { apply flat_map_eq_iff. intros i Hi. apply BB in Hi. unfold M, M'.
    destruct (M0_props kd fs ps HL T1 L1 A1 i Hi) as (_ & ->).
    destruct (M0_props kd fs ps' HL T2 L2 A2 i Hi) as (_ & ->). reflexivity. }
  assert (RK : kd = KTernary \/ kd = KRange ->
    (flat_map D inv = flat_map D' inv /\ flat_map M inv = flat_map M' inv <->
     forall i, i < n -> sameP (F i) (P i) (P' i))).
  { intros K. rewrite FD, FM. split.
    - intros [X Y] i Hi. apply ranked_chunk; auto. split; [apply X|apply Y]; apply BB; auto.
    - intros X. split; intros i Hi; apply BB in Hi; apply (ranked_chunk i Hi K); auto. }
  remember kd as k0 eqn:K in |- *; symmetry in K; destruct k0; unfold same_key.
  - rewrite <- K.
    change (flat_map D inv = flat_map D' inv <-> (forall i, i < n -> sameP (F i) (P i) (P' i)) /\ (kd = KTernary \/ kd = KRange -> pr = pr')).
    rewrite FD. rewrite K in TY. split.
    + intros X. split; [|rewrite K; intros [Q|Q]; discriminate]. intros i Hi. apply exact_chunk'; auto; [apply (TY i Hi)|]. apply X, BB; auto.
    + intros [X _] i Hi. apply BB in Hi. apply exact_chunk'; auto. apply (TY i Hi).
  - destruct (lpm_last kd fs HL K) as (l & j & S & T & TE).
    assert (PL := plen_ekey kd fs ps HL L1 A1 pr K l j S T TE).
    assert (PL' := plen_ekey kd fs ps' HL L2 A2 pr' K l j S T TE). cbv beta in PL, PL'.
    rewrite K in PL, PL'. rewrite PL, PL'.
    assert (Hl : forall i, In i l -> i < n) by (intros i Hi; apply BB; unfold inv; rewrite S; apply in_or_app; auto).
    assert (Hj : j < n) by (apply BB; unfold inv; rewrite S; apply in_or_app; right; left; auto).
    change (k_data (ekey KLpm fs ps pr)) with (flat_map (D2 KLpm fs ps) inv).
    change (k_data (ekey KLpm fs ps' pr')) with (flat_map (D2 KLpm fs ps') inv).
    rewrite <- K. fold D. fold D'. unfold inv. rewrite S, !flat_map_app. cbn [flat_map]. rewrite !app_nil_r, !bits_of_bytes_app.
    set (w := list_sum (map (fun i => f_nbytes (F i)) l)).
    assert (Ld : length (flat_map D l) = w)
      by (apply flat_len; intros i Hi; apply (D2_props kd fs ps HL T1 L1 A1); auto).
    assert (Ld' : length (flat_map D' l) = w)
      by (apply flat_len; intros i Hi; apply (D2_props kd fs ps' HL T2 L2 A2); auto).
    destruct (D2_props kd fs ps HL T1 L1 A1 j Hj) as (Ba & Bl & _).
    destruct (D2_props kd fs ps' HL T2 L2 A2 j Hj) as (Ba' & Bl' & _). cbv beta in *. fold D in Ba, Bl. fold D' in Ba', Bl'.
    destruct (plen_nat fs ps L1 A1 j Hj T) as [Z1 B1]. destruct (plen_nat fs ps' L2 A2 j Hj T) as [Z2 B2]. cbv beta in *.
    rewrite !firstn_app, !bits_of_bytes_length, Ld, Ld'.
    rewrite (firstn_all2 (bits_of_bytes (flat_map D l))) by (rewrite bits_of_bytes_length; lia).
    rewrite (firstn_all2 (bits_of_bytes (flat_map D' l))) by (rewrite bits_of_bytes_length; lia).
    replace (8 * w + Z.to_nat (p_plen (P j)) - 8 * w) with (Z.to_nat (p_plen (P j))) by lia.
    replace (8 * w + Z.to_nat (p_plen (P' j)) - 8 * w) with (Z.to_nat (p_plen (P' j))) by lia.
    assert (E1 : bits_of_bytes (flat_map D l) = bits_of_bytes (flat_map D' l) <->
                 forall i, In i l -> sameP (F i) (P i) (P' i)).
    { transitivity (flat_map D l = flat_map D' l).
      - split; [|congruence]. apply bits_of_bytes_inj; apply bytes_ok_flat_map; intros i Hi;
          [apply (D2_props kd fs ps HL T1 L1 A1)|apply (D2_props kd fs ps' HL T2 L2 A2)]; auto.
      - rewrite flat_map_eq_iff.
        + split; intros X i Hi; specialize (X i Hi); apply exact_chunk' in X; auto.
        + intros i Hi. unfold D, D'.
          destruct (D2_props kd fs ps HL T1 L1 A1 i (Hl i Hi)) as (_ & -> & _).
          destruct (D2_props kd fs ps' HL T2 L2 A2 i (Hl i Hi)) as (_ & -> & _). reflexivity. }
    assert (E2 : firstn (Z.to_nat (p_plen (P j))) (bits_of_bytes (D j)) =
                 firstn (Z.to_nat (p_plen (P' j))) (bits_of_bytes (D' j)) <-> sameP (F j) (P j) (P' j)).
    { unfold sameP. rewrite T.
      assert (V : be_val (D j) = param_value (F j) (P j)) by (unfold D; rewrite (D2_val kd fs ps HL T1 L1 A1 j Hj), K; reflexivity).
      assert (V' : be_val (D' j) = param_value (F j) (P' j)) by (unfold D'; rewrite (D2_val kd fs ps' HL T2 L2 A2 j Hj), K; reflexivity).
      rewrite <- V, <- V'. unfold pad_shift.
      assert (Q : forall p, p <= 8 * f_nbytes (F j) ->
        (firstn p (bits_of_bytes (D j)) = firstn p (bits_of_bytes (D' j)) <->
         N.shiftr (be_val (D j)) (N.of_nat (8 * f_nbytes (F j) - p)) = N.shiftr (be_val (D' j)) (N.of_nat (8 * f_nbytes (F j) - p)))).
      { intros p Hp. pose proof (prefix_bits_iff p (D j) (D' j) Ba Ba' ltac:(lia) ltac:(lia)) as R. rewrite Bl in R.
        split.
        - intros X. symmetry. apply R. rewrite X. exists (skipn p (bits_of_bytes (D' j))). symmetry. apply firstn_skipn.
        - intros X. symmetry in X. apply R in X. destruct X as [t X].
          rewrite X, firstn_app, firstn_firstn, Nat.min_id.
          rewrite firstn_length_le by (rewrite bits_of_bytes_length; lia). rewrite Nat.sub_diag. cbn. rewrite app_nil_r. reflexivity. }
      split.
      - intros X. assert (PE : Z.to_nat (p_plen (P j)) = Z.to_nat (p_plen (P' j))).
        { apply (f_equal (@length bool)) in X. rewrite !firstn_length_le in X by (rewrite bits_of_bytes_length; lia). exact X. }
        rewrite <- PE in X. split; [lia|]. apply Q; auto.
      - intros [PE X]. rewrite <- PE. apply Q; auto. }
    split.
    + intros X. split; [|rewrite K; intros [Q|Q]; discriminate].
      assert (LL : length (bits_of_bytes (flat_map D l)) = length (bits_of_bytes (flat_map D' l)))
        by (rewrite !bits_of_bytes_length; lia).
      assert (Y : bits_of_bytes (flat_map D l) = bits_of_bytes (flat_map D' l) /\
        firstn (Z.to_nat (p_plen (P j))) (bits_of_bytes (D j)) = firstn (Z.to_nat (p_plen (P' j))) (bits_of_bytes (D' j))).
      { exact (app_len_inj _ _ _ _ LL X). }
      destruct Y as [Y1 Y2]. intros i Hi. apply BB in Hi. unfold inv in Hi. rewrite S in Hi.
      apply in_app_or in Hi as [Hi|[<-|[]]]; [apply E1|apply E2]; auto.
    + intros [X _]. rewrite (proj2 E1), (proj2 E2); auto.
  - rewrite <- K. replace (ekey kd fs ps pr) with (ekey kd fs ps pr) by auto. unfold ekey. rewrite K.
    cbn [k_data k_mask k_prio]. rewrite <- K. fold inv. change (D2 kd fs ps) with D. change (D2 kd fs ps') with D'.
    change (M0 ps) with M. change (M0 ps') with M'.
    rewrite <- RK by auto. rewrite K. split; [intros (a & b & c); auto|intros [[a b] c]; auto 6].
  - rewrite <- K. unfold ekey. rewrite K.
    cbn [k_data k_mask k_prio k_widths]. rewrite <- K. fold inv. change (D2 kd fs ps) with D. change (D2 kd fs ps') with D'.
    change (M0 ps) with M. change (M0 ps') with M'.
    rewrite <- RK by auto. rewrite K. split; [intros (a & b & c & _); auto|intros [[a b] c]; auto 8].
Qed.
End SK.
