(** Effect of the header operations of the packet header vector model. *)
From Coq Require Import List Arith ZArith Bool Lia.
From Verif Require Import Base PhvModel PhvSpec PhvProofs.
Import ListNotations.

Lemma sum_bits_cons w v fs : sum_bits ((w, v) :: fs) = w + sum_bits fs.
Proof. reflexivity. Qed.
Lemma mod8 n : n mod 8 = 0 -> exists k, n = 8 * k.
Proof. intros E. exists (n / 8). apply Nat.div_exact; lia. Qed.
Lemma widths_sum t fx fy : Forall2 wmatch t fx -> Forall2 wmatch t fy -> existsb (fun w : option nat => match w with None => true | Some _ => false end) t = false -> sum_bits fx = sum_bits fy.
Proof.
  intros A. revert fy. induction A as [|w f t fx WM A IH]; intros fy B; inversion B; subst; auto. cbn [existsb]. destruct w; [|discriminate]. cbn [orb]. intros E.
  match goal with K : wmatch (Some _) ?z |- _ => destruct z as [? ?] end. destruct f. rewrite !sum_bits_cons. cbn in *. erewrite IH by eauto. congruence.
Qed.
Lemma copy_all t fx fy : Forall2 wmatch t fx -> Forall2 wmatch t fy ->
  map (fun p : option nat * ((nat * Z) * (nat * Z)) => match fst p with None => snd (snd p) | Some _ => (fst (fst (snd p)), snd (snd (snd p))) end) (combine t (combine fx fy)) = fy.
Proof.
  intros A. revert fy. induction A as [|w f t fx WM A IH]; intros fy B; inversion B; subst; auto. cbn [combine map fst snd]. rewrite IH by auto. f_equal.
  destruct w; auto. destruct y, f. cbn in *. congruence.
Qed.
Lemma new_fields t : Forall2 wmatch t (map (fun w => (match w with Some w => w | None => 0 end, 0%Z)) t).
Proof. induction t as [|[w|] t IH]; cbn; constructor; auto; cbn; auto. Qed.
Lemma new_sum t : sum_bits (map (fun w => (match w with Some w => w | None => 0 end, 0%Z)) t) = fixed_bits t.
Proof. unfold sum_bits, fixed_bits. rewrite map_map. auto. Qed.
Lemma nth_error_map' {A B} (f : A -> B) l n : nth_error (map f l) n = option_map f (nth_error l n).
Proof. revert n; induction l; destruct n; cbn; auto. Qed.
Lemma new_hdr_ok t : fixed_bits (hd_fields t) mod 8 = 0 -> fields_ok t (new_hdr t).
Proof.
  intros E. split; cbn [new_hdr d_fields d_nb]; [apply new_fields|]. rewrite new_sum. apply mod8 in E as (k & ->). rewrite Nat.mul_comm, Nat.div_mul by lia. lia.
Qed.
Theorem create_ok ag d : wf d -> INV ag d (create d).
Proof.
  intros W. constructor; cbn [create p_h p_u p_s p_us]; rewrite ?map_length; auto; unfold H; cbn [create p_h p_u p_s p_us].
  - intros u i h x v c M E U. rewrite nth_error_map' in E. rewrite nth_error_map' in U. destruct (nth_error (ds_h d) h); [|discriminate]. injection E as <-. destruct (nth_error (ds_u d) u); [|discriminate]. cbn in U. injection U as <- <-. auto.
  - intros u m c M U. rewrite nth_error_map', M in U. discriminate.
  - intros h t x T E. rewrite nth_error_map', T in E. injection E as <-. apply new_hdr_ok. eapply wf_size; eauto.
  - intros k e n K E. rewrite nth_error_map', K in E. injection E as <-. lia.
  - intros k e n K E. rewrite nth_error_map', K in E. injection E as <-. lia.
  - intros _ h x M E. rewrite nth_error_map' in E. destruct (nth_error (ds_h d) h); [|discriminate]. injection E as <-. auto.
Qed.

(** ** extract *)
Lemma ext_fields t vl vals : length vals = length t -> vl mod 8 = 0 ->
  Forall2 wmatch t (map (fun p : option nat * Z => (match fst p with Some w => w | None => vl end, snd p)) (combine t vals)).
Proof.
  intros L V. revert vals L. induction t as [|w t IH]; intros [|v vals] L; try discriminate; cbn; constructor; auto. destruct w; cbn; auto.
Qed.
Lemma ext_sum t fs : Forall2 wmatch t fs -> exists k, sum_bits fs = fixed_bits t + 8 * k.
Proof.
  induction 1 as [|w f t fs WM _ (k & IH)]; [exists 0; auto|]. unfold sum_bits, fixed_bits in *. cbn [map fold_right]. rewrite IH. destruct w; cbn in WM.
  - exists k. lia.
  - apply mod8 in WM as (j & ->). exists (j + k). lia.
Qed.
Lemma ext_sum8 t fs : Forall2 wmatch t fs -> fixed_bits t mod 8 = 0 -> sum_bits fs mod 8 = 0 /\ (8 * Z.of_nat (sum_bits fs / 8) = Z.of_nat (sum_bits fs))%Z.
Proof.
  intros A B. destruct (ext_sum _ _ A) as (k & E). apply mod8 in B as (j & Bj). assert (S8 : sum_bits fs = (j + k) * 8) by lia.
  rewrite S8. rewrite Nat.mod_mul, Nat.div_mul by lia. lia.
Qed.
Lemma extract_ok ag d s h vl vals t x : wf d -> INV ag d s -> nth_error (ds_h d) h = Some t -> H s h = Some x -> length vals = length (hd_fields t) -> vl mod 8 = 0 ->
  exists s' fs nb, extract d s h vl vals = Some s' /\ INV ag d s' /\ frame s s' /\ H s' h = Some (mk_hdr true true fs nb) /\ map snd fs = vals /\
    (forall k y, k <> h -> H s k = Some y -> H s' k = Some (after_valid d h k y)).
Proof.
  intros W I T E L V. unfold extract. rewrite T. unfold H in E. rewrite E. cbn [bind]. fold (H s h) in E. rewrite L, Nat.eqb_refl.
  set (fs := map _ (combine (hd_fields t) vals)). pose proof (ext_fields (hd_fields t) vl vals L V) as F. fold fs in F.
  pose proof (ext_sum8 _ _ F (wf_size _ W _ _ T)) as [M8 S8]. apply Nat.eqb_eq in M8. rewrite M8. cbn [negb]. rewrite andb_false_r.
  pose proof (i_f _ _ _ I _ _ _ T E) as [FX NX]. set (nb := if is_VL t then _ else _). set (y := mk_hdr _ _ fs nb).
  assert (I1 : INV ag d (set_h s h y)).
  { apply (INV_set ag d s h x); auto. intros t' T'. rewrite T in T'. injection T' as <-. split; auto. cbn [y d_nb d_fields]. unfold nb. destruct (is_VL t) eqn:VL; auto.
    rewrite NX. f_equal. eapply widths_sum; eauto. }
  pose proof (nth_error_lt _ _ _ E) as LH.
  destruct (mark_valid_ok ag d (set_h s h y) h y W I1) as (s' & Em & I' & FR & Hh & Hk & _); [apply H_set_eq; auto|].
  exists s', fs, nb. split; auto. split; auto. split. { eapply frame_trans; [|exact FR]. repeat split. cbn. rewrite list_set_length. auto. }
  split; auto. split.
  { unfold fs. rewrite map_map. cbn [snd]. clear - L. revert vals L. induction (hd_fields t); intros [|v vals] L; try discriminate; cbn; auto. f_equal. auto. }
  intros k z N Ek. apply Hk; auto. rewrite H_set_neq by auto. auto.
Qed.

(** ** add_header / remove_header *)
Lemma zero_fields t fs : Forall2 wmatch t fs -> Forall2 wmatch t (map (fun f : nat * Z => (fst f, 0%Z)) fs).
Proof. induction 1; cbn; constructor; auto. Qed.
Lemma zero_sum fs : sum_bits (map (fun f : nat * Z => (fst f, 0%Z)) fs) = sum_bits fs.
Proof. unfold sum_bits. rewrite map_map. auto. Qed.
Lemma reset_hdr_fields t x : fields_ok t x -> fields_ok t (reset_hdr x).
Proof. intros [A B]. split; cbn [reset_hdr d_fields d_nb]; [apply zero_fields; auto|rewrite zero_sum; auto]. Qed.
Lemma not_meta d h t : nth_error (ds_h d) h = Some t -> hd_meta t = false -> ~ meta d h.
Proof. intros A B (t' & C & D). congruence. Qed.
Lemma meta_intro d h t : nth_error (ds_h d) h = Some t -> hd_meta t = true -> meta d h.
Proof. intros. exists t. auto. Qed.
Lemma add_header_ok ag d s h t x : wf d -> INV ag d s -> nth_error (ds_h d) h = Some t -> H s h = Some x ->
  exists s', add_header d s h = Some s' /\ INV ag d s' /\ frame s s' /\
    (is_valid t x = true -> s' = s) /\
    (is_valid t x = false -> H s' h = Some (mk_hdr true true (map (fun f => (fst f, 0%Z)) (d_fields x)) (d_nb x)) /\ forall k y, k <> h -> H s k = Some y -> H s' k = Some (after_valid d h k y)).
Proof.
  intros W I T E. unfold add_header. rewrite T. unfold H in E. rewrite E. cbn [bind]. fold (H s h) in E. destruct (is_valid t x) eqn:V.
  - exists s. split; auto. split; auto. split; [apply frame_refl|]. split; auto. discriminate.
  - unfold is_valid in V. apply orb_false_iff in V as [V1 V2]. pose proof (nth_error_lt _ _ _ E) as LH.
    assert (I1 : INV ag d (set_h s h (reset_hdr x))).
    { apply (INV_set ag d s h x); auto.
      - intros A M. cbn. rewrite (i_ag _ _ _ I A _ _ M E). auto.
      - intros t' T'. rewrite T in T'. injection T' as <-. apply reset_hdr_fields. eapply i_f; eauto. }
    destruct (mark_valid_ok ag d (set_h s h (reset_hdr x)) h (reset_hdr x) W I1) as (s' & Em & I' & FR & Hh & Hk & _); [apply H_set_eq; auto|].
    exists s'. split; auto. split; auto. split. { eapply frame_trans; [|exact FR]. repeat split. cbn. rewrite list_set_length. auto. }
    split; [discriminate|]. intros _. split; auto. intros k z N Ek. apply Hk; auto. rewrite H_set_neq by auto. auto.
Qed.
Lemma remove_header_ok ag d s h t x : wf d -> INV ag d s -> nth_error (ds_h d) h = Some t -> H s h = Some x ->
  exists s', remove_header d s h = Some s' /\ INV ag d s' /\ frame s s' /\
    (is_valid t x = false -> s' = s) /\
    (is_valid t x = true -> H s' h = Some (with_valid x false)) /\ (forall k, k <> h -> H s' k = H s k).
Proof.
  intros W I T E. unfold remove_header. rewrite T. unfold H in E. rewrite E. cbn [bind]. fold (H s h) in E. destruct (is_valid t x) eqn:V.
  - destruct (mark_invalid_ok ag d s h x W I E) as (s' & -> & I' & FR & Hh & Hk & _). exists s'. split; auto. split; auto. split; auto. split; [discriminate|]. split; auto.
  - exists s. split; auto. split; auto. split; [apply frame_refl|]. split; auto. split; [discriminate|]. auto.
Qed.

(** ** assign_header *)
Lemma nb_eq t x y : fields_ok t x -> fields_ok t y -> is_VL t = false -> d_nb x = d_nb y.
Proof. intros [A B] [C D] V. rewrite (widths_sum _ _ _ A C V) in B. lia. Qed.
Lemma assign_header_ok ag d s a b y : wf d -> INV ag d s -> same_type d a b -> (ag = true -> ~ siblings d a b /\ (meta d b -> meta d a)) -> H s b = Some y ->
  exists ts s', nth_error (ds_h d) b = Some ts /\ assign_header d s a b = Some s' /\ INV ag d s' /\ frame s s' /\
    (is_valid ts y = false -> (forall x, H s a = Some x -> H s' a = Some (with_valid x false)) /\ forall k, k <> a -> H s' k = H s k) /\
    (is_valid ts y = true -> (exists vf, H s' a = Some (mk_hdr true vf (d_fields y) (d_nb y))) /\ forall k z, k <> a -> H s k = Some z -> H s' k = Some (after_valid d a k z)).
Proof.
  intros W I (ta & tb & Ta & Tb & TY) G E. exists tb.
  assert (LA : a < length (ds_h d)) by (eapply nth_error_lt; eauto). destruct (H_get _ _ _ a I LA) as (x & Ex).
  unfold assign_header. rewrite Ta, Tb. cbn [bind]. unfold H in E. rewrite E. cbn [bind]. fold (H s b) in E.
  destruct (is_valid tb y) eqn:V; cbn [negb].
  - destruct (mark_valid_ok ag d s a x W I Ex) as (s1 & -> & I1 & FR & Ha & Hk & _). cbn [bind]. rewrite TY, Nat.eqb_refl.
    assert (E1 : exists y1, H s1 b = Some y1 /\ d_fields y1 = d_fields y /\ d_nb y1 = d_nb y /\ (ag = true -> ~ meta d a -> d_vf y1 = true)).
    { destruct (Nat.eq_dec b a) as [->|N].
      - exists (with_valid x true). rewrite E in Ex. injection Ex as <-. split; auto.
      - rewrite (Hk b y N E). exists (after_valid d a b y). split; auto. unfold after_valid. split; [|split].
        + destruct (um d a) as [[? ?]|]; auto. destruct (um d b) as [[? ?]|]; auto. destruct (_ && _); auto.
        + destruct (um d a) as [[? ?]|]; auto. destruct (um d b) as [[? ?]|]; auto. destruct (_ && _); auto.
        + intros A M. destruct (G A) as [G1 G2]. assert (Mb : ~ meta d b) by tauto.
          assert (VY : d_vf y = true).
          { rewrite (i_ag _ _ _ I A _ _ Mb E). unfold is_valid in V. apply orb_true_iff in V as [V|V]; auto. exfalso. apply Mb. eapply meta_intro; eauto. }
          destruct (um d a) as [[u i]|] eqn:Ua; auto. destruct (um d b) as [[u' i']|] eqn:Ub; auto. destruct (Nat.eqb_spec u u'); auto. subst u'. exfalso. apply G1.
          exists u, i, i'. split; [apply um_member; auto|]. split; [apply um_member; auto|]. intros ->.
          apply um_member in Ua, Ub. destruct Ua as (m1 & A1 & A2), Ub as (m2 & B1 & B2). congruence. }
    destruct E1 as (y1 & E1 & Fy & Ny & VFy). unfold H in E1, Ha. rewrite E1, Ha. cbn [bind]. fold (H s1 b) in E1. fold (H s1 a) in Ha. cbn [d_fields with_valid d_valid d_nb].
    pose proof (wf_ty _ W _ _ _ _ Ta Tb TY) as TF.
    pose proof (i_f _ _ _ I _ _ _ Ta Ex) as FX. pose proof (i_f _ _ _ I _ _ _ Tb E) as FY0.
    assert (FY : fields_ok ta y) by (destruct FY0; split; auto; rewrite TF; auto).
    rewrite Fy. rewrite (copy_all (hd_fields ta) (d_fields x) (d_fields y)) by (apply FX || apply FY).
    pose proof (ext_sum8 _ _ (proj1 FY) (wf_size _ W _ _ Ta)) as [M8 S8]. apply Nat.eqb_eq in M8. rewrite M8. cbn [negb]. rewrite andb_false_r.
    assert (NB : (if is_VL ta then Z.of_nat (sum_bits (d_fields y) / 8) else d_nb x) = d_nb y).
    { destruct (is_VL ta) eqn:VL; [destruct FY as [_ FY]; lia|]. eapply nb_eq; eauto. }
    rewrite NB. eexists. split; [reflexivity|]. split; [reflexivity|].
    assert (LA1 : a < length (p_h s1)) by (eapply nth_error_lt; eauto). split.
    { apply (INV_set ag d s1 a (with_valid x true)); auto.
      intros t' T'. rewrite Ta in T'. injection T' as <-. auto. }
    split. { eapply frame_trans; [exact FR|]. repeat split. cbn. rewrite list_set_length. auto. }
    split; [discriminate|]. intros _. split; [exists (d_vf y1); apply H_set_eq; auto|]. intros k z N Ek. rewrite H_set_neq by auto. auto.
  - destruct (mark_invalid_ok ag d s a x W I Ex) as (s' & -> & I' & FR & Hh & Hk & _). exists s'. split; auto. split; auto. split; auto. split; auto. split; [|discriminate].
    intros _. split; auto. intros x' Ex'. rewrite Ex in Ex'. injection Ex' as <-. auto.
Qed.
