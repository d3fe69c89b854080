(** Proofs about the parser model: extraction from packet bytes and accounting of consumed bytes. *)
From Coq Require Import List Arith NArith ZArith Bool Lia.
From Verif Require Import Base Bits Bytes EntryListSpec DataModel ExtractModel ExtractSpec ExtractProofs ExtractProps PhvModel PhvSpec PhvProofs PhvProofs2 PhvProofs3 PhvProofs5 PhvProofs6 PhvProofs7 PhvProps ParserModel ParserSpec.
Import ListNotations.

(** ** Codec *)
Lemma memcpy_fits dst src n r : memcpy dst src n = Some r -> n <= length src.
Proof. unfold memcpy. destruct (Nat.leb_spec n (length src)); cbn [andb]; congruence. Qed.
Lemma nth_error_fits {A} (l : list A) n x : nth_error l n = Some x -> n < length l.
Proof. intros E. apply nth_error_Some. congruence. Qed.
Lemma upd_loop_reads f n : forall lo dst r, upd_loop lo n f dst = Some r -> forall i, lo <= i < lo + n -> exists old v, f i old = Some v.
Proof.
  induction n as [|n IH]; intros lo dst r E i Hi; [lia|]. cbn [upd_loop] in E. destruct (nth_error dst lo) as [o|]; [|discriminate]. destruct (f lo o) as [v|] eqn:F; [|discriminate].
  destruct (Nat.eq_dec i lo) as [->|N]; [eauto|]. eapply IH; eauto. lia.
Qed.
Lemma get1_fits u i f v : get1 u i f = Some v -> i < length u.
Proof. unfold get1. destruct (nth_error u i) eqn:E; [|discriminate]. intros _. eapply nth_error_fits; eauto. Qed.
Lemma get2_fits u i j f v : get2 u i j f = Some v -> i < length u /\ j < length u.
Proof. unfold get2. destruct (nth_error u i) eqn:E; [|discriminate]. destruct (nth_error u j) eqn:E2; [|discriminate]. intros _. split; eapply nth_error_fits; eauto. Qed.
Ltac bnd E := match type of E with ExtractModel.bind ?x _ = Some _ => let D := fresh "D" in destruct x eqn:D; cbn [ExtractModel.bind] in E; [|discriminate E] end.
Lemma g_extract_fits data off w dst r : g_extract data off w dst = Some r -> 0 < w -> off < 8 -> off + w <= 8 * length data.
Proof.
  unfold g_extract. intros E HW HO. pose proof (nbw_spec w) as NB. unfold nbw in NB. set (nb := (w + 7) / 8) in *. cbv zeta in E.
  destruct (Nat.eqb_spec off 0) as [->|N0]; cbn [andb] in E.
  - destruct (Nat.eqb_spec (w mod 8) 0) as [M|M].
    + apply memcpy_fits in E. lia.
    + destruct (Nat.eqb_spec 0 (8 * nb - w)) as [A|A]; [|destruct (Nat.ltb_spec (8 * nb - w) 0) as [B|B]].
      * bnd E. apply memcpy_fits in D. lia.
      * lia.
      * bnd E. unfold upd1 in D. destruct (Nat.eq_dec nb 1) as [N1|N1].
        -- destruct (upd_loop_reads _ _ _ _ _ D 0 ltac:(lia)) as (o & v & F). apply get1_fits in F. lia.
        -- destruct (upd_loop_reads _ _ _ _ _ E (nb - 1) ltac:(lia)) as (o & v & F). apply get2_fits in F. lia.
  - destruct (Nat.eqb_spec off (8 * nb - w)) as [A|A]; [|destruct (Nat.ltb_spec (8 * nb - w) off) as [B|B]].
    + bnd E. apply memcpy_fits in D. lia.
    + bnd E. bnd E. bnd E. destruct (Nat.ltb_spec (8 * nb) (off + w)) as [C|C]; [|lia].
      unfold upd1 in E. destruct (upd_loop_reads _ _ _ _ _ E (nb - 1) ltac:(lia)) as (o & v & F). apply get1_fits in F. lia.
    + bnd E. unfold upd1 in D. destruct (Nat.eq_dec nb 1) as [N1|N1].
      * destruct (upd_loop_reads _ _ _ _ _ D 0 ltac:(lia)) as (o & v & F). apply get1_fits in F. lia.
      * destruct (upd_loop_reads _ _ _ _ _ E (nb - 1) ltac:(lia)) as (o & v & F). apply get2_fits in F. lia.
Qed.

Fixpoint lay (off : nat) (ws : list nat) : Prop := match ws with [] => True | w :: r => (0 < w \/ off = 0) /\ lay ((off + w) mod 8) r end.
Lemma total_cons w ws : total (w :: ws) = w + total ws.
Proof. reflexivity. Qed.
Lemma h_extract_ok ws : forall data off, bytes_ok data -> off < 8 -> lay off ws -> off + total ws <= 8 * length data ->
  exists bs, h_extract ws data off = Some bs /\ Forall2 holds (cut ws (skipn off (bits_of_bytes data))) bs.
Proof.
  induction ws as [|w ws IH]; intros data off BD HO HW HL; cbn [h_extract cut].
  - exists []. split; auto.
  - destruct HW as [HW LY]. rewrite total_cons in HL.
    assert (EX : exists b, g_extract data off w (repeat 0%N ((w + 7) / 8)) = Some b /\ holds (firstn w (skipn off (bits_of_bytes data))) b).
    { destruct (Nat.eq_dec w 0) as [->|N].
      - destruct HW as [HW| ->]; [lia|]. exists []. split; [reflexivity|]. unfold holds. cbn [firstn length]. split; [constructor|]. split; reflexivity.
      - apply C25_extract; auto; [lia|lia|apply repeat_length]. }
    destruct EX as (b & -> & HB). cbn [ExtractModel.bind].
    pose proof (adv (off + w)) as [A1 A2]. destruct (IH (skipn ((off + w) / 8) data) ((off + w) mod 8)) as (bs & -> & HBS).
    + apply bytes_ok_skipn; auto.
    + auto.
    + auto.
    + rewrite skipn_length. lia.
    + cbn [ExtractModel.bind]. exists (b :: bs). split; auto. constructor; auto. rewrite bits_skipn, skipn_skipn' in HBS. rewrite skipn_skipn'. replace (off + w) with (8 * ((off + w) / 8) + (off + w) mod 8) by lia. exact HBS.
Qed.
Lemma h_extract_fits ws : forall data off bs, off < 8 -> h_extract ws data off = Some bs -> total ws = 0 \/ off + total ws <= 8 * length data.
Proof.
  induction ws as [|w ws IH]; intros data off bs HO E; [auto|]. cbn [h_extract] in E. rewrite total_cons. bnd E. cbv zeta in E. bnd E. pose proof (adv (off + w)) as [A1 A2].
  pose proof (IH _ _ _ A2 D0) as F. destruct (Nat.eq_dec w 0) as [->|N].
  - rewrite skipn_length in F. replace (off + 0) with off in * by lia. rewrite (Nat.div_small off 8), (Nat.mod_small off 8) in F by lia. lia.
  - apply g_extract_fits in D; [|lia|auto]. rewrite skipn_length in F. lia.
Qed.
Lemma h_extract_length ws : forall data off bs, h_extract ws data off = Some bs -> length bs = length ws.
Proof. induction ws as [|w ws IH]; intros data off bs E; cbn [h_extract] in E; [injection E as <-; auto|]. bnd E. cbv zeta in E. bnd E. injection E as <-. cbn [length]. f_equal. eauto. Qed.

Lemma holds_bits v b : holds v b -> bitsN (length v) (be_val b) = v.
Proof.
  intros (B & _ & E). rewrite be_val_bits, E, of_bits_app by auto. replace (of_bits (repeat false (8 * ((length v + 7) / 8) - length v))) with 0%N; [|symmetry].
  - rewrite N.mul_0_l, N.add_0_l. apply bitsN_of_bits.
  - generalize (8 * ((length v + 7) / 8) - length v). induction n as [|n IH]; [reflexivity|]. cbn [repeat]. rewrite of_bits_cons, IH. cbn [N.b2n]. lia.
Qed.
Lemma cut_total ws : forall l, concat (cut ws l) = firstn (total ws) l.
Proof.
  induction ws as [|w ws IH]; intros l; [reflexivity|]. cbn [cut concat]. rewrite IH, total_cons. rewrite <- (firstn_skipn w l) at 3. rewrite firstn_app. rewrite firstn_firstn, firstn_length.
  rewrite (Nat.min_r (w + total ws) w) by lia. f_equal. destruct (Nat.le_gt_cases w (length l)) as [A|A].
  - rewrite Nat.min_l by lia. f_equal. lia.
  - rewrite (skipn_all2 l) by lia. rewrite !firstn_nil. auto.
Qed.
Lemma fields_bits ws : forall l bs, total ws <= length l -> Forall2 holds (cut ws l) bs -> concat (map field_bits (combine ws (map import_bytes bs))) = firstn (total ws) l.
Proof.
  intros l bs HL F. rewrite <- cut_total. f_equal. revert l bs HL F. induction ws as [|w ws IH]; intros l bs HL F; cbn [cut] in F; inversion F as [|v b vs bs' HV HF]; subst; auto.
  cbn [map combine cut]. rewrite total_cons in HL. rewrite IH with (l := skipn w l); auto; [|rewrite skipn_length; lia]. f_equal. unfold field_bits, import_bytes. cbn [fst snd].
  replace (Z.to_N (Z.of_N (be_val b) mod 2 ^ Z.of_nat w)) with (be_val b mod 2 ^ N.of_nat w)%N.
  2: { apply N2Z.inj. rewrite N2Z.inj_mod, N2Z.inj_pow, nat_N_Z. rewrite Z2N.id; auto. apply Z.mod_pos_bound. lia. }
  rewrite bitsN_mod. pose proof (holds_bits _ _ HV) as HB. rewrite firstn_length, Nat.min_l in HB by lia. exact HB.
Qed.

Lemma lay_widths t vl : forall off, vl mod 8 = 0 -> layout_ok off t -> lay off (widths t vl).
Proof.
  induction t as [|[w|] t IH]; intros off V L; cbn [widths map lay layout_ok] in *; auto.
  - destruct L as [L1 L2]. split; auto.
  - destruct L as [-> L2]. split; auto. replace ((0 + vl) mod 8) with 0 by (rewrite Nat.add_0_l; auto). auto.
Qed.
Lemma total_widths t vl : total (widths t vl) = fixed_bits t + n_VL t * vl.
Proof. induction t as [|[w|] t IH]; auto; unfold widths, fixed_bits, n_VL in *; cbn [map filter]; rewrite total_cons, IH; cbn [fold_right length]; lia. Qed.
Lemma total_sum fs : total (map fst fs) = sum_bits fs.
Proof. reflexivity. Qed.
Lemma is_VL_in t : is_VL t = true <-> In None (hd_fields t).
Proof. unfold is_VL. rewrite existsb_exists. split; [intros ([w|] & A & B); [discriminate|auto]|intros A; exists None; auto]. Qed.
Lemma n_VL_zero t : is_VL t = false -> n_VL (hd_fields t) = 0.
Proof. unfold is_VL, n_VL. induction (hd_fields t) as [|[w|] l IH]; cbn [existsb filter]; auto; discriminate. Qed.
Lemma n_VL_pos t : is_VL t = true -> 1 <= n_VL (hd_fields t).
Proof. unfold is_VL, n_VL. induction (hd_fields t) as [|[w|] l IH]; cbn [existsb filter]; intros E; [discriminate|auto|cbn; lia]. Qed.
Lemma widths_noVL t vl vl' : is_VL t = false -> widths (hd_fields t) vl = widths (hd_fields t) vl'.
Proof. unfold is_VL, widths. induction (hd_fields t) as [|[w|] l IH]; cbn [existsb map]; intros E; auto; [f_equal; auto|discriminate]. Qed.
Lemma widths_length t vl : length (widths t vl) = length t.
Proof. apply map_length. Qed.
Lemma combine_widths t vl vals : map (fun p : option nat * Z => (match fst p with Some w => w | None => vl end, snd p)) (combine t vals) = combine (widths t vl) vals.
Proof. revert vals. induction t as [|w t IH]; intros [|v vals]; auto. cbn [combine map widths]. rewrite IH. auto. Qed.
Lemma map_fst_combine {A B} (l : list A) : forall (m : list B), length l = length m -> map fst (combine l m) = l.
Proof. induction l as [|a l IH]; intros [|b m] E; try discriminate; auto. cbn [combine map fst]. f_equal. auto. Qed.

(** ** Header extraction *)
Lemma extract_spec d s h vl vals t x s' : wf d -> wf_layout d -> INV false d s -> nth_error (ds_h d) h = Some t -> H s h = Some x -> extract d s h vl vals = Some s' ->
  length vals = length (hd_fields t) /\ (is_VL t = true -> vl mod 8 = 0) /\ INV false d s' /\ frame s s' /\
  H s' h = Some (mk_hdr true true (combine (widths (hd_fields t) vl) vals) (Z.of_nat (total (widths (hd_fields t) vl) / 8))) /\ total (widths (hd_fields t) vl) mod 8 = 0 /\
  (forall k y, k <> h -> H s k = Some y -> H s' k = Some (after_valid d h k y)).
Proof.
  intros W WL I T X E. assert (LV : length vals = length (hd_fields t)).
  { unfold extract in E. rewrite T in E. unfold H in X. rewrite X in E. cbn [bind] in E. destruct (Nat.eqb_spec (length vals) (length (hd_fields t))); congruence. }
  assert (SB : sum_bits (combine (widths (hd_fields t) vl) vals) = total (widths (hd_fields t) vl)) by (rewrite <- total_sum, map_fst_combine; auto; rewrite widths_length; auto).
  assert (V : is_VL t = true -> vl mod 8 = 0).
  { intros VL. unfold extract in E. rewrite T in E. unfold H in X. rewrite X in E. cbn [bind] in E. rewrite LV, Nat.eqb_refl, VL, combine_widths, SB in E.
    destruct (Nat.eqb_spec (total (widths (hd_fields t) vl) mod 8) 0) as [M|M]; cbn [negb andb] in E; [|discriminate]. rewrite total_widths in M.
    pose proof (wl_one _ WL _ _ T). pose proof (n_VL_pos _ VL). replace (n_VL (hd_fields t)) with 1 in M by lia. rewrite Nat.mul_1_l in M. pose proof (wf_size _ W _ _ T) as F8.
    rewrite Nat.add_mod, F8 in M by lia. rewrite Nat.add_0_l, Nat.mod_mod in M by lia. auto. }
  split; auto. split; auto.
  assert (EXT : exists vl', extract d s h vl' vals = Some s' /\ widths (hd_fields t) vl' = widths (hd_fields t) vl /\ vl' mod 8 = 0).
  { destruct (is_VL t) eqn:VL; [exists vl; auto|]. exists 0. split; [|split; [apply widths_noVL; auto|auto]]. rewrite <- E. unfold extract. rewrite T. cbn [bind]. rewrite VL. destruct (nth_error (p_h s) h); auto. cbn [bind andb].
    rewrite !combine_widths, (widths_noVL t 0 vl); auto. }
  destruct EXT as (vl' & E' & WE & V'). destruct (extract_ok false d s h vl' vals t x W I T X LV V') as (s2 & fs & nb & E2 & I2 & FR & HE & MS & O).
  assert (s2 = s') by congruence. subst s2. split; auto. split; auto.
  assert (TM : total (widths (hd_fields t) vl) mod 8 = 0).
  { rewrite <- WE. pose proof (ext_sum8 _ _ (ext_fields (hd_fields t) vl' vals LV V') (wf_size _ W _ _ T)) as [M8 _]. rewrite combine_widths in M8. rewrite <- total_sum, map_fst_combine in M8 by (rewrite widths_length; auto). auto. }
  split; [|split; auto].
  pose proof (i_f _ _ _ I2 _ _ _ T HE) as [FM NB]. cbn [d_fields d_nb] in *.
  assert (FE : fs = combine (widths (hd_fields t) vl) vals).
  { unfold extract in E'. rewrite T in E'. unfold H in X. rewrite X in E'. cbn [bind] in E'. rewrite LV, Nat.eqb_refl, combine_widths, WE in E'. destruct (is_VL t && _); [discriminate|].
    match type of E' with mark_valid d (set_h s h ?y) h = _ => set (y0 := y) in * end. assert (L : h < length (p_h s)) by (eapply nth_error_lt; eauto).
    destruct (mark_valid_ok false d (set_h s h y0) h y0 W) as (s3 & E3 & _ & _ & H3 & _).
    - apply (INV_set false d s h x y0 I X); [reflexivity|discriminate|]. intros t' T'. rewrite T in T'. injection T' as <-. pose proof (i_f _ _ _ I _ _ _ T X) as [FX NX]. split.
      + subst y0. cbn [d_fields]. rewrite <- WE, <- combine_widths. apply ext_fields; auto.
      + subst y0. cbn [d_fields d_nb]. rewrite <- WE, <- combine_widths. pose proof (ext_fields (hd_fields t) vl' vals LV V') as F. pose proof (ext_sum8 _ _ F (wf_size _ W _ _ T)) as [_ S8]. destruct (is_VL t) eqn:VL; auto.
        rewrite NX. f_equal. eapply widths_sum; eauto.
    - apply H_set_eq; auto.
    - assert (s3 = s') by congruence. subst s3. rewrite HE in H3. injection H3 as -> _. reflexivity. }
  rewrite HE. f_equal. f_equal; auto. rewrite FE, SB in NB. pose proof (Nat.div_mod (total (widths (hd_fields t) vl)) 8). lia.
Qed.

Section Parse.
Variables (legacy : bool) (lx : nat -> option (phv -> Z)) (d : desc) (data : list N).
Hypotheses (W : wf d) (WL : wf_layout d) (BD : bytes_ok data).

Definition piece (bp n : nat) : list N := firstn n (skipn bp data).
(** What an extraction into header [h] does. *)
Record extracted (s : phv) (h bp : nat) (s' : phv) (bp' : nat) (ev : list event) : Prop := {
  ex_inv : INV false d s';
  ex_frame : frame s s';
  ex_le : bp <= bp' <= length data;
  ex_ev : exists x, H s' h = Some x /\ d_valid x = true /\ d_vf x = true /\ ev = [EvHdr h (d_fields x)] /\ accounts (piece bp (bp' - bp)) (EvHdr h (d_fields x));
  ex_other : forall k y, k <> h -> H s k = Some y -> H s' k = Some (after_valid d h k y) }.

Lemma do_extract_spec s h vl bp s' bp' ev : INV false d s -> bp <= length data -> do_extract d s h vl data bp = Some (s', bp', ev) ->
  extracted s h bp s' bp' ev /\ exists t, nth_error (ds_h d) h = Some t /\ bp' = bp + total (widths (hd_fields t) vl) / 8 /\ map fst (match ev with [EvHdr _ fs] => fs | _ => [] end) = widths (hd_fields t) vl.
Proof.
  intros I HB E. unfold do_extract in E. destruct (nth_error (ds_h d) h) as [t|] eqn:T; [|discriminate]. cbn [bind] in E.
  destruct (h_extract (widths (hd_fields t) vl) (skipn bp data) 0) as [bs|] eqn:HX; [|discriminate]. cbn [bind] in E.
  destruct (extract d s h vl (map import_bytes bs)) as [s1|] eqn:EX; [|discriminate]. cbn [bind] in E.
  destruct (H_get _ _ _ h I (nth_error_lt _ _ _ T)) as (x & X).
  destruct (extract_spec d s h vl _ t x s1 W WL I T X EX) as (LV & V & I' & FR & HE & TM & O). set (ws := widths (hd_fields t) vl) in *.
  unfold H in HE. rewrite HE in E. cbn [bind d_nb d_fields] in E. fold (H s1 h) in HE. remember (total ws / 8) as q eqn:Q. injection E as <- <- <-. subst q.
  pose proof (h_extract_fits ws (skipn bp data) 0 bs ltac:(lia) HX) as FIT. rewrite skipn_length in FIT. pose proof (Nat.div_mod (total ws) 8 ltac:(lia)) as DM. rewrite TM in DM.
  assert (LB : length bs = length ws) by (eapply h_extract_length; eauto).
  assert (TF : total ws <= 8 * (length data - bp)) by lia.
  assert (BP : Z.to_nat (Z.of_nat bp + Z.of_nat (total ws / 8)) = bp + total ws / 8) by lia. rewrite BP.
  assert (MF : map fst (combine ws (map import_bytes bs)) = ws) by (apply map_fst_combine; rewrite map_length; auto).
  split; [|exists t; auto].
  constructor; auto; [lia|]. eexists. split; [exact HE|]. cbn [d_valid d_vf d_fields]. split; auto. split; auto. split; auto.
  unfold accounts. assert (exists vl', widths (hd_fields t) vl' = ws /\ vl' mod 8 = 0) as (vl' & WE & V').
  { destruct (is_VL t) eqn:VL; [exists vl; auto|exists 0; split; auto; apply widths_noVL; auto]. }
  assert (LY : lay 0 ws) by (rewrite <- WE; apply lay_widths; auto; eapply wl_layout; eauto).
  destruct (h_extract_ok ws (skipn bp data) 0 (bytes_ok_skipn _ _ BD) ltac:(lia) LY) as (bs' & HX' & F2); [rewrite skipn_length; lia|].
  assert (bs' = bs) by congruence. subst bs'. cbn [skipn] in F2. rewrite (fields_bits ws (bits_of_bytes (skipn bp data)) bs); auto; [|rewrite bits_of_bytes_length, skipn_length; lia].
  unfold piece. rewrite bits_firstn. f_equal. lia.
Qed.
Lemma do_extract_ok s h vl bp t : INV false d s -> bp <= length data -> nth_error (ds_h d) h = Some t -> (is_VL t = true -> vl mod 8 = 0) -> total (widths (hd_fields t) vl) <= 8 * (length data - bp) ->
  exists r, do_extract d s h vl data bp = Some r.
Proof.
  intros I HB T V TF. unfold do_extract. rewrite T. cbn [bind]. set (ws := widths (hd_fields t) vl) in *.
  assert (exists vl', widths (hd_fields t) vl' = ws /\ vl' mod 8 = 0 /\ forall vals, extract d s h vl vals = extract d s h vl' vals) as (vl' & WE & V' & EE).
  { destruct (is_VL t) eqn:VL; [exists vl; auto|exists 0; split; [apply widths_noVL; auto|split; auto]]. intros vals. unfold extract. rewrite T. cbn [bind]. rewrite VL. destruct (nth_error (p_h s) h); auto. cbn [bind andb].
    rewrite !combine_widths, (widths_noVL t 0 vl); auto. }
  assert (LY : lay 0 ws) by (rewrite <- WE; apply lay_widths; auto; eapply wl_layout; eauto).
  destruct (h_extract_ok ws (skipn bp data) 0 (bytes_ok_skipn _ _ BD) ltac:(lia) LY) as (bs & HX & F2); [rewrite skipn_length; lia|]. rewrite HX. cbn [bind]. rewrite EE.
  destruct (H_get _ _ _ h I (nth_error_lt _ _ _ T)) as (x & X).
  destruct (extract_ok false d s h vl' (map import_bytes bs) t x W I T X) as (s2 & fs & nb & -> & _ & _ & HE & _); auto.
  { rewrite map_length, (h_extract_length _ _ _ _ HX). unfold ws. apply widths_length. }
  cbn [bind]. unfold H in HE. rewrite HE. cbn [bind]. eauto.
Qed.
End Parse.
