(** Proofs about BufBuilder. *)
From Coq Require Import List Arith NArith ZArith Bool Lia.
From Verif Require Import Base Bits Bytes EntryListSpec DataModel ExtractModel ExtractSpec ExtractProofs ExtractProps PhvModel PhvSpec PhvProofs ParserModel ParserSpec ParserProofs ParserProofs3 BufModel BufSpec.
Import ListNotations.

(** [l] holds the bits [P] followed by zeros. *)
Definition rep (l : list N) (P : list bool) : Prop := bytes_ok l /\ length l = nbw (length P) /\ forall p, bitat l p = nth p P false.

Lemma bitat_over l p : 8 * length l <= p -> bitat l p = false.
Proof. intros L. unfold bitat. rewrite nth_overflow; [apply N.bits_0|]. pose proof (pos_split p). lia. Qed.
Lemma bitat_skipn l q p : bitat (skipn q l) p = bitat l (8 * q + p).
Proof. rewrite <- !bits_nth, bits_skipn, nth_skipn_add. auto. Qed.
Lemma bitat_app l m p : bitat (l ++ m) p = if p <? 8 * length l then bitat l p else bitat m (p - 8 * length l).
Proof.
  rewrite <- !bits_nth, bits_of_bytes_app. destruct (Nat.ltb_spec p (8 * length l)).
  - apply app_nth1. rewrite bits_of_bytes_length. lia.
  - rewrite app_nth2 by (rewrite bits_of_bytes_length; lia). rewrite bits_of_bytes_length. auto.
Qed.
Lemma bitat_firstn l q p : p < 8 * q -> bitat (firstn q l) p = bitat l p.
Proof. intros L. rewrite <- !bits_nth, bits_firstn. apply nth_firstn_lt. auto. Qed.
Lemma bitat_zeros n p : bitat (repeat 0%N n) p = false.
Proof. unfold bitat. rewrite nth_repeat. apply N.bits_0. Qed.
Lemma bytes_ok_zeros n : bytes_ok (repeat 0%N n).
Proof. apply Forall_forall. intros x IN. apply repeat_spec in IN. subst. reflexivity. Qed.

Lemma resize_ok b n : bytes_ok b -> length b <= n -> bytes_ok (resize b n) /\ length (resize b n) = n /\ forall p, bitat (resize b n) p = bitat b p.
Proof.
  intros B L. unfold resize. rewrite firstn_all2 by lia. split; [apply bytes_ok_app; split; auto; apply bytes_ok_zeros|]. split; [rewrite app_length, repeat_length; lia|].
  intros p. rewrite bitat_app. destruct (Nat.ltb_spec p (8 * length b)); auto. rewrite bitat_zeros, bitat_over; auto.
Qed.
Lemma nbw_mono a b : a <= b -> nbw a <= nbw b.
Proof. intros. apply Nat.div_le_mono; lia. Qed.

Lemma put_bits buf P v b : rep buf P -> holds v b ->
  exists r, write_at (resize buf (nbw (length P + length v))) (length P / 8) (fun dst => g_deparse b (length v) dst (length P mod 8)) = Some r /\ rep r (P ++ v).
Proof.
  intros (BB & LB & FB) HV. pose proof HV as (BV & LV & _). set (n := length P + length v). set (R := resize buf (nbw n)).
  destruct (resize_ok buf (nbw n) BB) as (BR & LR & FR); [rewrite LB; apply nbw_mono; unfold n; lia|]. fold R in BR, LR, FR.
  pose proof (pos_split (length P)) as [PS PM]. set (q := length P / 8) in *. set (m := length P mod 8) in *.
  pose proof (nbw_spec n) as NS. pose proof (nbw_spec (m + length v)) as NS2.
  destruct (deparse_bits_pad b (length v) (skipn q R) m BV (bytes_ok_skipn q R BR) PM LV) as (r & E & L1 & B1 & F1 & F2 & F3 & F4); [rewrite skipn_length, LR; lia|apply holds_zero; auto|].
  unfold write_at. rewrite E. cbn [bind]. eexists. split; [reflexivity|]. rewrite skipn_length in L1.
  assert (LQ : length (firstn q R) = q) by (rewrite firstn_length_le; lia).
  split; [apply bytes_ok_app; split; auto; apply bytes_ok_firstn; auto|]. split; [rewrite !app_length; fold n; lia|].
  intros p. rewrite bitat_app, LQ. destruct (Nat.ltb_spec p (8 * q)) as [A|A].
  - rewrite bitat_firstn, FR, FB by auto. rewrite app_nth1 by lia. auto.
  - destruct (Nat.lt_ge_cases (p - 8 * q) m) as [C|C].
    + rewrite F1 by auto. rewrite bitat_skipn, FR, FB. rewrite app_nth1 by lia. f_equal. lia.
    + rewrite app_nth2 by lia. destruct (Nat.lt_ge_cases (p - length P) (length v)) as [D|D].
      * replace (p - 8 * q) with (m + (p - length P)) by lia. rewrite F2 by auto. apply holds_bit; auto.
      * rewrite nth_overflow by auto.
        assert (Z : bitat (skipn q R) (p - 8 * q) = false) by (rewrite bitat_skipn, FR, FB; apply nth_overflow; lia).
        destruct (Nat.lt_ge_cases (p - 8 * q) (8 * nbw (m + length v))); [apply F4; auto; lia|]. rewrite F3; auto.
Qed.

Lemma dep_combine fs : map (fun f => (fst f, field_bytes f)) fs = combine (map (@length bool) (map field_bits fs)) (map field_bytes fs).
Proof. induction fs as [|f fs IH]; cbn [map combine]; auto. rewrite IH. replace (length (field_bits f)) with (fst f) by (unfold field_bits; rewrite bitsN_length; auto). auto. Qed.
Lemma all_hold fs : Forall2 holds (map field_bits fs) (map field_bytes fs).
Proof. induction fs; cbn; constructor; auto. apply field_bytes_holds. Qed.
Lemma len_bits fs : length (concat (map field_bits fs)) = sum_bits fs.
Proof. induction fs as [|f fs IH]; auto. cbn [map concat]. rewrite app_length, IH. unfold field_bits, sum_bits. rewrite bitsN_length. auto. Qed.
(** Deparsing a header of [n] bytes writes its [n] bytes and nothing else. *)
Lemma hdr_deparse_ok x dst n : bytes_ok dst -> sum_bits (d_fields x) = 8 * n -> n <= length dst ->
  exists r, hdr_deparse x dst = Some (r ++ skipn n dst) /\ length r = n /\ bytes_ok r /\ bits_of_bytes r = header_bits x.
Proof.
  intros BD SB L. unfold hdr_deparse. rewrite dep_combine. pose proof (len_bits (d_fields x)) as LB. rewrite SB in LB.
  destruct (C25_header_deparse _ _ dst 0 (all_hold (d_fields x)) BD) as (r & E & LR & BR & _ & F2 & F3); [lia|cbv zeta; rewrite LB; lia|]. rewrite E. cbv zeta in *. rewrite LB in F2, F3.
  replace ((0 + 8 * n + 7) / 8) with n in F3 by (change (n = nbw (0 + 8 * n)); pose proof (nbw_spec (0 + 8 * n)); lia). cbn [skipn] in F2.
  rewrite <- !bits_skipn in F3. apply bits_of_bytes_inj in F3; [|apply bytes_ok_skipn; auto|apply bytes_ok_skipn; auto].
  exists (firstn n r). rewrite <- F3, firstn_skipn. split; auto. split; [apply firstn_length_le; lia|]. split; [apply bytes_ok_firstn; auto|]. rewrite bits_firstn. exact F2.
Qed.

Lemma put_hdr buf P x n : rep buf P -> length P mod 8 = 0 -> sum_bits (d_fields x) = 8 * n ->
  exists r, write_at (resize buf (nbw (length P + n * 8))) (length P / 8) (hdr_deparse x) = Some r /\ rep r (P ++ header_bits x).
Proof.
  intros (BB & LB & FB) AL SB. pose proof (pos_split (length P)) as [PS PM]. rewrite AL in PS. pose proof (nbw_spec (length P)) as N1. pose proof (nbw_spec (length P + n * 8)) as N2.
  destruct (resize_ok buf (nbw (length P + n * 8)) BB) as (BR & LR & FR); [rewrite LB; apply nbw_mono; lia|]. set (R := resize _ _) in *.
  destruct (hdr_deparse_ok x (skipn (length P / 8) R) n) as (r & E & LE & BE & HE); [apply bytes_ok_skipn; auto|auto|rewrite skipn_length; lia|]. unfold write_at. rewrite E. cbn [bind]. eexists. split; [reflexivity|].
  rewrite (skipn_all2 (skipn (length P / 8) R)) by (rewrite skipn_length; lia). rewrite app_nil_r. assert (LQ : length (firstn (length P / 8) R) = length P / 8) by (rewrite firstn_length_le; lia).
  assert (LH : length (header_bits x) = 8 * n) by (unfold header_bits; rewrite len_bits; auto).
  split; [apply bytes_ok_app; split; auto; apply bytes_ok_firstn; auto|]. split; [rewrite !app_length; pose proof (nbw_spec (length P + length (header_bits x))); lia|].
  intros p. rewrite bitat_app, LQ. destruct (Nat.ltb_spec p (8 * (length P / 8))).
  - rewrite bitat_firstn, FR, FB by auto. rewrite app_nth1 by lia. auto.
  - rewrite app_nth2 by lia. rewrite <- bits_nth, HE. f_equal. lia.
Qed.

Lemma put_spec d s e b buf P : wf d -> INV false d s -> input_bits d s e b -> match e with BHeader _ => length P mod 8 = 0 | _ => True end -> rep buf P ->
  exists r, put d s e buf (length P) = Some (r, length P + length b) /\ rep r (P ++ b).
Proof.
  intros W I IB AL R. destruct IB as [h f x v (t & T & X & V) F|v b HV|h x (t & T & X & V)|h f (t & x & T & X & M & V)|h (t & x & T & X & M & V)]; cbn [put]; unfold header in *.
  - rewrite T. cbn [bind]. rewrite X. cbn [bind]. replace (is_valid t x) with true by (unfold is_valid; destruct V as [-> | ->]; auto using orb_true_r). cbn [negb]. rewrite F. cbn [bind].
    destruct (put_bits buf P (field_bits v) (field_bytes v) R (field_bytes_holds v)) as (r & E & RR). replace (length (field_bits v)) with (fst v) in * by (unfold field_bits; rewrite bitsN_length; auto). change ((length P + fst v + 7) / 8) with (nbw (length P + fst v)).
    rewrite E. cbn [bind]. eauto.
  - destruct (put_bits buf P b v R HV) as (r & E & RR). change ((length P + length b + 7) / 8) with (nbw (length P + length b)). rewrite E. cbn [bind]. eauto.
  - rewrite AL, Nat.eqb_refl. cbn [negb]. rewrite T. cbn [bind]. rewrite X. cbn [bind]. replace (is_valid t x) with true by (unfold is_valid; destruct V as [-> | ->]; auto using orb_true_r). cbn [negb].
    pose proof (i_f _ _ _ I h t x T X) as [_ SB]. assert (SN : sum_bits (d_fields x) = 8 * Z.to_nat (d_nb x)) by lia.
    destruct (put_hdr buf P x (Z.to_nat (d_nb x)) R AL SN) as (r & E & RR). change ((length P + Z.to_nat (d_nb x) * 8 + 7) / 8) with (nbw (length P + Z.to_nat (d_nb x) * 8)). rewrite E. cbn [bind].
    exists r. split; auto. do 2 f_equal. unfold header_bits. rewrite len_bits. lia.
  - rewrite T. cbn [bind]. rewrite X. cbn [bind]. unfold is_valid. rewrite M, V. cbn [orb negb length]. exists buf. rewrite Nat.add_0_r, app_nil_r. auto.
  - rewrite AL, Nat.eqb_refl. cbn [negb]. rewrite T. cbn [bind]. rewrite X. cbn [bind]. unfold is_valid. rewrite M, V. cbn [orb negb length]. exists buf. rewrite Nat.add_0_r, app_nil_r. auto.
Qed.
Lemma put_all_spec d s es : forall parts buf P, wf d -> INV false d s -> Forall2 (input_bits d s) es parts -> aligned (length P) es parts -> rep buf P ->
  exists r, put_all d s es buf (length P) = Some r /\ rep r (P ++ concat parts).
Proof.
  induction es as [|e es IH]; intros parts buf P W I F AL R; inversion F as [|? b ? parts' IB F']; subst; cbn [put_all concat].
  - rewrite app_nil_r. eauto.
  - destruct AL as [A1 A2]. destruct (put_spec d s e b buf P W I IB A1 R) as (r & E & RR). rewrite E. cbn [bind fst snd]. rewrite <- app_length in *. rewrite app_assoc. exact (IH parts' r (P ++ b) W I F' A2 RR).
Qed.
Lemma rep_bits l P : rep l P -> bits_of_bytes l = padded_bits P.
Proof.
  intros (B & L & F). unfold padded_bits. change ((length P + 7) / 8) with (nbw (length P)). pose proof (nbw_spec (length P)). apply bits_ext; [rewrite app_length, repeat_length; lia|]. intros p Hp. rewrite F.
  destruct (Nat.lt_ge_cases p (length P)); [rewrite app_nth1; auto|]. rewrite app_nth2, nth_repeat by auto. apply nth_overflow. auto.
Qed.
