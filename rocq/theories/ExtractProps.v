(** Theorems about field extraction and deparsing (C25). *)
From Coq Require Import List Arith NArith ZArith Bool Lia.
From Verif Require Import Base Bits Bytes EntryListSpec EntryListProofs DataModel FieldModel FieldSpec FieldProofs ExtractModel ExtractSpec ExtractProofs.
Import ListNotations.

Lemma nth_firstn_lt {A} (l : list A) n p d : p < n -> nth p (firstn n l) d = nth p l d.
Proof. revert l p; induction n; intros l p H; [lia|]. destruct l, p; auto. cbn. apply IHn. lia. Qed.
Lemma nth_skipn_add {A} (l : list A) n p d : nth p (skipn n l) d = nth (n + p) l d.
Proof. revert l; induction n; intros l; auto. destruct l; cbn; auto. destruct p; auto. Qed.
Lemma holds_zero v b : holds v b -> forall p, p < 8 * nbw (length v) - length v -> bitat b p = false.
Proof.
  intros (_ & _ & E) p Hp. rewrite <- bits_nth, E. rewrite app_nth1 by (rewrite repeat_length; auto). apply nth_repeat.
Qed.
Lemma holds_bit v b : holds v b -> forall p, p < length v -> bitat b (8 * nbw (length v) - length v + p) = nth p v false.
Proof.
  intros (_ & _ & E) p Hp. rewrite <- bits_nth, E. rewrite app_nth2 by (rewrite repeat_length; unfold nbw; lia). rewrite repeat_length. f_equal. unfold nbw. lia.
Qed.

(** ** One field *)
Theorem C25_extract : forall data off w dst, bytes_ok data -> off < 8 -> 0 < w -> off + w <= 8 * length data -> length dst = (w + 7) / 8 ->
  exists b, g_extract data off w dst = Some b /\ holds (firstn w (skipn off (bits_of_bytes data))) b.
Proof.
  intros data off w dst BD HO HW HL HD. destruct (extract_bits data off w dst BD HO HW HL HD) as (r & E & LR & BR & F).
  exists r. split; auto. assert (LV : length (firstn w (skipn off (bits_of_bytes data))) = w) by (rewrite firstn_length_le; auto; rewrite skipn_length, bits_of_bytes_length; lia).
  unfold holds. rewrite LV. split; auto. split; auto. change ((w + 7) / 8) with (nbw w). pose proof (nbw_spec w).
  apply bits_ext; [rewrite app_length, repeat_length, LV, LR; lia|]. intros p Hp. rewrite LR in Hp. rewrite F by auto. destruct (Nat.ltb_spec p (8 * nbw w - w)).
  - rewrite app_nth1 by (rewrite repeat_length; auto). rewrite nth_repeat. auto.
  - rewrite app_nth2 by (rewrite repeat_length; auto). rewrite repeat_length, nth_firstn_lt, nth_skipn_add, bits_nth by lia. f_equal. lia.
Qed.
Theorem C25_deparse : forall v b dst off, holds v b -> bytes_ok dst -> off < 8 -> off + length v <= 8 * length dst ->
  exists r, g_deparse b (length v) dst off = Some r /\ length r = length dst /\ bytes_ok r /\
    firstn off (bits_of_bytes r) = firstn off (bits_of_bytes dst) /\
    firstn (length v) (skipn off (bits_of_bytes r)) = v /\
    skipn (8 * ((off + length v + 7) / 8)) (bits_of_bytes r) = skipn (8 * ((off + length v + 7) / 8)) (bits_of_bytes dst).
Proof.
  intros v b dst off HV BT HO HL. pose proof HV as (BB & LB & _).
  destruct (deparse_bits b (length v) dst off BB BT HO LB HL (holds_zero _ _ HV)) as (r & E & LR & BR & F1 & F2 & F3).
  exists r. split; auto. split; auto. split; auto. split; [|split].
  - apply nth_ext with (d := false) (d' := false); [rewrite !firstn_length, !bits_of_bytes_length; lia|]. intros p Hp.
    rewrite firstn_length in Hp. rewrite !nth_firstn_lt by lia. rewrite !bits_nth. apply F1. lia.
  - apply nth_ext with (d := false) (d' := false); [rewrite firstn_length, skipn_length, bits_of_bytes_length; lia|]. intros p Hp.
    rewrite firstn_length in Hp. rewrite nth_firstn_lt by lia. rewrite nth_skipn_add, bits_nth, F2 by lia. apply holds_bit; auto. lia.
  - apply nth_ext with (d := false) (d' := false); [rewrite !skipn_length, !bits_of_bytes_length; lia|]. intros p Hp.
    rewrite !nth_skipn_add, !bits_nth. apply F3. unfold nbw. lia.
Qed.

(** ** Headers *)
Lemma adv off : off = 8 * (off / 8) + off mod 8 /\ off mod 8 < 8.
Proof. split; [apply Nat.div_mod; lia|apply Nat.mod_upper_bound; lia]. Qed.
Lemma skipn_app_add {A} (a b : list A) n : skipn (length a + n) (a ++ b) = skipn n b.
Proof. induction a; cbn; auto. Qed.
Lemma firstn_app_add {A} (a b : list A) n : firstn (length a + n) (a ++ b) = a ++ firstn n b.
Proof. induction a; cbn; auto. rewrite IHa. auto. Qed.
Lemma bits_skipn n l : bits_of_bytes (skipn n l) = skipn (8 * n) (bits_of_bytes l).
Proof.
  revert l; induction n; intros l; auto. destruct l as [|x l]; [rewrite skipn_nil; reflexivity|]. rewrite bits_of_bytes_cons. cbn [skipn]. rewrite IHn.
  replace (8 * S n) with (length (bitsN 8 x) + 8 * n) by (rewrite bitsN_length; lia). rewrite skipn_app_add. auto.
Qed.
Lemma bits_firstn n l : bits_of_bytes (firstn n l) = firstn (8 * n) (bits_of_bytes l).
Proof.
  revert l; induction n; intros l; auto. destruct l as [|x l]; [rewrite !firstn_nil; reflexivity|]. cbn [firstn]. rewrite !bits_of_bytes_cons. rewrite IHn.
  replace (8 * S n) with (length (bitsN 8 x) + 8 * n) by (rewrite bitsN_length; lia). rewrite firstn_app_add. auto.
Qed.
Lemma skipn_skipn' {A} a b (l : list A) : skipn a (skipn b l) = skipn (b + a) l.
Proof. revert l; induction b; intros l; auto. destruct l; [rewrite !skipn_nil; auto|]. cbn. auto. Qed.
Lemma bytes_ok_skipn n l : bytes_ok l -> bytes_ok (skipn n l).
Proof. intros H. apply Forall_forall. intros x Hx. apply (proj1 (Forall_forall _ _) H). rewrite <- (firstn_skipn n l). apply in_or_app. auto. Qed.
Lemma bytes_ok_firstn n l : bytes_ok l -> bytes_ok (firstn n l).
Proof. intros H. apply Forall_forall. intros x Hx. apply (proj1 (Forall_forall _ _) H). rewrite <- (firstn_skipn n l). apply in_or_app. auto. Qed.

Theorem C25_header_extract : forall ws data off, bytes_ok data -> off < 8 -> Forall (fun w => 0 < w) ws -> off + total ws <= 8 * length data ->
  exists bs, h_extract ws data off = Some bs /\ Forall2 holds (cut ws (skipn off (bits_of_bytes data))) bs.
Proof.
  induction ws as [|w ws IH]; intros data off BD HO HW HL; cbn [h_extract cut].
  - exists []. split; auto.
  - inversion HW; subst. cbn [total fold_right] in HL. fold (total ws) in HL.
    destruct (C25_extract data off w (repeat 0%N ((w + 7) / 8)) BD HO) as (b & -> & HB); [auto|lia|apply repeat_length|]. cbn [bind].
    pose proof (adv (off + w)) as [A1 A2]. destruct (IH (skipn ((off + w) / 8) data) ((off + w) mod 8)) as (bs & -> & HBS).
    + apply bytes_ok_skipn; auto.
    + auto.
    + auto.
    + rewrite skipn_length. lia.
    + cbn [bind]. exists (b :: bs). split; auto. constructor; auto. rewrite skipn_skipn'. rewrite bits_skipn, skipn_skipn' in HBS. rewrite <- A1 in HBS. auto.
Qed.

Theorem C25_header_deparse : forall vs bs dst off, Forall2 holds vs bs -> bytes_ok dst -> off < 8 ->
  let t := length (concat vs) in off + t <= 8 * length dst ->
  exists r, h_deparse (combine (map (@length bool) vs) bs) dst off = Some r /\ length r = length dst /\ bytes_ok r /\
    firstn off (bits_of_bytes r) = firstn off (bits_of_bytes dst) /\
    firstn t (skipn off (bits_of_bytes r)) = concat vs /\
    skipn (8 * ((off + t + 7) / 8)) (bits_of_bytes r) = skipn (8 * ((off + t + 7) / 8)) (bits_of_bytes dst).
Proof.
  intros vs bs dst off H. revert dst off. induction H as [|v b vs bs HV H IH]; intros dst off BT HO t HL.
  - exists dst. cbn. repeat (split; auto).
  - cbn [map combine h_deparse]. unfold t in *. clear t. cbn [concat] in *. rewrite app_length in *. set (t := length (concat vs)) in *.
    destruct (C25_deparse v b dst off HV BT HO) as (d & -> & LD & BD & F1 & F2 & F3); [lia|]. cbn [bind].
    pose proof (adv (off + length v)) as [A1 A2]. set (q := (off + length v) / 8) in *. set (m := (off + length v) mod 8) in *.
    destruct (IH (skipn q d) m) as (d' & -> & LD' & BD' & G1 & G2 & G3); [apply bytes_ok_skipn; auto|auto|rewrite skipn_length; fold t; lia|]. cbn [bind]. fold t in G2, G3.
    rewrite skipn_length in LD'. assert (LQ : length (firstn q d) = q) by (rewrite firstn_length_le; lia).
    exists (firstn q d ++ d'). split; auto. split; [rewrite app_length; lia|]. split; [apply bytes_ok_app; split; auto; apply bytes_ok_firstn; auto|].
    assert (BITS : forall p, p < off + length v -> nth p (bits_of_bytes (firstn q d ++ d')) false = nth p (bits_of_bytes d) false).
    { intros p Hp. rewrite bits_of_bytes_app. destruct (Nat.lt_ge_cases p (8 * q)).
      - rewrite app_nth1 by (rewrite bits_of_bytes_length; lia). rewrite bits_firstn. apply nth_firstn_lt. auto.
      - rewrite app_nth2 by (rewrite bits_of_bytes_length; lia). rewrite bits_of_bytes_length, LQ.
        rewrite <- (nth_firstn_lt (bits_of_bytes d') m) by lia. rewrite G1, nth_firstn_lt by lia. rewrite bits_skipn, nth_skipn_add. f_equal. lia. }
    assert (TAIL : skipn (off + length v) (bits_of_bytes (firstn q d ++ d')) = skipn m (bits_of_bytes d')).
    { rewrite bits_of_bytes_app, A1. rewrite <- skipn_skipn'. f_equal. rewrite skipn_app, bits_of_bytes_length, LQ. rewrite skipn_all2 by (rewrite bits_of_bytes_length; lia). cbn [app]. rewrite Nat.sub_diag. auto. }
    assert (LBITS : length (bits_of_bytes (firstn q d ++ d')) = 8 * length dst) by (rewrite bits_of_bytes_length, app_length; lia).
    split; [|split].
    + rewrite <- F1. apply nth_ext with (d := false) (d' := false); [rewrite !firstn_length, LBITS, bits_of_bytes_length; lia|]. intros p Hp. rewrite firstn_length in Hp. rewrite !nth_firstn_lt by lia. apply BITS. lia.
    + set (L := bits_of_bytes (firstn q d ++ d')) in *.
      assert (S1 : firstn (length v) (skipn off L) = firstn (length v) (skipn off (bits_of_bytes d))).
      { apply nth_ext with (d := false) (d' := false); [rewrite !firstn_length, !skipn_length, LBITS, bits_of_bytes_length; lia|]. intros p Hp. rewrite firstn_length in Hp. rewrite !nth_firstn_lt by lia. rewrite !nth_skipn_add. apply BITS. lia. }
      rewrite F2 in S1. rewrite <- TAIL in G2.
      assert (SK : skipn off L = v ++ skipn (off + length v) L) by (rewrite <- (firstn_skipn (length v) (skipn off L)); rewrite S1, skipn_skipn'; auto).
      rewrite SK, firstn_app_add, G2. auto.
    + set (e := (off + (length v + t) + 7) / 8). assert (EQ : e = q + (m + t + 7) / 8).
      { unfold e. replace (off + (length v + t) + 7) with (m + t + 7 + q * 8) by lia. rewrite Nat.div_add by lia. lia. }
      assert (EG : (off + length v + 7) / 8 <= e) by (apply Nat.div_le_mono; lia).
      transitivity (skipn (8 * e) (bits_of_bytes d)).
      * rewrite bits_of_bytes_app, EQ. rewrite skipn_app, bits_of_bytes_length, LQ. rewrite skipn_all2 by (rewrite bits_of_bytes_length; lia). cbn [app].
        replace (8 * (q + (m + t + 7) / 8) - 8 * q) with (8 * ((m + t + 7) / 8)) by lia. rewrite G3. rewrite bits_skipn, skipn_skipn'. f_equal. lia.
      * replace (8 * e) with (8 * ((off + length v + 7) / 8) + (8 * e - 8 * ((off + length v + 7) / 8))) by lia. rewrite <- !skipn_skipn'. rewrite F3. auto.
Qed.

Lemma cut_concat vs l : cut (map (@length bool) vs) (concat vs ++ l) = vs.
Proof.
  induction vs as [|v vs IH]; cbn [map cut concat]; auto. rewrite <- app_assoc. rewrite firstn_app, Nat.sub_diag, firstn_all. cbn [firstn]. rewrite app_nil_r.
  rewrite skipn_app, skipn_all, Nat.sub_diag. cbn [app skipn]. rewrite IH. auto.
Qed.
Lemma holds_inj v b b' : holds v b -> holds v b' -> b = b'.
Proof. intros (A & _ & B) (C & _ & D). apply bits_of_bytes_inj; auto. congruence. Qed.
Lemma total_len vs : total (map (@length bool) vs) = length (concat vs).
Proof. induction vs; cbn; auto. rewrite app_length. unfold total in IHvs. rewrite IHvs. auto. Qed.

(** Deparsing any header whose size is a whole number of bytes and extracting it again gives back the same
    byte strings, whatever was in the buffer. *)
Theorem C25_header_roundtrip : forall vs bs dst, Forall2 holds vs bs -> bytes_ok dst -> Forall (fun v => v <> []) vs -> length (concat vs) <= 8 * length dst ->
  exists r, h_deparse (combine (map (@length bool) vs) bs) dst 0 = Some r /\ length r = length dst /\ h_extract (map (@length bool) vs) r 0 = Some bs.
Proof.
  intros vs bs dst H BT NE HL. destruct (C25_header_deparse vs bs dst 0 H BT ltac:(lia) HL) as (r & E & LR & BR & _ & F & _).
  exists r. split; auto. split; auto.
  destruct (C25_header_extract (map (@length bool) vs) r 0 BR ltac:(lia)) as (bs' & -> & HB).
  - apply Forall_forall. intros w Hw. apply in_map_iff in Hw as (v & <- & Hv). apply (proj1 (Forall_forall _ _) NE) in Hv. destruct v; [congruence|cbn; lia].
  - rewrite total_len. lia.
  - f_equal. cbn [skipn] in *. rewrite <- (firstn_skipn (length (concat vs)) (bits_of_bytes r)) in HB. rewrite F, cut_concat in HB.
    clear - H HB. revert bs' HB. induction H; intros bs' HB; inversion HB; subst; auto. f_equal; [eapply holds_inj; eauto|auto].
Qed.

(** ** Typed fields: bytes of a field value in the sense of C23 *)
Lemma bits_be_enc n x : bits_of_bytes (be_enc n x) = bitsN (8 * n) x.
Proof.
  apply of_bits_inj; [rewrite bits_of_bytes_length, bitsN_length, be_enc_length; auto|].
  rewrite <- be_val_bits by apply be_enc_ok. rewrite be_val_enc, of_bits_bitsN, pow256. auto.
Qed.
Definition value_bits (t : fty) (v : Z) : list bool := bitsN (ty_bits t) (Z.to_N (v mod 2 ^ Z.of_nat (ty_bits t))).
Theorem C25_encoding_holds : forall t v, holds (value_bits t v) (encoding t v).
Proof.
  intros t v. unfold holds, value_bits, encoding. rewrite bitsN_length. change ((ty_bits t + 7) / 8) with (nbw (ty_bits t)). pose proof (nbw_spec (ty_bits t)) as NB.
  pose proof (pow_pos (Z.of_nat (ty_bits t)) ltac:(lia)) as P. pose proof (Z.mod_pos_bound v _ P) as M. set (x := (v mod 2 ^ Z.of_nat (ty_bits t))%Z) in *.
  split; [apply be_bytes_ok|]. split; [apply be_bytes_len|]. rewrite <- be_bytes_enc by lia. rewrite bits_be_enc.
  replace (Z.abs_N x) with (Z.to_N x) by (destruct x; auto; lia).
  replace (8 * nbw (ty_bits t)) with ((8 * nbw (ty_bits t) - ty_bits t) + ty_bits t) at 1 by lia. rewrite bitsN_app. f_equal.
  assert (E : N.shiftr (Z.to_N x) (N.of_nat (ty_bits t)) = 0%N).
  { rewrite N.shiftr_div_pow2. apply N.div_small. apply N2Z.inj_lt. rewrite Z2N.id, N2Z.inj_pow, nat_N_Z by lia. lia. }
  rewrite E. clear. generalize (8 * nbw (ty_bits t) - ty_bits t). intros n. induction n; auto. cbn [bitsN repeat]. rewrite IHn. rewrite N.bits_0. auto.
Qed.

(** Deparsing a header of typed fields and re-extracting gives back each value: the extracted bytes are the
    encoding, from which C23 loads the value. *)
Theorem C25_typed_roundtrip : forall (tv : list (fty * Z)) dst, Forall (fun p => 0 < ty_bits (fst p)) tv -> bytes_ok dst -> total (map (fun p => ty_bits (fst p)) tv) <= 8 * length dst ->
  exists r, h_deparse (map (fun p => (ty_bits (fst p), encoding (fst p) (snd p))) tv) dst 0 = Some r /\ length r = length dst /\
    firstn (total (map (fun p => ty_bits (fst p)) tv)) (bits_of_bytes r) = concat (map (fun p => value_bits (fst p) (snd p)) tv) /\
    h_extract (map (fun p => ty_bits (fst p)) tv) r 0 = Some (map (fun p => encoding (fst p) (snd p)) tv).
Proof.
  intros tv dst HP BT HL. set (vs := map (fun p => value_bits (fst p) (snd p)) tv). set (bs := map (fun p => encoding (fst p) (snd p)) tv).
  assert (LW : map (@length bool) vs = map (fun p => ty_bits (fst p)) tv) by (unfold vs; rewrite map_map; apply map_ext; intros; apply bitsN_length).
  assert (H2 : Forall2 holds vs bs) by (unfold vs, bs; clear; induction tv; cbn [map]; constructor; auto; apply C25_encoding_holds).
  assert (CB : combine (map (@length bool) vs) bs = map (fun p => (ty_bits (fst p), encoding (fst p) (snd p))) tv) by (rewrite LW; unfold bs; clear; induction tv as [|a tv IHtv]; cbn [map combine]; [auto|rewrite IHtv; auto]).
  assert (NE : Forall (fun v => v <> []) vs).
  { apply Forall_forall. intros v Hv. apply in_map_iff in Hv as (p & <- & Hp). apply (proj1 (Forall_forall _ _) HP) in Hp. intros E. apply (f_equal (@length bool)) in E. unfold value_bits in E. rewrite bitsN_length in E. cbn in E. lia. }
  assert (TL : length (concat vs) = total (map (fun p => ty_bits (fst p)) tv)) by (rewrite <- total_len, LW; auto).
  destruct (C25_header_deparse vs bs dst 0 H2 BT ltac:(lia) ltac:(lia)) as (r & E & LR & BR & _ & F & _).
  destruct (C25_header_roundtrip vs bs dst H2 BT NE ltac:(lia)) as (r' & E' & _ & X). rewrite E in E'. injection E' as <-.
  exists r. rewrite <- CB. split; auto. split; auto. cbn [skipn] in F. rewrite TL in F. split; auto. rewrite <- LW. auto.
Qed.

(** Finding: extracting a field of width zero at a bit offset that is not a multiple of 8 (an empty varbit
    after a 4-bit field) writes to, and reads from, a byte that does not exist. *)
Theorem C25_empty_field_unaligned_refuted : ~ (forall ws data, bytes_ok data -> total ws <= 8 * length data -> h_extract ws data 0 <> None).
Proof. intros H. apply (H [4; 0; 4] [255%N]); [repeat constructor|cbn; lia|vm_compute; reflexivity]. Qed.

(** ** Non-vacuity *)
Example ex_header : exists r, h_deparse [(4, [5]%N); (13, [17; 34]%N); (3, [6]%N); (12, [10; 188]%N)] [255; 255; 255; 255; 77]%N 0 = Some r /\ r = [88; 145; 106; 188; 77]%N /\
  h_extract [4; 13; 3; 12] r 0 = Some [[5]; [17; 34]; [6]; [10; 188]]%N.
Proof. eexists. split; [vm_compute; reflexivity|]. split; vm_compute; reflexivity. Qed.
Example ex_holds : holds [true; false; false; false; true; false; false; true; false; false; false; true; false] [17; 34]%N.
Proof. unfold holds. cbn [length]. split; [repeat constructor|]. split; vm_compute; reflexivity. Qed.

Print Assumptions C25_extract.
Print Assumptions C25_deparse.
Print Assumptions C25_header_extract.
Print Assumptions C25_header_deparse.
Print Assumptions C25_header_roundtrip.
Print Assumptions C25_encoding_holds.
Print Assumptions C25_typed_roundtrip.
Print Assumptions C25_empty_field_unaligned_refuted.
