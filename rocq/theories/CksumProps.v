(** C33 Internet checksum. *)
From Coq Require Import List Arith NArith ZArith Bool Lia.
From Verif Require Import Base Bits Bytes EntryListSpec EntryListProofs DataModel ExtractModel ExtractSpec ExtractProofs ExtractProps PhvModel PhvSpec PhvProofs PhvProofs4 PhvProps ParserModel ParserSpec ParserProofs ParserProofs3 ParserProofs5 ParserProps BufModel BufSpec BufProofs BufProps CksumModel CksumSpec CksumProofs.
Import ListNotations.

Lemma mem16_swap c : (c <= 65535)%N -> bytes_ok (mem16 c) /\ be_val (mem16 c) = swap16 c.
Proof.
  intros L. unfold mem16, swap16. pose proof (N.mod_lt c 256 ltac:(lia)). pose proof (N.div_lt_upper_bound c 256 256 ltac:(lia) ltac:(lia)). split; [repeat constructor; auto|]. rewrite be_val_cons, be_val_cons, be_val_nil. cbn [length N.of_nat Pos.of_succ_nat]. change (256 ^ 1)%N with 256%N. change (256 ^ 0)%N with 1%N. lia.
Qed.
(** Both implementations compute the checksum of RFC 1071, for every buffer; the first one leaves it in network order in memory. *)
Theorem C33_rfc1071 : forall buf, bytes_ok buf ->
  (exists c, cksum16 buf = Some c /\ mem16 c = be_enc 2 (rfc1071 buf)) /\ calc_cksum16 buf = Some (rfc1071 buf).
Proof.
  intros buf B. destruct (cksum_rfc buf B) as (c & E & L & SW). unfold calc_cksum16. rewrite E. cbn [bind]. rewrite SW. split; auto. exists c. split; auto. destruct (mem16_swap c L) as [M V]. rewrite <- (be_enc_val (mem16 c) M). rewrite V, SW. reflexivity.
Qed.
Lemma rfc_range buf : bytes_ok buf -> (rfc1071 buf <= 65535)%N.
Proof. intros _. unfold rfc1071. lia. Qed.

Lemma B16_cat2 n : forall l m, length l = 2 * n -> B16 (l ++ m) = (B16 l + B16 m)%N.
Proof. induction n as [|n IH]; intros l m L; [destruct l; [reflexivity|discriminate]|]. destruct l as [|a [|b l]]; cbn in L; try lia. cbn [app B16]. rewrite IH by lia. lia. Qed.
(** A buffer that contains its checksum sums to 0xFFFF: the check of RFC 1071 at the receiver. *)
Theorem C33_receiver : forall pre post, bytes_ok pre -> bytes_ok post -> Nat.even (length pre) = true ->
  oc_sum (words16 (pre ++ be_enc 2 (rfc1071 (pre ++ [0; 0] ++ post)%N) ++ post)) = 65535%N.
Proof.
  intros p q BP BQ EV. apply Nat.even_spec in EV as (n & LN). set (z := (p ++ [0; 0] ++ q)%N). assert (BZ : bytes_ok z) by (apply bytes_ok_app; split; auto; repeat constructor; auto).
  set (c := rfc1071 z). assert (CL : (c <= 65535)%N) by (apply rfc_range; auto). set (r := p ++ be_enc 2 c ++ q). assert (BR : bytes_ok r) by (apply bytes_ok_app; split; auto; apply bytes_ok_app; split; auto; apply be_enc_ok).
  pose proof (oc_sum_ok _ (words_lt z BZ)) as OZ. rewrite <- B16_words in OZ. pose proof (oc_sum_ok _ (words_lt r BR)) as OR. rewrite <- B16_words in OR.
  assert (E : B16 r = (B16 z + c)%N).
  { unfold r, z. rewrite !(B16_cat2 n) by auto. assert (X : B16 (be_enc 2 c ++ q) = (c + B16 q)%N).
    { rewrite (B16_cat2 1) by reflexivity. f_equal. cbn [be_enc B16]. change (256 ^ N.of_nat 1)%N with 256%N. change (256 ^ N.of_nat 0)%N with 1%N. rewrite N.div_1_r. pose proof (N.div_mod c 256 ltac:(lia)). pose proof (N.div_lt_upper_bound c 256 256 ltac:(lia) ltac:(lia)). rewrite (N.mod_small (c / 256)) by lia. lia. }
    rewrite X.
    rewrite (B16_cat2 n p ([0; 0]%N ++ q)) by auto. cbn [app B16]. lia. }
  apply (oc_inj M16 _ _ (B16 r)); [reflexivity|exact OR|]. destruct OZ as (LZ & (k & EK) & Z0). unfold c, rfc1071 in E. unfold M16 in *. split; [lia|]. split; [|lia]. exists k. lia.
Qed.
Example C33_ex : calc_cksum16 [69; 0; 0; 115; 0; 0; 64; 0; 64; 17; 0; 0; 192; 168; 0; 1; 192; 168; 0; 199]%N = Some 47201%N /\ calc_cksum16 [255; 255; 255; 255; 1]%N = Some 65279%N /\ calc_cksum16 []%N = Some 65535%N.
Proof. vm_compute. auto. Qed.

(** ** The IPv4 header checksum *)
Lemma list_set_split {A} (l : list A) i x y : nth_error l i = Some y -> list_set l i x = firstn i l ++ x :: skipn (S i) l /\ l = firstn i l ++ y :: skipn (S i) l.
Proof. revert i; induction l as [|a l IH]; intros [|i] E; cbn in *; try discriminate; [injection E as ->; auto|]. destruct (IH i E) as [A1 A2]. rewrite A1. split; auto. f_equal. exact A2. Qed.
Lemma zero_ck l : 12 <= length l -> list_set (list_set l 10 0%N) 11 0%N = with_cksum l [0; 0]%N.
Proof. intros L. unfold with_cksum. do 12 (destruct l as [|? l]; [cbn in L; lia|]). reflexivity. Qed.
Lemma with_cksum_app l m b : 12 <= length l -> with_cksum (l ++ m) b = with_cksum l b ++ m.
Proof. intros L. unfold with_cksum. rewrite firstn_app, skipn_app. replace (10 - length l) with 0 by lia. replace (12 - length l) with 0 by lia. cbn [firstn skipn]. rewrite app_nil_r, <- !app_assoc. auto. Qed.
Lemma with_cksum_len l b : 12 <= length l -> length b = 2 -> length (with_cksum l b) = length l.
Proof. intros L LB. unfold with_cksum. rewrite !app_length, firstn_length_le, skipn_length by lia. lia. Qed.
Lemma with_cksum_ok l b : bytes_ok l -> bytes_ok b -> bytes_ok (with_cksum l b).
Proof. intros. unfold with_cksum. apply bytes_ok_app; split; [apply bytes_ok_firstn; auto|]. apply bytes_ok_app; split; auto. apply bytes_ok_skipn; auto. Qed.
Lemma with_cksum_again l b b' : 12 <= length l -> length b = 2 -> with_cksum (with_cksum l b) b' = with_cksum l b'.
Proof.
  intros L LB. destruct b as [|x [|y [|]]]; try discriminate. unfold with_cksum. do 12 (destruct l as [|? l]; [cbn in L; lia|]). reflexivity.
Qed.

Lemma ip_cksum_ok stack x r : bytes_ok stack -> length stack = 60 -> encodes x r -> (8 * d_nb x = Z.of_nat (sum_bits (d_fields x)))%Z -> 12 <= length r <= 60 ->
  exists c, ip_cksum stack x = Some c /\ (c <= 65535)%N /\ swap16 c = rfc1071 (with_cksum r [0; 0]%N).
Proof.
  intros BS LS (BR & ER) SB LR. assert (SN : sum_bits (d_fields x) = 8 * length r). { rewrite <- len_bits. fold (header_bits x). rewrite <- ER, bits_of_bytes_length. lia. }
  destruct (hdr_deparse_ok x stack (length r) BS SN) as (r' & E & L' & B' & H'); [lia|]. assert (r' = r) by (apply bits_of_bytes_inj; auto; congruence). subst r'.
  unfold ip_cksum. rewrite E. cbn [bind]. assert (LB : length (r ++ skipn (length r) stack) = 60) by (rewrite app_length, skipn_length; lia). rewrite LB. cbn [Nat.leb]. cbv zeta. rewrite zero_ck by lia. rewrite with_cksum_app by lia.
  assert (NZ : Z.to_nat (d_nb x) = length r) by lia. rewrite NZ. pose proof (with_cksum_len r [0; 0]%N ltac:(lia) eq_refl) as LW. rewrite app_length, LW.
  rewrite (proj2 (Nat.leb_le _ _)) by lia. rewrite firstn_app, LW, Nat.sub_diag. rewrite (firstn_all2 (with_cksum r [0; 0]%N)) by lia. cbn [firstn]. rewrite app_nil_r. apply cksum_rfc. apply with_cksum_ok; auto. repeat constructor.
Qed.

Lemma field_bytes16 v : length (field_bytes (16, v)) = 2 /\ bits_of_bytes (field_bytes (16, v)) = field_bits (16, v) /\ bytes_ok (field_bytes (16, v)).
Proof. destruct (field_bytes_holds (16, v)) as (A & B & C). unfold field_bits in *. cbn [fst snd] in *. rewrite bitsN_length in *. auto. Qed.
Lemma ip_replace x f r v' nb vv vf : encodes x r -> ip_field x f -> 12 <= length r -> encodes (mk_hdr vv vf (list_set (d_fields x) f (16, v')) nb) (with_cksum r (field_bytes (16, v'))).
Proof.
  intros (BR & ER) ((v & F) & OFF) LR. destruct (field_bytes16 v') as (L2 & B2 & O2). split; [apply with_cksum_ok; auto|].
  destruct (list_set_split _ _ (16, v') _ F) as [S1 S2]. unfold header_bits in *. cbn [d_fields]. rewrite S1. rewrite S2 in ER. rewrite map_app, concat_app in *. cbn [map concat] in *.
  set (P := concat (map field_bits (firstn f (d_fields x)))) in *. set (Q := concat (map field_bits (skipn (S f) (d_fields x)))) in *.
  assert (LP : length P = 80) by (unfold P; rewrite len_bits; exact OFF). assert (LV : length (field_bits (16, v)) = 16) by (unfold field_bits; rewrite bitsN_length; auto).
  unfold with_cksum. rewrite !bits_of_bytes_app, B2. change 10 with (5 * 2). rewrite bits_firstn, bits_skipn, ER. change (8 * (5 * 2)) with 80. change (8 * 12) with 96. f_equal; [|f_equal].
  - rewrite firstn_app, LP. change (80 - 80) with 0. rewrite firstn_O, app_nil_r. apply firstn_all2. lia.
  - rewrite app_assoc. rewrite skipn_app, app_length, LP, LV. change (96 - (80 + 16)) with 0. rewrite (skipn_all2 (P ++ _)) by (rewrite app_length; lia). reflexivity.
Qed.
Lemma bytes_eqb_iff c v : (c <= 65535)%N -> (bytes_eqb (mem16 c) (firstn 2 (field_bytes (16, v))) = true <-> (v mod 2 ^ 16 = Z.of_N (swap16 c))%Z).
Proof.
  intros L. destruct (field_bytes16 v) as (L2 & B2 & O2). rewrite firstn_all2 by lia. destruct (mem16_swap c L) as [M V]. rewrite bytes_eqb_eq.
  assert (BV : be_val (field_bytes (16, v)) = Z.to_N (v mod 2 ^ 16)).
  { unfold field_bytes. cbn [fst snd]. change ((16 + 7) / 8) with 2. rewrite be_val_enc. change (256 ^ N.of_nat 2)%N with 65536%N. change (Z.of_nat 16) with 16%Z. pose proof (Z.mod_pos_bound v (2 ^ 16) ltac:(lia)). apply N.mod_small. change (2 ^ 16)%Z with 65536%Z in *. lia. }
  pose proof (Z.mod_pos_bound v (2 ^ 16) ltac:(lia)) as PB. split.
  - intros E. rewrite <- V, E, BV. rewrite Z2N.id; lia.
  - intros E. apply be_val_inj; auto. rewrite V, BV, E. rewrite N2Z.id. auto.
Qed.

(** Verification accepts exactly the RFC 1071 checksum of the header with the checksum cleared. *)
Theorem C33_ip_verify : forall (legacy : bool) (d : desc) (s : phv) (h f : nat) (cond : phv -> bool) (x : hdr) (v : Z) (r stack payload : list N),
  wf d -> reach legacy d s -> bytes_ok stack -> length stack = 60 -> live d s h x -> encodes x r -> 12 <= length r <= 60 -> nth_error (d_fields x) f = Some (16, v) -> cond s = true ->
  exists b, ck_verify d (mk_ck h f cond IPv4) stack payload s = Some b /\ (b = true <-> v mod 2 ^ 16 = Z.of_N (rfc1071 (with_cksum r [0; 0]%N)))%Z.
Proof.
  intros legacy d s h f cond x v r stack payload W R BS LS (t & T & X & V) EN LR F C. pose proof (reach_INV _ _ _ W R) as I. unfold ck_verify, verify_, hdr_valid, header in *. cbn [ck_h ck_f ck_cond ck_kind]. rewrite T. cbn [bind]. rewrite X. cbn [bind].
  replace (is_valid t x) with true by (unfold is_valid; destruct V as [-> | ->]; auto using orb_true_r). cbn [negb]. rewrite C. cbn [bind negb].
  pose proof (i_f _ _ _ I h t x T X) as [_ SB]. destruct (ip_cksum_ok stack x r BS LS EN SB LR) as (c & E & CL & SW). rewrite E. cbn [bind]. rewrite F. cbn [bind]. destruct (field_bytes16 v) as (L2 & _). rewrite L2. cbn [Nat.ltb Nat.leb].
  eexists. split; [reflexivity|]. rewrite bytes_eqb_iff by auto. rewrite SW. reflexivity.
Qed.
(** An update of the checksum changes only the checksum field, of the packet only bytes 10 and 11 of the header; the header then
    verifies here and by the rule of RFC 1071. *)
Theorem C33_ip_update : forall (legacy : bool) (d : desc) (s : phv) (h f : nat) (cond : phv -> bool) (x : hdr) (r stack payload stack' payload' : list N),
  wf d -> reach legacy d s -> bytes_ok stack -> length stack = 60 -> bytes_ok stack' -> length stack' = 60 -> live d s h x -> encodes x r -> 12 <= length r <= 60 -> ip_field x f -> cond s = true ->
  exists s' x', ck_update d (mk_ck h f cond IPv4) stack payload s = Some s' /\ reach legacy d s' /\ live d s' h x' /\ d_valid x' = d_valid x /\ (forall k, k <> h -> header s' k = header s k) /\
    (exists r', encodes x' r' /\ r' = with_cksum r (be_enc 2 (rfc1071 (with_cksum r [0; 0]%N))) /\ oc_sum (words16 r') = 65535%N) /\
    ck_verify d (mk_ck h f cond IPv4) stack' payload' s' = Some true.
Proof.
  intros legacy d s h f cond x r stack payload stack' payload' W R BS LS BS' LS' LV EN LR IPF C. pose proof (reach_INV _ _ _ W R) as I. pose proof LV as (t & T & X & V). pose proof IPF as ((v & F) & OFF).
  pose proof (i_f _ _ _ I h t x T X) as [FO SB]. destruct (ip_cksum_ok stack x r BS LS EN SB LR) as (c & E & CL & SW). destruct (mem16_swap c CL) as [M MV].
  assert (RF : (rfc1071 (with_cksum r [0; 0]%N) <= 65535)%N) by (rewrite <- SW; unfold rfc1071 in *; lia).
  set (z := rfc1071 (with_cksum r [0; 0]%N)) in *. set (x' := mk_hdr (d_valid x) (d_vf x) (list_set (d_fields x) f (16, Z.of_N z)) (d_nb x)). set (s' := set_h s h x').
  assert (FL : f < length (d_fields x)) by (eapply nth_error_lt; eauto). assert (HL : h < length (p_h s)) by (eapply nth_error_lt; eauto).
  assert (X' : header s' h = Some x') by (unfold header, s', set_h; cbn [p_h]; apply nth_error_list_set_eq; auto).
  assert (ST : step legacy d s (OSet h f (Z.of_N z)) = Some s') by (cbn [step]; unfold set_field; unfold header in X; rewrite X; cbn [bind]; rewrite F; reflexivity).
  assert (R' : reach legacy d s'). { eapply reach_step; eauto. cbn. exists t. split; auto. apply F2_len in FO. lia. }
  assert (L' : live d s' h x') by (exists t; split; [auto|split; [auto|exact V]]).
  assert (FB : field_bytes (16, Z.of_N z) = be_enc 2 z). { unfold field_bytes. cbn [fst snd]. change ((16 + 7) / 8) with 2. f_equal. change (Z.of_nat 16) with 16%Z. change (2 ^ 16)%Z with 65536%Z. rewrite Z.mod_small by lia. apply N2Z.id. }
  assert (EN' : encodes x' (with_cksum r (be_enc 2 z))) by (rewrite <- FB; apply ip_replace; auto; lia).
  assert (F' : nth_error (d_fields x') f = Some (16, Z.of_N z)) by (apply nth_error_list_set_eq; auto).
  exists s', x'. split.
  { unfold ck_update, update_, hdr_valid, header in *. cbn [ck_h ck_f ck_cond ck_kind]. rewrite C, T. cbn [bind]. rewrite X. cbn [bind]. replace (is_valid t x) with true by (unfold is_valid; destruct V as [-> | ->]; auto using orb_true_r). cbn [negb bind].
    rewrite E. cbn [bind]. rewrite F. cbn [bind fst]. change ((16 + 7) / 8 =? 2) with true. cbv iota. rewrite MV, SW. exact ST. }
  split; auto. split; auto. split; auto. split; [intros k NK; unfold header, s', set_h; cbn [p_h]; apply nth_error_list_set_neq; auto|]. split.
  - exists (with_cksum r (be_enc 2 z)). split; auto. split; auto. unfold z, with_cksum. apply C33_receiver; [apply bytes_ok_firstn, EN|apply bytes_ok_skipn, EN|]. rewrite firstn_length_le by lia. reflexivity.
  - destruct (C33_ip_verify legacy d s' h f (fun _ => true) x' (Z.of_N z) _ stack' payload' W R' BS' LS' L' EN') as (b & EB & IFF); auto; [rewrite with_cksum_len; auto; lia|].
    assert (b = true). { apply IFF. rewrite with_cksum_again by (auto; lia). fold z. change (2 ^ 16)%Z with 65536%Z. apply Z.mod_small. lia. } subst b.
    unfold ck_verify in *. cbn [ck_h ck_cond] in *. destruct (hdr_valid d s' h) as [b|]; [|discriminate]. cbn [bind] in *. destruct b; cbn [negb] in *; [|auto]. destruct (cond s'); auto.
Qed.
(** A header that is not valid is left alone and verifies. *)
Theorem C33_ip_invalid : forall (d : desc) (s : phv) (h f : nat) (cond : phv -> bool) (stack payload : list N), dead d s h ->
  ck_update d (mk_ck h f cond IPv4) stack payload s = Some s /\ ck_verify d (mk_ck h f cond IPv4) stack payload s = Some true.
Proof.
  intros d s h f cond stack payload (t & x & T & X & M & V). unfold ck_update, ck_verify, update_, hdr_valid, header in *. cbn [ck_h ck_cond ck_kind]. rewrite T. cbn [bind]. rewrite X. cbn [bind]. unfold is_valid. rewrite M, V. cbn [orb negb bind]. destruct (cond s); auto.
Qed.

(** ** Checksums based on a calculation *)
Lemma build_same d s s' es wp payload h f x o v : nth_error (p_h s) h = Some x -> nth_error (d_fields x) f = Some o -> s' = set_h s h (mk_hdr (d_valid x) (d_vf x) (list_set (d_fields x) f (fst o, v)) (d_nb x)) ->
  (forall e, In e es -> ~ reads e h f) -> build d s' es wp payload = build d s es wp payload.
Proof.
  intros X F -> NR. unfold build. f_equal. generalize (@nil N). generalize 0. induction es as [|e es IH]; intros n buf; cbn [put_all]; auto.
  assert (P : put d (set_h s h (mk_hdr (d_valid x) (d_vf x) (list_set (d_fields x) f (fst o, v)) (d_nb x))) e buf n = put d s e buf n).
  { pose proof (NR e (or_introl eq_refl)) as NE. unfold put, set_h. cbn [p_h]. destruct e as [h' f'|c w|h']; auto.
    - destruct (nth_error (ds_h d) h') as [t|]; cbn [bind]; auto. destruct (Nat.eq_dec h' h) as [->|D]; [|rewrite nth_error_list_set_neq by auto; auto]. rewrite nth_error_list_set_eq by (eapply nth_error_lt; eauto). rewrite X. cbn [bind]. unfold is_valid. cbn [d_valid d_fields].
      destruct (Nat.eq_dec f' f) as [->|D]; [destruct NE; left; auto|]. rewrite nth_error_list_set_neq by auto. auto.
    - destruct (Nat.eq_dec h' h) as [->|D]; [destruct NE; right; auto|]. rewrite nth_error_list_set_neq by auto. auto. }
  rewrite P. destruct (put d s e buf n) as [[b m]|]; cbn [bind]; auto. apply IH. intros e' IN. apply NR. right. auto.
Qed.
(** An update followed by a verification succeeds, if the field is wide enough for the result and is not an input of its own
    calculation. *)
Theorem C33_calc_update_verifies : forall (d : desc) (s s' : phv) (h f w : nat) (v : Z) (cond : phv -> bool) (es : list bentry) (wp : bool) (hash : list N -> option N) (stack stack' payload : list N),
  (forall e, In e es -> ~ reads e h f) -> field_of s h f = Some (w, v) -> h < length (ds_h d) -> (forall b c, hash b = Some c -> c < 2 ^ N.of_nat w)%N -> cond s = true ->
  ck_update d (mk_ck h f cond (CalcBased es wp hash)) stack payload s = Some s' -> ck_verify d (mk_ck h f cond (CalcBased es wp hash)) stack' payload s' = Some true.
Proof.
  intros d s s' h f w v cond es wp hash stack stack' payload NR F HL HB C E. unfold ck_update, update_ in E. cbn [ck_h ck_f ck_cond ck_kind] in E. rewrite C in E. unfold output in E.
  destruct (build d s es wp payload) as [buf|] eqn:B; [|discriminate]. cbn [bind] in E. destruct (hash buf) as [c|] eqn:HC; [|discriminate]. cbn [bind] in E. unfold store, set_field, field_of in *.
  destruct (nth_error (p_h s) h) as [x|] eqn:X; [|discriminate]. cbn [bind] in *. rewrite F in E. cbn [bind fst] in E. injection E as <-. set (s' := set_h s h _).
  unfold ck_verify, hdr_valid, verify_, output. cbn [ck_h ck_f ck_cond ck_kind]. destruct (nth_error (ds_h d) h) as [t|] eqn:T; [|apply nth_error_None in T; lia]. cbn [bind].
  assert (X' : nth_error (p_h s') h = Some (mk_hdr (d_valid x) (d_vf x) (list_set (d_fields x) f (w, (Z.of_N c mod 2 ^ Z.of_nat w)%Z)) (d_nb x))) by (unfold s', set_h; cbn [p_h]; apply nth_error_list_set_eq; eapply nth_error_lt; eauto).
  rewrite X'. cbn [bind]. destruct (negb _); auto. destruct (cond s'); auto. rewrite (build_same d s s' es wp payload h f x (w, v) (Z.of_N c mod 2 ^ Z.of_nat w)%Z X F eq_refl NR), B. cbn [bind]. rewrite HC. cbn [bind]. unfold field_of. rewrite X'. cbn [bind d_fields].
  rewrite nth_error_list_set_eq by (eapply nth_error_lt; eauto). cbn [bind fst snd]. apply HB in HC. assert (Z.of_N c < 2 ^ Z.of_nat w)%Z. { apply N2Z.inj_lt in HC. rewrite N2Z.inj_pow, nat_N_Z in HC. exact HC. }
  rewrite !(Z.mod_small (Z.of_N c)) by lia. rewrite Z.eqb_refl. auto.
Qed.
(** With the Internet checksum as calculation, the field gets the RFC 1071 checksum of the calculation's inputs. *)
Theorem C33_calc_update : forall (legacy : bool) (d : desc) (s : phv) (h f w : nat) (v : Z) (cond : phv -> bool) (es : list bentry) (parts : list (list bool)) (wp : bool) (stack payload : list N),
  wf d -> reach legacy d s -> Forall2 (input_bits d s) es parts -> aligned 0 es parts -> bytes_ok payload -> field_of s h f = Some (w, v) -> 16 <= w -> cond s = true ->
  exists s' buf, ck_update d (mk_ck h f cond (CalcBased es wp calc_cksum16)) stack payload s = Some s' /\ bytes_ok buf /\ bits_of_bytes buf = padded_bits (concat parts) /\
    field_of s' h f = Some (w, Z.of_N (rfc1071 (buf ++ (if wp then payload else [])))).
Proof.
  intros legacy d s h f w v cond es parts wp stack payload W R F AL BP FO WW C. destruct (C51_build legacy d s es parts wp payload W R F AL) as (buf & E & BB & HB).
  assert (BO : bytes_ok (buf ++ (if wp then payload else []))) by (apply bytes_ok_app; split; auto; destruct wp; auto; constructor).
  destruct (C33_rfc1071 _ BO) as [_ CK]. unfold ck_update, update_, output. cbn [ck_h ck_f ck_cond ck_kind]. rewrite C, E. cbn [bind]. rewrite CK. cbn [bind]. unfold store, set_field, field_of in *. destruct (nth_error (p_h s) h) as [x|] eqn:X; [|discriminate]. cbn [bind] in *. rewrite FO. cbn [bind fst].
  eexists. exists buf. split; [reflexivity|]. split; auto. split; auto. unfold set_h. cbn [p_h]. rewrite nth_error_list_set_eq by (eapply nth_error_lt; eauto). cbn [bind d_fields]. rewrite nth_error_list_set_eq by (eapply nth_error_lt; eauto). do 2 f_equal. pose proof (rfc_range _ BO). apply Z.mod_small. split; [lia|].
  apply Z.lt_le_trans with (2 ^ 16)%Z; [change (2 ^ 16)%Z with 65536%Z; lia|]. apply Z.pow_le_mono_r; lia.
Qed.

(** ** Concrete headers.  ce_d: header 0 is a 20-byte IPv4 header, header 1 has 61 bytes. *)
Definition ce_ip : htype := [Some 4; Some 4; Some 8; Some 16; Some 16; Some 3; Some 13; Some 8; Some 8; Some 16; Some 32; Some 32].
Definition ce_d : desc := mk_desc [mk_hdesc false 0 ce_ip; mk_hdesc false 1 [Some 80; Some 16; Some 392]] [] [] [].
Lemma ce_wf : wf ce_d.
Proof.
  assert (NM : forall u i h, ~ member ce_d u i h) by (intros u i h (m & A & _); destruct u; discriminate).
  constructor.
  - intros h h' t t' A B. do 2 (destruct h as [|h]; [cbn in A; injection A as <-; do 2 (destruct h' as [|h']; [cbn in B; injection B as <-; cbn; auto; discriminate|]); destruct h'; discriminate|]). destruct h; discriminate.
  - intros h t A. do 2 (destruct h as [|h]; [cbn in A; injection A as <-; reflexivity|]). destruct h; discriminate.
  - intros u i u' i' h A. destruct (NM _ _ _ A).
  - intros u i h A. destruct (NM _ _ _ A).
  - intros k e A. destruct k; discriminate.
  - intros k e h h' A. destruct k; discriminate.
  - intros k e A. destruct k; discriminate.
  - intros k e u u' A. destruct k; discriminate.
Qed.
Definition ce_ops : list op := [OExtract 0 0 [4; 5; 0; 115; 0; 2; 0; 64; 17; 7; 3232235521; 3232235719]%Z; OExtract 1 0 [1; 2; 3]%Z].
Definition ce_state : phv := match run false ce_d (create ce_d) ce_ops with Some s => s | None => create ce_d end.
Lemma ce_reach : reach false ce_d ce_state.
Proof. exists ce_ops. split; [repeat constructor; eexists; (split; [reflexivity|split; reflexivity])|vm_compute; reflexivity]. Qed.
Definition ce_bytes : list N := [69; 0; 0; 115; 0; 0; 64; 0; 64; 17; 0; 7; 192; 168; 0; 1; 192; 168; 0; 199]%N.
Example C33_ex_ip : exists x, live ce_d ce_state 0 x /\ encodes x ce_bytes /\ ip_field x 9 /\ length ce_bytes = 20.
Proof. eexists. split; [eexists; split; [reflexivity|split; [vm_compute; reflexivity|right; reflexivity]]|]. split; [split; [repeat constructor|vm_compute; reflexivity]|]. split; [split; [eexists; reflexivity|reflexivity]|reflexivity]. Qed.
Definition ce_ck : checksum := mk_ck 0 9 (fun _ => true) IPv4.
Example C33_ex_update : exists s', ck_update ce_d ce_ck (repeat 170%N 60) [] ce_state = Some s' /\ field_of s' 0 9 = Some (16, 47201%Z) /\ ck_verify ce_d ce_ck (repeat 1%N 60) [] s' = Some true /\ ck_verify ce_d ce_ck (repeat 1%N 60) [] ce_state = Some false.
Proof. eexists. split; [vm_compute; reflexivity|]. split; [vm_compute; reflexivity|]. split; vm_compute; reflexivity. Qed.
Definition ce_calc : checksum := mk_ck 0 9 (fun _ => true) (CalcBased [BField 0 0; BField 0 1; BField 0 10; BConst [17%N] 8] true calc_cksum16).
Example C33_ex_calc : exists s', ck_update ce_d ce_calc [] [1; 2; 3]%N ce_state = Some s' /\ field_of s' 0 9 = Some (16, 3372%Z) /\ ck_verify ce_d ce_calc [] [1; 2; 3]%N s' = Some true.
Proof. eexists. split; [vm_compute; reflexivity|]. split; vm_compute; reflexivity. Qed.
(** Findings.  A header of more than 60 bytes overruns the buffer on the stack. *)
Theorem C33_long_header_refuted : ~ (forall d s h f x r stack, wf d -> reach false d s -> bytes_ok stack -> length stack = 60 -> live d s h x -> encodes x r -> ip_field x f -> ck_update d (mk_ck h f (fun _ => true) IPv4) stack [] s <> None).
Proof.
  intros C. assert (L : exists x, live ce_d ce_state 1 x /\ exists r, encodes x r /\ ip_field x 1).
  { eexists. split; [eexists; split; [reflexivity|split; [vm_compute; reflexivity|right; reflexivity]]|]. exists (repeat 0%N 9 ++ [1; 0; 2]%N ++ repeat 0%N 48 ++ [3]%N). split; [split; [|vm_compute; reflexivity]|split; [eexists; reflexivity|reflexivity]].
    repeat constructor. }
  destruct L as (x & L & r & EN & IF). refine (C ce_d ce_state 1 1 x r (repeat 0%N 60) ce_wf ce_reach _ eq_refl L EN IF _); [repeat constructor|vm_compute; reflexivity].
Qed.
(** A calculation with a result wider than the field is stored truncated and compared in full: the packet it was updated in does
    not verify. *)
Theorem C33_wide_result_refuted : ~ (forall d s s' h f w v es wp hash, wf d -> reach false d s -> (forall e, In e es -> ~ reads e h f) -> field_of s h f = Some (w, v) ->
  ck_update d (mk_ck h f (fun _ => true) (CalcBased es wp hash)) [] [] s = Some s' -> ck_verify d (mk_ck h f (fun _ => true) (CalcBased es wp hash)) [] [] s' = Some true).
Proof.
  intros C. assert (U : exists s', ck_update ce_d (mk_ck 0 9 (fun _ => true) (CalcBased [BField 0 0] false (fun _ => Some 65536%N))) [] [] ce_state = Some s' /\ ck_verify ce_d (mk_ck 0 9 (fun _ => true) (CalcBased [BField 0 0] false (fun _ => Some 65536%N))) [] [] s' = Some false) by (eexists; split; vm_compute; reflexivity).
  destruct U as (s' & U & V). epose proof (C ce_d ce_state s' 0 9 16 7%Z [BField 0 0] false (fun _ => Some 65536%N) ce_wf ce_reach _ eq_refl U) as B. rewrite V in B. discriminate.
  Unshelve. intros e [<-|[]] [E|E]; discriminate.
Qed.

Print Assumptions C33_rfc1071.
Print Assumptions C33_receiver.
Print Assumptions C33_ip_verify.
Print Assumptions C33_ip_update.
Print Assumptions C33_ip_invalid.
Print Assumptions C33_calc_update_verifies.
Print Assumptions C33_calc_update.
Print Assumptions C33_long_header_refuted.
Print Assumptions C33_wide_result_refuted.
