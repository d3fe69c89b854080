(** Proofs about the parser model: no access out of the packet under the guards. *)
From Coq Require Import List Arith NArith ZArith Bool Lia.
From Verif Require Import Base Bits Bytes EntryListSpec DataModel ExtractModel ExtractSpec ExtractProofs ExtractProps PhvModel PhvSpec PhvProofs PhvProofs2 PhvProofs3 PhvProofs4 PhvProofs5 PhvProofs6 PhvProofs7 PhvProps ParserModel ParserSpec ParserProofs ParserProofs2 ParserProofs3.
Import ListNotations.

Section Safe.
Variables (legacy : bool) (lx : nat -> option (phv -> Z)) (d : desc) (data : list N).
Hypotheses (W : wf d) (WL : wf_layout d) (BD : bytes_ok data).

Lemma nb_fixed s h t x : INV false d s -> nth_error (ds_h d) h = Some t -> H s h = Some x -> (Z.of_nat (fixed_bits (hd_fields t)) <= 8 * d_nb x)%Z /\ (is_VL t = false -> (8 * d_nb x = Z.of_nat (fixed_bits (hd_fields t)))%Z).
Proof.
  intros I T X. pose proof (i_f _ _ _ I _ _ _ T X) as [F N]. destruct (ext_sum _ _ F) as (k & E). split; [lia|]. intros V. rewrite N. f_equal.
  pose proof (ext_fields (hd_fields t) 0 (repeat 0%Z (length (hd_fields t))) (repeat_length _ _) eq_refl) as F0. rewrite (widths_sum _ _ _ F F0 V), combine_widths, <- total_sum, map_fst_combine by (rewrite widths_length, repeat_length; auto).
  rewrite total_widths. lia.
Qed.
Lemma extract_one_safe s h vl bp : INV false d s -> bp <= length data -> h < length (ds_h d) -> (vl = None -> ~ has_VL d h) -> (forall len maxb, vl = Some (len, maxb) -> forall s, (0 <= len s)%Z) ->
  exists r, extract_one lx d s h vl data bp = Some r.
Proof.
  intros I HB L G1 G2. destruct (nth_error_some _ _ L) as (t & T). destruct (H_get _ _ _ h I L) as (x & X). destruct (nb_fixed s h t x I T X) as [N1 N2].
  pose proof (wl_one _ WL _ _ T) as ONE. unfold extract_one. destruct vl as [[len maxb]|].
  - specialize (G2 len maxb eq_refl s). unfold extract_VL. rewrite T. cbn [bind]. unfold H in X. rewrite X. cbn [bind]. cbv zeta. destruct (Z.eqb_spec (Z.rem (len s) 8) 0) as [R|R]; cbn [negb]; [|eauto].
    rewrite short_spec; [|auto|]. 2: { apply Z.add_nonneg_nonneg; [lia|]. apply Z.quot_pos; lia. }
    destruct (Z.ltb_spec (Z.of_nat (length data - bp)) (d_nb x + len s ÷ 8)) as [A|A]; [eauto|]. destruct (negb (maxb =? 0) && _); [eauto|]. rewrite (proj2 (Z.ltb_ge _ _)) by lia. cbn [andb].
    rewrite Z.rem_mod_nonneg in R by lia. rewrite Z.quot_div_nonneg in A by lia. pose proof (Z.div_mod (len s) 8 ltac:(lia)) as DM.
    destruct (do_extract_ok d data W WL BD s h (Z.to_nat (len s)) bp t I HB T) as (r & ->).
    + intros _. apply Nat2Z.inj. rewrite Nat2Z.inj_mod, Z2Nat.id by lia. auto.
    + rewrite total_widths. assert (n_VL (hd_fields t) * Z.to_nat (len s) <= Z.to_nat (len s)) by (destruct (n_VL (hd_fields t)) as [|[|]]; lia). lia.
    + cbn [bind]. eauto.
  - unfold extract_fixed. rewrite T. cbn [bind]. unfold H in X. rewrite X. cbn [bind]. assert (V : is_VL t = false).
    { destruct (is_VL t) eqn:V; auto. exfalso. apply (G1 eq_refl). exists t. split; auto. apply is_VL_in. auto. }
    specialize (N2 V). rewrite short_spec by (auto; lia). destruct (Z.ltb_spec (Z.of_nat (length data - bp)) (d_nb x)) as [A|A]; [eauto|]. rewrite V. cbn [bind].
    destruct (do_extract_ok d data W WL BD s h 0 bp t I HB T) as (r & ->); [congruence|rewrite total_widths; lia|]. cbn [bind]. eauto.
Qed.
Lemma exec_op_safe o s bp : INV false d s -> bp <= length data -> pop_ok d o -> guarded d o -> exists r, exec_op legacy lx d data o s bp = Some r.
Proof.
  intros I HB OK (G1 & G2 & G3). destruct o as [h vl|k vl|k i vl|h f g|h f off w|c e|f|n|g]; cbn [exec_op pop_ok pop_vl extracts] in *.
  - apply extract_one_safe; auto.
  - destruct (nth_error_some _ _ OK) as (e & K). rewrite K. cbn [bind]. destruct (nth_error_some (p_s s) k) as (next & N); [rewrite (i_s _ _ _ I); auto|]. rewrite N. cbn [bind].
    destruct (Nat.leb_spec (length e) next) as [A|A]; [eauto|]. destruct (nth_error_some e next A) as (h & NE). rewrite NE. cbn [bind]. pose proof (nth_error_In _ _ NE) as IN.
    destruct (stack_range _ _ _ _ W K IN) as (L & _). destruct (extract_one_safe s h vl bp I HB L) as (r & R); [intros V; apply (G1 V); exists e; auto|auto|]. rewrite R. cbn [bind]. destruct r as [err|[[s1 bp1] ev]]; [eauto|].
    destruct (extract_one_spec lx d data W WL BD _ _ _ _ _ _ _ I HB R) as (B & _). destruct (step_inv false legacy d s1 (OPushBack k) W (ex_inv _ _ _ _ _ _ _ _ B)) as (s2 & P & I2); [cbn; auto|discriminate|].
    cbn [step] in P. destruct (push_back d s1 k); [|discriminate]. cbn [bind]. eauto.
  - destruct OK as (e & K & OK). rewrite K. cbn [bind]. destruct (nth_error_some (p_us s) k) as (next & N); [rewrite (i_us _ _ _ I); eapply nth_error_lt; eauto|]. rewrite N. cbn [bind].
    destruct (Nat.leb_spec (length e) next) as [A|A]; [eauto|]. destruct (nth_error_some e next A) as (u & NE). rewrite NE. cbn [bind]. pose proof (nth_error_In _ _ NE) as IN.
    destruct (OK u IN) as (m & M & LI). rewrite M. cbn [bind]. destruct (nth_error_some m i LI) as (h & MI). rewrite MI. cbn [bind].
    assert (MB : member d u i h) by (exists m; auto). destruct (wf_u_range _ W _ _ _ MB) as (L & _).
    destruct (extract_one_safe s h vl bp I HB L) as (r & R); [intros V; apply (G1 V); exists e, u, m; auto|auto|]. rewrite R. cbn [bind]. destruct r as [err|[[s1 bp1] ev]]; [eauto|].
    destruct (extract_one_spec lx d data W WL BD _ _ _ _ _ _ _ I HB R) as (B & _). destruct (step_inv false legacy d s1 (OPushBackU k) W (ex_inv _ _ _ _ _ _ _ _ B)) as (s2 & P & I2); [cbn; eapply nth_error_lt; eauto|discriminate|].
    cbn [step] in P. destruct (push_back_u d s1 k); [|discriminate]. cbn [bind]. eauto.
  - destruct (store_inv legacy d W s h f (g s) I OK) as (s1 & -> & _). cbn [bind]. eauto.
  - rewrite short_spec by (auto; lia). destruct (Z.ltb_spec (Z.of_nat (length data - bp)) (Z.of_nat ((w + 7) / 8))) as [A|A]; [eauto|]. destruct G3 as [G3 G4]. unfold peek.
    pose proof (nbw_spec w) as NB. unfold nbw in NB. assert (O8 : off < 8) by lia. rewrite (Nat.div_small off 8), (Nat.mod_small off 8) by auto. cbn [skipn].
    destruct (C25_extract (skipn bp data) off w (repeat 0%N ((w + 7) / 8)) (bytes_ok_skipn _ _ BD) O8 G3) as (b & -> & _); [rewrite skipn_length; lia|apply repeat_length|]. cbn [bind].
    destruct (store_inv legacy d W s h f (import_bytes b) I OK) as (s1 & -> & _). cbn [bind]. eauto.
  - eauto.
  - destruct (run_inv false legacy d (f s) W (OK s) ltac:(discriminate) s I) as (s1 & -> & _). cbn [bind]. eauto.
  - unfold skip. destruct (short _ _ _); eauto.
  - rewrite (proj2 (Z.ltb_ge _ _)) by auto. cbv zeta. destruct (negb _); [eauto|]. unfold skip. destruct (short _ _ _); eauto.
Qed.
Lemma exec_ops_safe ops : forall s bp, INV false d s -> bp <= length data -> Forall (pop_ok d) ops -> Forall (guarded d) ops -> exists r, exec_ops legacy lx d data ops s bp = Some r.
Proof.
  induction ops as [|o ops IH]; intros s bp I HB OK G; cbn [exec_ops]; [eauto|]. inversion OK as [|? ? OK1 OK2]; inversion G as [|? ? G1 G2]; subst.
  destruct (exec_op_safe o s bp I HB OK1 G1) as ([err|[[s1 bp1] ev1]] & R); rewrite R; [eauto|]. destruct (exec_op_spec legacy lx d data W WL BD _ _ _ _ _ _ I HB OK1 R) as ([I1 L1 A1] & _).
  destruct (IH s1 bp1 I1 (proj2 L1) OK2 G2) as ([[[s2 bp2] ev2] e2] & ->). eauto.
Qed.

(** ** Stacks do not shrink during a state, unless by a method *)
Definition grows (s s' : phv) : Prop := (forall k n, nth_error (p_s s) k = Some n -> exists n', nth_error (p_s s') k = Some n' /\ n <= n') /\ (forall k n, nth_error (p_us s) k = Some n -> exists n', nth_error (p_us s') k = Some n' /\ n <= n').
Lemma grows_refl s s' : p_s s' = p_s s -> p_us s' = p_us s -> grows s s'.
Proof. intros A B. split; intros k n E; rewrite ?A, ?B; eauto. Qed.
Lemma grows_trans a b c : grows a b -> grows b c -> grows a c.
Proof. intros [A1 A2] [B1 B2]. split; intros k n E; [destruct (A1 k n E) as (m & F & L); destruct (B1 k m F) as (p & G & L2)|destruct (A2 k n E) as (m & F & L); destruct (B2 k m F) as (p & G & L2)]; exists p; split; auto; lia. Qed.
Lemma frame_grows s s' : frame s s' -> grows s s'.
Proof. intros (A & B & _). apply grows_refl; auto. Qed.
Lemma mark_valid_stacks s h s' : mark_valid d s h = Some s' -> INV false d s -> frame s s'.
Proof.
  intros E I. destruct (H s h) as [x|] eqn:X; [|unfold mark_valid, H in *; rewrite X in E; discriminate]. destruct (mark_valid_ok false d s h x W I X) as (s2 & E2 & _ & FR & _). congruence.
Qed.
Lemma push_back_grows s k q : INV false d s -> push_back d s k = Some q -> grows s (fst q) /\ (forall e n, nth_error (ds_s d) k = Some e -> nth_error (p_s s) k = Some n -> n < length e -> nth_error (p_s (fst q)) k = Some (S n)).
Proof.
  intros I E. unfold push_back in E. destruct (nth_error (ds_s d) k) as [e|] eqn:K; [|discriminate]. cbn [bind] in E. destruct (nth_error (p_s s) k) as [next|] eqn:N; [|discriminate]. cbn [bind] in E.
  destruct (Nat.eqb_spec next (length e)) as [A|A].
  - injection E as <-. split; [apply grows_refl; auto|]. intros e' n [= <-] [= <-] L. lia.
  - unfold at_el in E. destruct (nth_error e next) as [h|] eqn:NE; [|discriminate]. cbn [bind] in E. destruct (mark_valid d s h) as [s1|] eqn:MV; [|discriminate]. cbn [bind] in E. injection E as <-. cbn [fst].
    pose proof (mark_valid_stacks _ _ _ MV I) as (F1 & F2 & _). split.
    + split; intros j n EJ; cbn [set_s p_s p_us]; [|rewrite F2; eauto]. rewrite F1. destruct (Nat.eq_dec k j) as [->|NK].
      * rewrite nth_error_list_set_eq by (eapply nth_error_lt; eauto). exists (S next). split; auto. rewrite N in EJ. injection EJ as <-. lia.
      * rewrite nth_error_list_set_neq by auto. eauto.
    + intros e' n [= <-] [= <-] L. cbn [set_s p_s]. rewrite F1. apply nth_error_list_set_eq. eapply nth_error_lt; eauto.
Qed.
Lemma push_back_u_grows s k q : push_back_u d s k = Some q -> grows s (fst q) /\ (forall e n, nth_error (ds_us d) k = Some e -> nth_error (p_us s) k = Some n -> n < length e -> nth_error (p_us (fst q)) k = Some (S n)).
Proof.
  intros E. unfold push_back_u in E. destruct (nth_error (ds_us d) k) as [e|] eqn:K; [|discriminate]. cbn [bind] in E. destruct (nth_error (p_us s) k) as [next|] eqn:N; [|discriminate]. cbn [bind] in E.
  destruct (Nat.eqb_spec next (length e)) as [A|A]; injection E as <-; cbn [fst].
  - split; [apply grows_refl; auto|]. intros e' n [= <-] [= <-] L. lia.
  - split.
    + split; intros j n EJ; cbn [set_us p_s p_us]; [eauto|]. destruct (Nat.eq_dec k j) as [->|NK].
      * rewrite nth_error_list_set_eq by (eapply nth_error_lt; eauto). exists (S next). split; auto. rewrite N in EJ. injection EJ as <-. lia.
      * rewrite nth_error_list_set_neq by auto. eauto.
    + intros e' n [= <-] [= <-] L. cbn [set_us p_us]. apply nth_error_list_set_eq. eapply nth_error_lt; eauto.
Qed.
Lemma exec_op_grows o s bp s' bp' ev : INV false d s -> bp <= length data -> pop_ok d o -> exec_op legacy lx d data o s bp = Some (inr (s', bp', ev)) -> ~ is_method o ->
  grows s s' /\ (forall k vl, o = PExtractStack k vl -> exists n, nth_error (p_s s') k = Some (S n)) /\ (forall k j vl, o = PExtractUStack k j vl -> exists n, nth_error (p_us s') k = Some (S n)).
Proof.
  intros I HB OK E NM. destruct o as [h vl|k vl|k i vl|h f g|h f off w|c e|f|n|g]; cbn [exec_op pop_ok is_method] in *.
  - destruct (extract_one_spec lx d data W WL BD _ _ _ _ _ _ _ I HB E) as (A & _). split; [apply frame_grows, A|split; discriminate].
  - destruct (nth_error (ds_s d) k) as [el|] eqn:K; [|discriminate]. cbn [bind] in E. destruct (nth_error (p_s s) k) as [next|] eqn:N; [|discriminate]. cbn [bind] in E.
    destruct (Nat.leb_spec (length el) next) as [A|A]; [discriminate|]. destruct (nth_error el next) as [h|] eqn:NE; [|discriminate]. cbn [bind] in E.
    destruct (extract_one lx d s h vl data bp) as [[err|[[s1 bp1] ev1]]|] eqn:X; cbn [bind] in E; try discriminate.
    destruct (extract_one_spec lx d data W WL BD _ _ _ _ _ _ _ I HB X) as (B & _). destruct (push_back d s1 k) as [q|] eqn:Q; [|discriminate]. cbn [bind] in E. injection E as <- <- <-.
    destruct (push_back_grows s1 k q (ex_inv _ _ _ _ _ _ _ _ B) Q) as [G1 G2]. pose proof (ex_frame _ _ _ _ _ _ _ _ B) as FR. split; [eapply grows_trans; [apply frame_grows; eauto|auto]|]. split; [|discriminate].
    intros k' vl' [= <- <-]. exists next. apply (G2 el next); auto. destruct FR as (-> & _). auto.
  - destruct (nth_error (ds_us d) k) as [el|] eqn:K; [|discriminate]. cbn [bind] in E. destruct (nth_error (p_us s) k) as [next|] eqn:N; [|discriminate]. cbn [bind] in E.
    destruct (Nat.leb_spec (length el) next) as [A|A]; [discriminate|]. destruct (nth_error el next) as [u|] eqn:NE; [|discriminate]. cbn [bind] in E.
    destruct (nth_error (ds_u d) u) as [m|] eqn:M; [|discriminate]. cbn [bind] in E. destruct (nth_error m i) as [h|] eqn:MI; [|discriminate]. cbn [bind] in E.
    destruct (extract_one lx d s h vl data bp) as [[err|[[s1 bp1] ev1]]|] eqn:X; cbn [bind] in E; try discriminate.
    destruct (extract_one_spec lx d data W WL BD _ _ _ _ _ _ _ I HB X) as (B & _). destruct (push_back_u d s1 k) as [q|] eqn:Q; [|discriminate]. cbn [bind] in E. injection E as <- <- <-.
    destruct (push_back_u_grows s1 k q Q) as [G1 G2]. pose proof (ex_frame _ _ _ _ _ _ _ _ B) as FR. split; [eapply grows_trans; [apply frame_grows; eauto|auto]|]. split; [discriminate|].
    intros k' j' vl' [= <- <- <-]. exists next. apply (G2 el next); auto. destruct FR as (_ & -> & _). auto.
  - destruct (store_inv legacy d W s h f (g s) I OK) as (s1 & S1 & _ & A & B). rewrite S1 in E. cbn [bind] in E. injection E as <- <- <-. split; [apply grows_refl; auto|split; discriminate].
  - destruct (short _ _ _); [discriminate|]. destruct (peek off w data bp) as [b|]; [|discriminate]. cbn [bind] in E. destruct (store_inv legacy d W s h f (import_bytes b) I OK) as (s1 & S1 & _ & A & B). rewrite S1 in E. cbn [bind] in E.
    injection E as <- <- <-. split; [apply grows_refl; auto|split; discriminate].
  - destruct (c s); [|discriminate]. injection E as <- <- <-. split; [apply grows_refl; auto|split; discriminate].
  - tauto.
  - apply (skip_spec data) in E as (-> & _); [|auto|lia]. split; [apply grows_refl; auto|split; discriminate].
  - destruct (g s <? 0)%Z; [discriminate|]. cbv zeta in E. destruct (negb _); [discriminate|]. assert (0 <= (g s mod 2 ^ 64) / 8)%Z by (apply Z.div_pos; [apply Z.mod_pos_bound; lia|lia]).
    apply (skip_spec data) in E as (-> & _); [|auto|auto]. split; [apply grows_refl; auto|split; discriminate].
Qed.
Lemma exec_ops_grows ops : forall s bp s' bp' ev, INV false d s -> bp <= length data -> Forall (pop_ok d) ops -> exec_ops legacy lx d data ops s bp = Some (s', bp', ev, None) -> (forall o, In o ops -> ~ is_method o) -> grows s s'.
Proof.
  induction ops as [|o ops IH]; intros s bp s' bp' ev I HB OK E NM; cbn [exec_ops] in E; [injection E as <- <- <-; apply grows_refl; auto|]. inversion OK as [|? ? OK1 OK2]; subst.
  destruct (exec_op legacy lx d data o s bp) as [[err|[[s1 bp1] ev1]]|] eqn:X; [discriminate| |discriminate]. destruct (exec_op_spec legacy lx d data W WL BD _ _ _ _ _ _ I HB OK1 X) as ([I1 L1 A1] & _).
  destruct (exec_ops legacy lx d data ops s1 bp1) as [[[[s2 bp2] ev2] e2]|] eqn:Y; [|discriminate]. injection E as <- <- <- ->. destruct (exec_op_grows _ _ _ _ _ _ I HB OK1 X (NM o (or_introl eq_refl))) as (G & _).
  eapply grows_trans; [exact G|]. exact (IH s1 bp1 s2 bp2 ev2 I1 (proj2 L1) OK2 Y (fun o' IN => NM o' (or_intror IN))).
Qed.
Lemma exec_ops_app l1 : forall l2 s bp, exec_ops legacy lx d data (l1 ++ l2) s bp =
  match exec_ops legacy lx d data l1 s bp with
  | Some (s1, bp1, ev1, None) => match exec_ops legacy lx d data l2 s1 bp1 with Some (s2, bp2, ev2, e) => Some (s2, bp2, ev1 ++ ev2, e) | None => None end
  | r => r
  end.
Proof.
  induction l1 as [|o l1 IH]; intros l2 s bp; cbn [app exec_ops]; [destruct (exec_ops legacy lx d data l2 s bp) as [[[[? ?] ?] ?]|]; auto|].
  destruct (exec_op legacy lx d data o s bp) as [[err|[[s1 bp1] ev1]]|]; auto. rewrite IH. destruct (exec_ops legacy lx d data l1 s1 bp1) as [[[[s2 bp2] ev2] [e|]]|]; auto.
  destruct (exec_ops legacy lx d data l2 s2 bp2) as [[[[s3 bp3] ev3] e3]|]; auto. rewrite app_assoc. auto.
Qed.
Lemma on_top_spec ops P s bp s' bp' ev : INV false d s -> bp <= length data -> Forall (pop_ok d) ops -> exec_ops legacy lx d data ops s bp = Some (s', bp', ev, None) -> on_top ops P ->
  (forall o, P o -> ~ is_method o) ->
  exists o s1 s2 b1 b2 e1, P o /\ INV false d s1 /\ b1 <= length data /\ pop_ok d o /\ exec_op legacy lx d data o s1 b1 = Some (inr (s2, b2, e1)) /\ grows s2 s'.
Proof.
  intros I HB OK E (l1 & o & l2 & -> & PO & NM) PM. rewrite exec_ops_app in E. apply Forall_app in OK as [OK1 OK2]. inversion OK2 as [|? ? OK3 OK4]; subst.
  destruct (exec_ops legacy lx d data l1 s bp) as [[[[s1 b1] ev1] [e|]]|] eqn:X1; try discriminate. destruct (exec_ops_spec legacy lx d data W WL BD _ _ _ _ _ _ _ I HB OK1 X1) as ([I1 L1 _] & _). cbn [exec_ops] in E.
  destruct (exec_op legacy lx d data o s1 b1) as [[err|[[s2 b2] ev2]]|] eqn:X2; try discriminate. destruct (exec_op_spec legacy lx d data W WL BD _ _ _ _ _ _ I1 (proj2 L1) OK3 X2) as ([I2 L2 _] & _).
  destruct (exec_ops legacy lx d data l2 s2 b2) as [[[[s3 b3] ev3] e3]|] eqn:X3; [|discriminate]. injection E as <- <- <- ->.
  exists o, s1, s2, b1, b2, ev2. split; auto. split; auto. split; [lia|]. split; auto. split; auto. exact (exec_ops_grows l2 s2 b2 s3 b3 ev3 I2 (proj2 L2) OK4 X3 NM).
Qed.

(** ** Keys and select *)
Lemma header_field_ok s h f w : INV false d s -> fixed_field d h f w -> exists b, header_field s h f = Some b /\ length b = (w + 7) / 8.
Proof.
  intros I (t & T & F). destruct (H_get _ _ _ h I (nth_error_lt _ _ _ T)) as (x & X). pose proof (i_f _ _ _ I _ _ _ T X) as [FM _]. unfold header_field. unfold H in X. rewrite X. cbn [bind].
  destruct (nth_error_some (d_fields x) f) as (o & O); [rewrite <- (F2_len _ _ _ FM); eapply nth_error_lt; eauto|]. rewrite O. cbn [bind]. eexists. split; [reflexivity|]. unfold field_bytes. rewrite be_enc_length.
  pose proof (F2_nth _ _ _ _ _ _ FM F O) as WM. cbn in WM. rewrite WM. auto.
Qed.
Lemma key_entry_ok ops s bp s' bp' ev k w : INV false d s -> bp <= length data -> Forall (pop_ok d) ops -> exec_ops legacy lx d data ops s bp = Some (s', bp', ev, None) -> entry_width d ops k w ->
  exists b, key_entry d s' data bp' k = Some b /\ length b = (w + 7) / 8.
Proof.
  intros I HB OK E EW. destruct (exec_ops_spec legacy lx d data W WL BD _ _ _ _ _ _ _ I HB OK E) as ([I' L' _] & _). destruct k as [h f|k f|k i f|off w']; cbn [key_entry entry_width] in *.
  - apply header_field_ok; auto.
  - destruct EW as ((e & K & EF) & TOP). destruct (on_top_spec _ _ _ _ _ _ _ I HB OK E TOP) as (o & s1 & s2 & b1 & b2 & e1 & (vl & ->) & I1 & L1 & OK1 & X & G); [intros o (vl & ->) []|].
    destruct (exec_op_grows _ _ _ _ _ _ I1 L1 OK1 X (fun x => x)) as (_ & GT & _). destruct (GT k vl eq_refl) as (n & N). destruct (proj1 G k (S n) N) as (n' & N' & LE).
    rewrite K. cbn [bind]. rewrite N'. cbn [bind]. destruct n' as [|n']; [lia|]. cbn [last_of]. pose proof (i_ns _ _ _ I' _ _ _ K N') as LN. destruct (nth_error_some e n') as (h & NE); [lia|]. rewrite NE. cbn [bind].
    apply header_field_ok; auto. apply EF. eapply nth_error_In; eauto.
  - destruct EW as ((e & K & EF) & TOP). destruct (on_top_spec _ _ _ _ _ _ _ I HB OK E TOP) as (o & s1 & s2 & b1 & b2 & e1 & (j & vl & ->) & I1 & L1 & OK1 & X & G); [intros o (j & vl & ->) []|].
    destruct (exec_op_grows _ _ _ _ _ _ I1 L1 OK1 X (fun x => x)) as (_ & _ & GT). destruct (GT k j vl eq_refl) as (n & N). destruct (proj2 G k (S n) N) as (n' & N' & LE).
    rewrite K. cbn [bind]. rewrite N'. cbn [bind]. destruct n' as [|n']; [lia|]. cbn [last_of]. pose proof (i_nus _ _ _ I' _ _ _ K N') as LN. destruct (nth_error_some e n') as (u & NE); [lia|]. rewrite NE. cbn [bind].
    destruct (EF u (nth_error_In _ _ NE)) as (h & (m & M & MI) & FF). rewrite M. cbn [bind]. rewrite MI. cbn [bind]. apply header_field_ok; auto.
  - tauto.
Qed.
Lemma build_key_ok ops s bp s' bp' ev : INV false d s -> bp <= length data -> Forall (pop_ok d) ops -> exec_ops legacy lx d data ops s bp = Some (s', bp', ev, None) ->
  forall ks ws, Forall2 (entry_width d ops) ks ws -> exists key, build_key d s' data bp' ks = Some key /\ length key = key_bytes ws.
Proof.
  intros I HB OK E ks ws F. induction F as [|k w ks ws EW F IH]; cbn [build_key]; [exists []; auto|].
  destruct (key_entry_ok _ _ _ _ _ _ _ _ I HB OK E EW) as (b & -> & LB). cbn [bind]. destruct IH as (key & -> & LK). cbn [bind]. eexists. split; [reflexivity|]. rewrite app_length, LB, LK. reflexivity.
Qed.
Lemma select_total env cs dflt key : Forall (case_sized env (length key)) cs -> exists n, select env cs dflt key = Some n.
Proof.
  induction 1 as [|c cs CS F IH]; cbn [select]; [eauto|]. assert (exists b, case_match env c key = Some b) as (b & ->); [|cbn [bind]; destruct b; eauto].
  destruct c as [k nx|k m nx|i j nx]; cbn [case_match case_sized] in *; [eauto| |].
  - destruct CS as [A B]. destruct (mask_match_spec k m key) as (b & -> & _); [lia|lia|eauto].
  - destruct CS as (vs & sh & V & J & SW & M). rewrite V. cbn [bind]. rewrite J. cbn [bind]. unfold sh_contains, transform.
    destruct (sh_mask sh) as [m|] eqn:MK; [rewrite (proj2 (Nat.leb_le _ _)) by (rewrite (M m eq_refl); lia)|]; cbn [bind]; rewrite SW, Nat.eqb_refl; eauto.
Qed.

Variable (env : nat -> list vset).
Variable (pg : program).
Hypothesis (PO : prog_ok d pg).
Lemma loop_safe : (forall p, In p (pg_states pg) -> Forall (guarded d) (st_ops p) /\ select_ok d env p) ->
  forall fuel st s bp ev, INV false d s -> bp <= length data -> next_ok pg st -> parse_loop legacy lx d env (pg_states pg) data fuel st s bp ev <> Crash.
Proof.
  intros G. induction fuel as [|fuel IH]; intros st s bp ev I HB NX; destruct st as [i|]; cbn [parse_loop]; try discriminate.
  - rewrite (proj2 (Nat.leb_le _ _)) by auto. discriminate.
  - destruct (nth_error_some (pg_states pg) i NX) as (p & P). rewrite P. pose proof (nth_error_In _ _ P) as IN. pose proof (po_ops _ _ PO p IN) as OK. destruct (G p IN) as [G1 G2].
    destruct (exec_ops_safe (st_ops p) s bp I HB OK G1) as ([[[s1 bp1] ev1] [err|]] & X); rewrite X; destruct (exec_ops_spec legacy lx d data W WL BD _ _ _ _ _ _ _ I HB OK X) as ([I1 L1 _] & _).
    + rewrite (proj2 (Nat.leb_le _ _)) by lia. discriminate.
    + assert (exists st', next_state d (env fuel) data p s1 bp1 = Some st' /\ next_ok pg st') as (st' & -> & NX').
      { destruct (po_next _ _ PO p IN) as [D1 D2]. unfold next_state. destruct (st_key p) as [ks|] eqn:K; [|eauto]. destruct (G2 ks K) as (ws & F & SZ).
        destruct (build_key_ok _ _ _ _ _ _ I HB OK X ks ws F) as (key & -> & LK). cbn [bind]. specialize (SZ fuel). rewrite <- LK in SZ. destruct (select_total (env fuel) (st_cases p) (st_default p) key SZ) as (n & SE). exists n. split; auto.
        destruct (select_in _ _ _ _ _ SE) as [->|(c & CI & <-)]; auto. rewrite Forall_forall in D2. auto. }
      apply IH; auto. lia.
  - rewrite (proj2 (Nat.leb_le _ _)) by auto. discriminate.
Qed.
End Safe.
