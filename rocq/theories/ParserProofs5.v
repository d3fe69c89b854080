(** Proofs about the parser model: parsing goes through reachable header vectors, exact outcomes of the bounds checks, value sets. *)
From Coq Require Import List Arith NArith ZArith Bool Lia.
From Verif Require Import Base Bits Bytes EntryListSpec DataModel ExtractModel ExtractSpec ExtractProofs ExtractProps PhvModel PhvSpec PhvProofs PhvProofs2 PhvProofs3 PhvProofs4 PhvProofs5 PhvProofs6 PhvProofs7 PhvProps ParserModel ParserSpec ParserProofs ParserProofs2 ParserProofs3 ParserProofs4.
Import ListNotations.

Lemma run_app legacy d l1 : forall s l2, run legacy d s (l1 ++ l2) = bind (run legacy d s l1) (fun s1 => run legacy d s1 l2).
Proof. induction l1 as [|o l1 IH]; intros s l2; cbn [app run]; [auto|]. destruct (step legacy d s o); cbn [bind]; auto. Qed.
Lemma reach_run legacy d s l s' : reach legacy d s -> Forall (op_ok d) l -> run legacy d s l = Some s' -> reach legacy d s'.
Proof. intros (l0 & OK & R) OK2 R2. exists (l0 ++ l). split; [apply Forall_app; auto|]. rewrite run_app, R. auto. Qed.
Lemma reach_step legacy d s o s' : reach legacy d s -> op_ok d o -> step legacy d s o = Some s' -> reach legacy d s'.
Proof. intros R OK E. apply (reach_run legacy d s [o]); auto. cbn [run]. rewrite E. auto. Qed.

Section Reach.
Variables (legacy : bool) (lx : nat -> option (phv -> Z)) (d : desc) (data : list N).
Hypotheses (W : wf d) (WL : wf_layout d) (BD : bytes_ok data).

Lemma do_extract_reach s h vl bp s' bp' ev : reach legacy d s -> do_extract d s h vl data bp = Some (s', bp', ev) -> reach legacy d s'.
Proof.
  intros R E. pose proof (reach_INV _ _ _ W R) as I. unfold do_extract in E. destruct (nth_error (ds_h d) h) as [t|] eqn:T; [|discriminate]. cbn [bind] in E.
  destruct (h_extract (widths (hd_fields t) vl) (skipn bp data) 0) as [bs|] eqn:HX; [|discriminate]. cbn [bind] in E.
  destruct (extract d s h vl (map import_bytes bs)) as [s1|] eqn:EX; [|discriminate]. cbn [bind] in E. destruct (nth_error (p_h s1) h) as [x1|]; [|discriminate]. cbn [bind] in E. injection E as <- <- <-.
  destruct (H_get _ _ _ h I (nth_error_lt _ _ _ T)) as (x & X). destruct (extract_spec d s h vl _ t x s1 W WL I T X EX) as (LV & V & _).
  assert (exists vl', vl' mod 8 = 0 /\ extract d s h vl' (map import_bytes bs) = Some s1) as (vl' & V' & E').
  { destruct (is_VL t) eqn:VL; [exists vl; auto|]. exists 0. split; auto. rewrite <- EX. unfold extract. rewrite T. cbn [bind]. rewrite VL. destruct (nth_error (p_h s) h); auto. cbn [bind andb]. rewrite !combine_widths, (widths_noVL t 0 vl); auto. }
  eapply reach_step with (o := OExtract h vl' (map import_bytes bs)); eauto. cbn. exists t. auto.
Qed.
Lemma extract_one_reach s h vl bp s' bp' ev : reach legacy d s -> extract_one lx d s h vl data bp = Some (inr (s', bp', ev)) -> reach legacy d s'.
Proof.
  intros R E. unfold extract_one in E. destruct vl as [[len maxb]|]; [unfold extract_VL in E|unfold extract_fixed in E]; destruct (nth_error (ds_h d) h) as [t|]; try discriminate; cbn [bind] in E; destruct (nth_error (p_h s) h) as [x|]; try discriminate; cbn [bind] in E; cbv zeta in E.
  - destruct (negb _); [discriminate|]. destruct (short _ _ _); [discriminate|]. destruct (negb _ && _); [discriminate|]. destruct (_ && _); [discriminate|].
    destruct (do_extract d s h (Z.to_nat (len s)) data bp) as [[[s1 bp1] ev1]|] eqn:D; [|discriminate]. cbn [bind] in E. injection E as <- <- <-. eapply do_extract_reach; eauto.
  - destruct (short _ _ _); [discriminate|]. destruct (if is_VL t then _ else _) as [n|]; [|discriminate]. cbn [bind] in E.
    destruct (do_extract d s h n data bp) as [[[s1 bp1] ev1]|] eqn:D; [|discriminate]. cbn [bind] in E. injection E as <- <- <-. eapply do_extract_reach; eauto.
Qed.
Lemma store_reach s h f v s' : reach legacy d s -> field_exists d h f -> store s h f v = Some s' -> reach legacy d s'.
Proof.
  intros R OK E. unfold store in E. destruct (nth_error (p_h s) h) as [x|]; [|discriminate]. cbn [bind] in E. destruct (nth_error (d_fields x) f) as [o|]; [|discriminate]. cbn [bind] in E.
  eapply reach_step with (o := OSet h f (v mod 2 ^ Z.of_nat (fst o))%Z); eauto.
Qed.
Lemma exec_op_reach o s bp s' bp' ev : reach legacy d s -> pop_ok d o -> exec_op legacy lx d data o s bp = Some (inr (s', bp', ev)) -> reach legacy d s'.
Proof.
  intros R OK E. destruct o as [h vl|k vl|k i vl|h f g|h f off w|c e|f|n|g]; cbn [exec_op pop_ok] in *.
  - eapply extract_one_reach; eauto.
  - destruct (nth_error (ds_s d) k) as [el|] eqn:K; [|discriminate]. cbn [bind] in E. destruct (nth_error (p_s s) k) as [next|]; [|discriminate]. cbn [bind] in E.
    destruct (length el <=? next); [discriminate|]. destruct (nth_error el next) as [h|]; [|discriminate]. cbn [bind] in E.
    destruct (extract_one lx d s h vl data bp) as [[err|[[s1 bp1] ev1]]|] eqn:X; cbn [bind] in E; try discriminate.
    destruct (push_back d s1 k) as [q|] eqn:Q; [|discriminate]. cbn [bind] in E. injection E as <- <- <-. apply (reach_step legacy d s1 (OPushBack k)); [eapply extract_one_reach; eauto|auto|]. cbn [step]. rewrite Q. auto.
  - destruct (nth_error (ds_us d) k) as [el|] eqn:K; [|discriminate]. cbn [bind] in E. destruct (nth_error (p_us s) k) as [next|]; [|discriminate]. cbn [bind] in E.
    destruct (length el <=? next); [discriminate|]. destruct (nth_error el next) as [u|]; [|discriminate]. cbn [bind] in E.
    destruct (nth_error (ds_u d) u) as [m|]; [|discriminate]. cbn [bind] in E. destruct (nth_error m i) as [h|]; [|discriminate]. cbn [bind] in E.
    destruct (extract_one lx d s h vl data bp) as [[err|[[s1 bp1] ev1]]|] eqn:X; cbn [bind] in E; try discriminate.
    destruct (push_back_u d s1 k) as [q|] eqn:Q; [|discriminate]. cbn [bind] in E. injection E as <- <- <-. apply (reach_step legacy d s1 (OPushBackU k)); [eapply extract_one_reach; eauto|cbn; eapply nth_error_lt; eauto|]. cbn [step]. rewrite Q. auto.
  - destruct (store s h f (g s)) as [s1|] eqn:ST; [|discriminate]. cbn [bind] in E. injection E as <- <- <-. eapply store_reach; eauto.
  - destruct (short _ _ _); [discriminate|]. destruct (peek off w data bp) as [b|]; [|discriminate]. cbn [bind] in E. destruct (store s h f (import_bytes b)) as [s1|] eqn:ST; [|discriminate]. cbn [bind] in E. injection E as <- <- <-. eapply store_reach; eauto.
  - destruct (c s); [|discriminate]. injection E as <- <- <-. auto.
  - destruct (run legacy d s (f s)) as [s1|] eqn:RN; [|discriminate]. cbn [bind] in E. injection E as <- <- <-. eapply reach_run; eauto.
  - unfold skip in E. destruct (short _ _ _); [discriminate|]. injection E as <- <- <-. auto.
  - destruct (g s <? 0)%Z; [discriminate|]. cbv zeta in E. destruct (negb _); [discriminate|]. unfold skip in E. destruct (short _ _ _); [discriminate|]. injection E as <- <- <-. auto.
Qed.
Lemma exec_ops_reach ops : forall s bp s' bp' ev e, reach legacy d s -> Forall (pop_ok d) ops -> exec_ops legacy lx d data ops s bp = Some (s', bp', ev, e) -> reach legacy d s'.
Proof.
  induction ops as [|o ops IH]; intros s bp s' bp' ev e R OK E; cbn [exec_ops] in E; [injection E as <- <- <- <-; auto|]. inversion OK as [|? ? OK1 OK2]; subst.
  destruct (exec_op legacy lx d data o s bp) as [[err|[[s1 bp1] ev1]]|] eqn:X; [injection E as <- <- <- <-; auto| |discriminate].
  destruct (exec_ops legacy lx d data ops s1 bp1) as [[[[s2 bp2] ev2] e2]|] eqn:Y; [|discriminate]. injection E as <- <- <- <-. exact (IH s1 bp1 s2 bp2 ev2 e2 (exec_op_reach _ _ _ _ _ _ R OK1 X) OK2 Y).
Qed.
Lemma loop_reach env pg : prog_ok d pg -> forall fuel st s bp ev s' payload ev' e, reach legacy d s -> parse_loop legacy lx d env (pg_states pg) data fuel st s bp ev = Done s' payload ev' e -> reach legacy d s'.
Proof.
  intros PO. induction fuel as [|fuel IH]; intros st s bp ev s' payload ev' e R E; destruct st as [i|]; cbn [parse_loop] in E; try discriminate; try (destruct (bp <=? length data); [|discriminate]; injection E as <- <- <- <-; auto).
  destruct (nth_error (pg_states pg) i) as [p|] eqn:P; [|discriminate]. pose proof (po_ops _ _ PO p (nth_error_In _ _ P)) as OK.
  destruct (exec_ops legacy lx d data (st_ops p) s bp) as [[[[s1 bp1] ev1] [err|]]|] eqn:X; [..|discriminate]; pose proof (exec_ops_reach _ _ _ _ _ _ _ R OK X) as R1.
  - destruct (bp1 <=? length data); [|discriminate]. injection E as <- <- <- <-. auto.
  - destruct (next_state d (env fuel) data p s1 bp1) as [st'|]; [|discriminate]. eapply IH; eauto.
Qed.

(** ** Exact outcomes *)
Lemma extract_fixed_exact s h t bp : reach legacy d s -> bp <= length data -> nth_error (ds_h d) h = Some t -> ~ In None (hd_fields t) ->
  exec_op legacy lx d data (PExtract h None) s bp = Some (inl PacketTooShort) /\ 8 * (length data - bp) < fixed_bits (hd_fields t) \/
  fixed_bits (hd_fields t) <= 8 * (length data - bp) /\ exists s' x, exec_op legacy lx d data (PExtract h None) s bp = Some (inr (s', bp + fixed_bits (hd_fields t) / 8, [EvHdr h (d_fields x)])) /\
    header s' h = Some x /\ d_valid x = true /\ accounts (firstn (fixed_bits (hd_fields t) / 8) (skipn bp data)) (EvHdr h (d_fields x)).
Proof.
  intros R HB T NV. pose proof (reach_INV _ _ _ W R) as I. destruct (H_get _ _ _ h I (nth_error_lt _ _ _ T)) as (x & X). destruct (nb_fixed d s h t x I T X) as [_ N2].
  assert (V : is_VL t = false) by (destruct (is_VL t) eqn:V; auto; exfalso; apply NV, is_VL_in; auto). specialize (N2 V).
  cbn [exec_op extract_one]. unfold extract_fixed. rewrite T. cbn [bind]. unfold H in X. rewrite X. cbn [bind]. rewrite short_spec by (auto; lia).
  destruct (Z.ltb_spec (Z.of_nat (length data - bp)) (d_nb x)) as [A|A]; [left; split; auto; lia|]. right. split; [lia|]. rewrite V. cbn [bind].
  assert (TW : total (widths (hd_fields t) 0) = fixed_bits (hd_fields t)) by (rewrite total_widths; lia).
  destruct (do_extract_ok d data W WL BD s h 0 bp t I HB T) as ([[s' bp'] ev] & E); [congruence|lia|]. rewrite E. cbn [bind]. destruct (do_extract_spec d data W WL BD _ _ _ _ _ _ _ I HB E) as (B & t' & T' & BP & _).
  assert (t' = t) by congruence. subst t'. rewrite TW in BP. destruct (ex_ev _ _ _ _ _ _ _ _ B) as (y & HY & VY & _ & -> & AC). exists s', y. subst bp'. split; [reflexivity|]. split; auto. split; auto.
  unfold piece in AC. replace (bp + fixed_bits (hd_fields t) / 8 - bp) with (fixed_bits (hd_fields t) / 8) in AC by lia. auto.
Qed.
Lemma extract_VL_exact s h t x bp len maxb : reach legacy d s -> bp <= length data -> nth_error (ds_h d) h = Some t -> In None (hd_fields t) -> header s h = Some x ->
  (8 * d_nb x = Z.of_nat (fixed_bits (hd_fields t)))%Z -> (0 <= len s)%Z ->
  let n := Z.to_nat (len s) in let total := fixed_bits (hd_fields t) + n in let r := exec_op legacy lx d data (PExtract h (Some (len, maxb))) s bp in
  (n mod 8 <> 0 -> r = Some (inl InvalidArgument)) /\
  (n mod 8 = 0 -> 8 * (length data - bp) < total -> r = Some (inl PacketTooShort)) /\
  (n mod 8 = 0 -> total <= 8 * (length data - bp) -> maxb <> 0 -> 8 * maxb < total -> r = Some (inl HeaderTooShort)) /\
  (n mod 8 = 0 -> total <= 8 * (length data - bp) -> maxb = 0 \/ total <= 8 * maxb -> exists s' y, r = Some (inr (s', bp + total / 8, [EvHdr h (d_fields y)])) /\
    header s' h = Some y /\ d_valid y = true /\ accounts (firstn (total / 8) (skipn bp data)) (EvHdr h (d_fields y))).
Proof.
  intros R HB T VI X N L n tot r. pose proof (reach_INV _ _ _ W R) as I. unfold header in X. subst r. cbn [exec_op extract_one]. unfold extract_VL. rewrite T. cbn [bind]. rewrite X. cbn [bind]. cbv zeta.
  assert (NV : n_VL (hd_fields t) = 1) by (pose proof (wl_one _ WL _ _ T); pose proof (n_VL_pos t (proj2 (is_VL_in t) VI)); lia).
  rewrite Z.rem_mod_nonneg by lia. rewrite Z.quot_div_nonneg by lia. assert (LN : len s = Z.of_nat n) by (unfold n; lia). rewrite LN. change 8%Z with (Z.of_nat 8). rewrite <- Nat2Z.inj_mod, <- Nat2Z.inj_div.
  change (Z.of_nat 8) with 8%Z. assert (RZ : (Z.of_nat (n mod 8) =? 0)%Z = (n mod 8 =? 0)) by (destruct (Z.eqb_spec (Z.of_nat (n mod 8)) 0), (Nat.eqb_spec (n mod 8) 0); auto; lia). rewrite RZ.
  pose proof (Nat.div_mod n 8 ltac:(lia)) as DM. rewrite short_spec; [|auto|lia]. rewrite u64_nonneg by lia.
  split; [|split; [|split]].
  - intros A. rewrite (proj2 (Nat.eqb_neq _ _)) by auto. reflexivity.
  - intros A B. rewrite A, Nat.eqb_refl. cbn [negb]. rewrite (proj2 (Z.ltb_lt _ _)) by lia. reflexivity.
  - intros A B C D. rewrite A, Nat.eqb_refl. cbn [negb]. rewrite (proj2 (Z.ltb_ge _ _)) by lia. rewrite (proj2 (Nat.eqb_neq _ _)) by auto. cbn [negb andb]. rewrite (proj2 (Z.ltb_lt _ _)) by lia. reflexivity.
  - intros A B C. rewrite A, Nat.eqb_refl. cbn [negb]. rewrite (proj2 (Z.ltb_ge (Z.of_nat (length data - bp)) _)) by lia.
    assert (MB : negb (maxb =? 0) && (Z.of_nat maxb <? d_nb x + Z.of_nat (n / 8))%Z = false) by (destruct (Nat.eqb_spec maxb 0); [auto|]; cbn [negb andb]; apply Z.ltb_ge; lia). rewrite MB.
    rewrite (proj2 (Z.ltb_ge (Z.of_nat n) _)) by lia. cbn [andb]. rewrite Nat2Z.id.
    assert (TW : total (widths (hd_fields t) n) = tot) by (rewrite total_widths, NV; unfold tot; lia).
    destruct (do_extract_ok d data W WL BD s h n bp t I HB T) as ([[s' bp'] ev] & E); [auto|lia|]. rewrite E. cbn [bind]. destruct (do_extract_spec d data W WL BD _ _ _ _ _ _ _ I HB E) as (BB & t' & T' & BP & _).
    assert (t' = t) by congruence. subst t'. rewrite TW in BP. destruct (ex_ev _ _ _ _ _ _ _ _ BB) as (y & HY & VY & _ & -> & AC). exists s', y. subst bp'. split; [reflexivity|]. split; auto. split; auto.
    unfold piece in AC. replace (bp + tot / 8 - bp) with (tot / 8) in AC by lia. auto.
Qed.
End Reach.

(** ** Value sets *)
Lemma vset_spec vs vs' l j ws mask key fs : Forall (fun w => 0 < w) ws -> nth_error vs j = Some (new_shadow ws mask) -> (forall m, mask = Some m -> length m = key_bytes ws) ->
  Forall (op_sized ws) l -> vs_run vs l = Some vs' -> map (@length bool) fs = ws -> (exists bs, Forall2 holds fs bs /\ key = concat bs) ->
  exists sh' b, nth_error vs' j = Some sh' /\ sh_contains sh' key = Some b /\
    (b = true <-> present (fun v => exists fs' key', map (@length bool) fs' = ws /\ same_key fs' v key' /\ agrees mask key' key) l).
Proof.
  intros P J M OS R LF (bs & HF & ->). destruct (vs_run_nth _ _ _ _ _ R J) as (sh' & SR & J'). destruct (sh_run_same _ _ _ SR) as (SP & SW & SM). destruct (holds_concat fs bs HF) as [BK LK]. rewrite LF in LK.
  destruct (transform_ok ws mask (concat bs) LK M) as (q & TQ & LQ).
  assert (TQ' : transform sh' (concat bs) = Some q) by (rewrite <- TQ; unfold transform; rewrite SM; auto).
  exists sh', (mem q (sh_set sh')). split; auto. unfold sh_contains. rewrite TQ'. cbn [bind]. rewrite SW. cbn [new_shadow sh_width]. fold (key_bytes ws). rewrite LK, Nat.eqb_refl. split; auto.
  rewrite mem_in, (sh_set_spec (new_shadow ws mask) l sh' eq_refl SR q). apply present_ext. intros v IN.
  assert (OV : exists fs', map (@length bool) fs' = ws /\ holds (concat fs') v) by (rewrite Forall_forall in OS; destruct IN as [IN|IN]; apply (OS _ IN)). destruct OV as (fv & LV & HV).
  destruct (padded ws mask fv v P LV HV) as (bv & DP & HB). destruct (holds_concat fv bv HB) as [BV LBV]. rewrite LV in LBV. unfold prepared. rewrite DP. cbn [bind]. destruct (transform_ok ws mask (concat bv) LBV M) as (qv & TV & LQV). rewrite TV. cbn [bind].
  cbn [new_shadow sh_width]. fold (key_bytes ws). rewrite LQV, Nat.eqb_refl. pose proof (transform_agrees ws mask (concat bv) (concat bs) BV BK LBV LK M) as TA. split.
  - intros [= ->]. exists fv, (concat bv). split; auto. split; [split; auto; exists bv; auto|]. apply TA. congruence.
  - intros (f2 & k2 & L2 & (H2 & b2 & HB2 & ->) & AG). f_equal.
    assert (concat f2 = concat fv) by (eapply holds_val_inj; eauto; rewrite <- !total_len; congruence).
    assert (f2 = fv) by (rewrite <- (cut_cat f2), <- (cut_cat fv); congruence). subst f2.
    assert (b2 = bv). { clear - HB HB2. revert b2 HB2. induction HB as [|f b fs bs Hf F IH]; intros b2 HB2; inversion HB2; subst; auto. f_equal; auto. eapply holds_inj; eauto. } subst b2. apply TA in AG. congruence.
Qed.
