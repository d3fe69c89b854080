(** C08 (meaning of match keys) and C09 (reading an entry back). *)
From Coq Require Import List Arith NArith ZArith Bool Lia.
From Verif Require Import Base Bits Bytes EntryListModel EntryListSpec MatchUnitModel MatchUnitSpec
  MatchUnitProps KeyBuilderModel KeyBuilderSpec KeyBuilderProofs KeyBuilderProofs2 KeyBuilderProofs3.
Import ListNotations.

Lemma Forall2_idx (R : kfield -> param -> Prop) fs ps :
  Forall2 R fs ps <-> length ps = length fs /\ forall i, i < length fs -> R (nth i fs dummyF) (nth i ps dummyP).
Proof.
  split.
  - induction 1 as [|f p fs ps H _ [L IH]]; cbn [length]; [split; auto; intros i Hi; lia|].
    split; [lia|]. intros [|i] Hi; cbn; auto. apply IH. lia.
  - revert ps; induction fs as [|f fs IH]; intros [|p ps] [L H]; cbn [length] in *; try lia; constructor.
    + apply (H 0). lia.
    + apply IH. split; [lia|]. intros i Hi. apply (H (S i)). lia.
Qed.

Lemma Forall2_imp (R S : kfield -> param -> Prop) fs ps : (forall f p, R f p -> S f p) -> Forall2 R fs ps -> Forall2 S fs ps.
Proof. intros I H. induction H; constructor; auto. Qed.

(** A prefix field whose width is a whole number of bytes. *)
Definition lpm_aligned (fs : list kfield) : Prop :=
  Forall (fun f => f_type f = TLpm -> f_bits f mod 8 = 0) fs.

Lemma aligned_bytes f : f_bits f mod 8 = 0 -> 8 * f_nbytes f = f_bits f.
Proof.
  intros H. unfold f_nbytes, nbytes_of. pose proof (Nat.div_mod (f_bits f) 8 ltac:(lia)) as D. rewrite H in D.
  assert (E : (f_bits f + 7) / 8 = f_bits f / 8) by (symmetry; apply (Nat.div_unique _ 8 _ 7); lia). lia.
Qed.

(** General form, for every width: a prefix is counted from the top of the byte-padded field. *)
Lemma key_semantics : forall kd fs ps prio phv,
  layout_ok kd fs -> Forall param_typed ps -> Forall2 param_acceptable fs ps -> phv_ok fs phv ->
  exists k, kb_build_entry kd (kb_build fs) ps prio = Some (BEntry k) /\
    key_ok kd (key_bytes fs) k /\ k_prio k = match kd with KExact | KLpm => 0%Z | _ => prio end /\
    bytes_ok (kb_key (kb_build fs) phv) /\ length (kb_key (kb_build fs) phv) = key_bytes fs /\
    (key_matches kd (key_bytes fs) k (kb_key (kb_build fs) phv) <->
     Forall2 (fun f p => param_holds_sh pad_shift f p phv) fs ps).
Proof.
  intros kd fs ps prio phv HL HT HA HP. apply Forall2_idx in HA as [L A].
  exists (ekey kd fs ps prio).
  split; [apply build_entry_ok; auto|]. split; [apply entry_key_ok; auto|].
  split; [reflexivity|]. pose proof (kb_key_shape fs (proj1 HL) phv HP) as [B1 B2].
  split; [auto|split; [auto|]].
  rewrite match_iff by auto. rewrite Forall2_idx. tauto.
Qed.

Lemma aligned_holds fs ps phv : lpm_aligned fs -> Forall2 param_acceptable fs ps ->
  (Forall2 (fun f p => param_holds_sh pad_shift f p phv) fs ps <-> Forall2 (fun f p => param_holds f p phv) fs ps).
Proof.
  intros AL HA.
  assert (E : Forall2 (fun f p => param_holds_sh pad_shift f p phv <-> param_holds f p phv) fs ps).
  { induction HA as [|f p fs ps H _ IH]; constructor.
    - apply Forall_inv in AL. unfold param_holds, param_holds_sh. destruct (f_type f) eqn:T; try reflexivity.
      unfold pad_shift, prefix_shift. rewrite aligned_bytes by auto.
      replace (N.of_nat (f_bits f - Z.to_nat (p_plen p))) with (N.of_nat (f_bits f) - Z.to_N (p_plen p))%N by lia.
      reflexivity.
    - apply IH. apply Forall_inv_tail in AL. auto. }
  clear - E. induction E as [|f p fs ps H _ IH]; [split; constructor|].
  split; intros F; inversion F; subst; constructor; tauto.
Qed.

(** *** C08: the byte-level comparison means what the fields mean. *)
Theorem C08_field_semantics : forall kd fs ps prio phv,
  layout_ok kd fs -> lpm_aligned fs ->
  Forall param_typed ps -> Forall2 param_acceptable fs ps -> phv_ok fs phv ->
  exists k, kb_build_entry kd (kb_build fs) ps prio = Some (BEntry k) /\
    key_ok kd (key_bytes fs) k /\ k_prio k = match kd with KExact | KLpm => 0%Z | _ => prio end /\
    bytes_ok (kb_key (kb_build fs) phv) /\ length (kb_key (kb_build fs) phv) = key_bytes fs /\
    (key_matches kd (key_bytes fs) k (kb_key (kb_build fs) phv) <->
     Forall2 (fun f p => param_holds f p phv) fs ps).
Proof.
  intros kd fs ps prio phv HL AL HT HA HP.
  destruct (key_semantics kd fs ps prio phv HL HT HA HP) as (k & B & K & Pr & Bk & Lk & M).
  exists k. split; [auto|split; [auto|split; [auto|split; [auto|split; [auto|]]]]].
  rewrite M. apply aligned_holds; auto.
Qed.
Print Assumptions C08_field_semantics.

(** The same through the table: install the entry in an empty table, send the packet. *)
Theorem C08_installed_entry_hit : forall (V : Type) kd fs ps prio phv (v : V) size cache now ts len,
  layout_ok kd fs -> lpm_aligned fs ->
  Forall param_typed ps -> Forall2 param_acceptable fs ps -> phv_ok fs phv ->
  0 < size -> (N.of_nat size <= 2 ^ 24)%N ->
  exists k u x, kb_build_entry kd (kb_build fs) ps prio = Some (BEntry k) /\
    mu_run kd (key_bytes fs) (mu_new kd size cache)
      [MAdd now k v; MLookup ts len (kb_key (kb_build fs) phv)] = Some (u, [MHandle 0; x]) /\
    (Forall2 (fun f p => param_holds f p phv) fs ps -> x = MFound 0 (Some v)) /\
    (~ Forall2 (fun f p => param_holds f p phv) fs ps -> x = MMiss).
Proof.
  intros V kd fs ps prio phv v size cache now ts len HL AL HT HA HP S0 S24.
  destruct (C08_field_semantics kd fs ps prio phv HL AL HT HA HP) as (k & B & K & _ & Bk & Lk & M).
  assert (OK : ops_ok kd (key_bytes fs) 0 [MAdd now k v; MLookup ts len (kb_key (kb_build fs) phv)]).
  { cbn [ops_ok]. auto. }
  destruct (unit_refines V kd (key_bytes fs) size cache _ S24 OK) as (u & outs & t & R & Sp).
  inversion Sp as [|? ? x1 t1 ? ? ? St1 Sp1]; subst. clear Sp.
  inversion Sp1 as [|? ? x2 t2 ? ? ? St2 Sp2]; subst. clear Sp1. inversion Sp2; subst. clear Sp2.
  assert (E1 : x1 = MHandle 0 /\ slot_of t1 0 = Some (mkSent k v now 0 0) /\ gen t1 0 = 0 /\
               forall i e, slot_of t1 i = Some e -> i = 0).
  { inversion St1; subst.
    - discriminate.
    - exfalso. match goal with H : enumerates _ ?ll |- _ => rename H into Q2; rename ll into l end. destruct l as [|a l]; [cbn in S0; lia|]. destruct Q2 as [_ Q2].
      apply (proj1 (Q2 a)); [left; auto|reflexivity].
    - match goal with H : forall j, j < i -> _ |- _ => rename H into Q4 end.
      assert (i = 0). { destruct i; auto. exfalso. apply (Q4 0); [lia|reflexivity]. } subst i.
      split; [reflexivity|]. cbn. split; [reflexivity|]. split; auto. intros i e. unfold set_slot.
      destruct (Nat.eqb_spec i 0); auto. discriminate. }
  destruct E1 as (-> & S1 & G1 & U1). exists k, u, x2. split; auto. split; auto.
  inversion St2; subst.
  - split; intros H; [|reflexivity]. exfalso. match goal with Q : lookup_answer _ _ _ _ _ |- _ => apply (Q _ _ S1) end.
    cbn [s_key]. apply M. auto.
  - match goal with Q : lookup_answer _ _ _ _ _ |- _ => destruct Q as (Q1 & Q2 & _) end.
    assert (i = 0) by eauto. subst i. rewrite S1 in Q1. injection Q1 as <-. cbn [s_key s_val] in *.
    unfold handle_of. rewrite G1. split; intros H; [reflexivity|]. exfalso. apply H. apply M. auto.
Qed.
Print Assumptions C08_installed_entry_hit.

(** Which parameter lists are accepted. *)
Theorem C08_bad_keys_refused : forall kd fs ps prio,
  layout_ok kd fs -> Forall param_typed ps ->
  (kb_build_entry kd (kb_build fs) ps prio = Some BBadKey <-> ~ Forall2 param_acceptable fs ps).
Proof.
  intros kd fs ps prio HL HT. rewrite Forall2_idx.
  pose proof (sanity_iff kd fs ps HL HT) as S. split.
  - intros E H. apply S in H as H'. destruct H as [L A]. rewrite (build_entry_ok kd fs ps HL HT L A prio) in E. discriminate.
  - intros H. unfold kb_build_entry. destruct (kb_sanity (kb_build fs) ps) eqn:E; auto.
    exfalso. apply H. apply S. auto.
Qed.
Print Assumptions C08_bad_keys_refused.

(** Finding: with a prefix field whose width is not a multiple of 8 the property fails. A 12-bit
    field, parameter 0xABC/12: a packet carrying 0xABD hits the entry. *)
Theorem C08_unaligned_prefix_refuted :
  exists fs ps phv k,
    layout_ok KLpm fs /\ Forall param_typed ps /\ Forall2 param_acceptable fs ps /\ phv_ok fs phv /\
    kb_build_entry KLpm (kb_build fs) ps 0 = Some (BEntry k) /\
    key_matches KLpm (key_bytes fs) k (kb_key (kb_build fs) phv) /\
    ~ Forall2 (fun f p => param_holds f p phv) fs ps.
Proof.
  pose (fs := [mkF TLpm 12 None 0]). pose (ps := [mkParam TLpm [10; 188]%N [] 12]).
  pose (phv := fun _ : nat => mkPF true false [10; 189]%N).
  assert (HL : layout_ok KLpm fs).
  { split; [|split].
    - constructor; [|constructor]. split; [cbn; lia|]. split; [cbn; lia|]. split; [discriminate|discriminate].
    - constructor; [|constructor]. cbn. auto.
    - reflexivity. }
  assert (HT : Forall param_typed ps).
  { constructor; [|constructor]. split; [repeat constructor|]. split; [constructor|cbn; lia]. }
  assert (HA : Forall2 param_acceptable fs ps).
  { constructor; [|constructor]. split; [reflexivity|]. split; [reflexivity|]. cbn. lia. }
  assert (HP : phv_ok fs phv).
  { constructor; [|constructor]. intros _. split; [repeat constructor|]. split; reflexivity. }
  destruct (key_semantics KLpm fs ps 0 phv HL HT HA HP) as (k & B & _ & _ & _ & _ & M).
  exists fs, ps, phv, k. split; [auto|split; [auto|split; [auto|split; [auto|split; [auto|split]]]]].
  - apply M. constructor; [|constructor]. vm_compute. reflexivity.
  - intros H. inversion H as [|? ? ? ? Q]; subst. vm_compute in Q. discriminate.
Qed.
Print Assumptions C08_unaligned_prefix_refuted.

(** For every width: a /p prefix of a w-bit field is compared on its top [p - pad] bits only,
    where [pad] is the number of padding bits of the field. *)
Theorem C08_prefix_any_width : forall kd fs ps prio phv,
  layout_ok kd fs -> Forall param_typed ps -> Forall2 param_acceptable fs ps -> phv_ok fs phv ->
  exists k, kb_build_entry kd (kb_build fs) ps prio = Some (BEntry k) /\
    (key_matches kd (key_bytes fs) k (kb_key (kb_build fs) phv) <->
     Forall2 (fun f p => param_holds_sh (fun f p => N.of_nat (8 * nbytes_of (f_bits f)) - Z.to_N (p_plen p))%N f p phv) fs ps).
Proof.
  intros kd fs ps prio phv HL HT HA HP.
  destruct (key_semantics kd fs ps prio phv HL HT HA HP) as (k & B & _ & _ & _ & _ & M).
  exists k. split; auto. rewrite M.
  assert (E : forall f p, param_holds_sh pad_shift f p phv <->
     param_holds_sh (fun f p => N.of_nat (8 * nbytes_of (f_bits f)) - Z.to_N (p_plen p))%N f p phv).
  { intros f p. unfold param_holds_sh. destruct (f_type f); try reflexivity. unfold pad_shift, f_nbytes.
    replace (N.of_nat (8 * nbytes_of (f_bits f) - Z.to_nat (p_plen p)))
      with (N.of_nat (8 * nbytes_of (f_bits f)) - Z.to_N (p_plen p))%N by lia. reflexivity. }
  split; intros H; (eapply Forall2_imp; [|exact H]); intros f p; apply E.
Qed.
Print Assumptions C08_prefix_any_width.

(** *** C09: what the API returns for an installed entry. *)
Fixpoint canon_all (kd : mkind) (fs : list kfield) (ps : list param) : list param :=
  match fs, ps with
  | f :: fs', p :: ps' => canon kd f p :: canon_all kd fs' ps'
  | _, _ => []
  end.
Lemma canon_all_map kd fs : forall ps, length ps = length fs ->
  map (fun i => canon kd (nth i fs dummyF) (nth i ps dummyP)) (seq 0 (length fs)) = canon_all kd fs ps.
Proof.
  induction fs as [|f fs IH]; intros [|p ps] L; cbn [length] in *; try lia; auto.
  cbn [seq map canon_all nth]. f_equal. rewrite <- seq_shift, map_map. apply IH. lia.
Qed.

Theorem C09_params_round_trip : forall kd fs ps prio,
  layout_ok kd fs -> Forall param_typed ps -> Forall2 param_acceptable fs ps ->
  exists k, kb_build_entry kd (kb_build fs) ps prio = Some (BEntry k) /\ k_prio k = match kd with KExact | KLpm => 0%Z | _ => prio end /\
    kb_to_params kd (kb_build fs) k = Some (canon_all kd fs ps).
Proof.
  intros kd fs ps prio HL HT HA. apply Forall2_idx in HA as [L A].
  exists (ekey kd fs ps prio). split; [apply build_entry_ok; auto|]. split; [reflexivity|].
  rewrite to_params_ok by auto. f_equal. apply canon_all_map. auto.
Qed.
Print Assumptions C09_params_round_trip.

(** The canonical form denotes the same set of packets, and is stable: installing what was read
    back gives the very same entry. *)
Lemma div_ceil8 b : 0 < b -> b <= 8 * nbytes_of b /\ 8 * nbytes_of b < b + 8.
Proof.
  intros H. unfold nbytes_of. pose proof (Nat.div_mod (b + 7) 8 ltac:(lia)).
  pose proof (Nat.mod_upper_bound (b + 7) 8 ltac:(lia)). lia.
Qed.

Lemma mod_land_low x m w : ((N.land (x mod 2 ^ w) m) mod 2 ^ w = N.land (x mod 2 ^ w) m)%N.
Proof.
  apply N.mod_small. apply land_lt_l. apply N.mod_lt. apply N.pow_nonzero. lia.
Qed.

Lemma param_value_small f p : (param_value f p < 2 ^ N.of_nat (f_bits f))%N.
Proof.
  assert (B : (be_val (p_key p) mod 2 ^ N.of_nat (f_bits f) < 2 ^ N.of_nat (f_bits f))%N)
    by (apply N.mod_lt, N.pow_nonzero; lia).
  unfold param_value, smask. destruct (f_mask f); auto. apply land_lt_l; auto.
Qed.

Lemma value_enc f p v : 0 < f_bits f -> p_key p = be_enc (f_nbytes f) v -> (v < 2 ^ N.of_nat (f_bits f))%N ->
  smask f v = v -> param_value f p = v.
Proof.
  intros B E L S. unfold param_value. rewrite E, be_val_enc, pow256.
  destruct (div_ceil8 (f_bits f) B) as [C _]. fold (f_nbytes f) in C.
  assert (L2 : (2 ^ N.of_nat (f_bits f) <= 2 ^ N.of_nat (8 * f_nbytes f))%N) by (apply N.pow_le_mono_r; lia).
  rewrite (N.mod_small v) by lia. rewrite N.mod_small by auto. auto.
Qed.

Lemma smask_idem f x : smask f (smask f x) = smask f x.
Proof. unfold smask. destruct (f_mask f); auto. rewrite <- N.land_assoc, N.land_diag. reflexivity. Qed.

Lemma shl_shr_land x s w : (x < 2 ^ N.of_nat w)%N -> s <= w ->
  N.shiftl (N.shiftr x (N.of_nat s)) (N.of_nat s) = N.land x (N.shiftl (N.ones (N.of_nat (w - s))) (N.of_nat s)).
Proof.
  intros H L. pose proof (land_pmask x (w - s) w H ltac:(lia)) as E. replace (w - (w - s)) with s in E by lia. auto.
Qed.

Lemma canon_value kd f p : field_ok f -> param_typed p -> param_acceptable f p ->
  param_value f (canon kd f p) =
  match f_type f with
  | TValid | TExact | TRange => param_value f p
  | TTernary => N.land (param_value f p) (be_val (p_mask p))
  | TLpm => match kd with
            | KLpm => param_value f p
            | _ => let low := N.of_nat (8 * f_nbytes f - Z.to_nat (p_plen p)) in
                   N.shiftl (N.shiftr (param_value f p) low) low
            end
  end.
Proof.
  intros (B & _ & _) (_ & Bm & _) (T & L & A). pose proof (param_value_small f p) as S.
  assert (I : smask f (param_value f p) = param_value f p) by apply smask_idem.
  assert (base : forall q, p_key q = be_enc (f_nbytes f) (param_value f p) -> param_value f q = param_value f p)
    by (intros q E; apply value_enc; auto).
  unfold canon. destruct (f_type f) eqn:TY; try (apply base; reflexivity).
  - assert (K : forall w, let low := N.of_nat (8 * f_nbytes f - Z.to_nat (p_plen p)) in
        w = N.shiftl (N.shiftr (param_value f p) low) low ->
        param_value f (mkParam TLpm (be_enc (f_nbytes f) w) [] (p_plen p)) = w).
    { intros w low ->. destruct (div_ceil8 (f_bits f) B) as [C _]. fold (f_nbytes f) in C.
      assert (S2 : (param_value f p < 2 ^ N.of_nat (8 * f_nbytes f))%N).
      { eapply N.lt_le_trans; [exact S|]. apply N.pow_le_mono_r; lia. }
      unfold low. rewrite (shl_shr_land _ _ (8 * f_nbytes f)) by (auto; lia).
      apply value_enc; auto.
      - apply land_lt_l; auto.
      - rewrite smask_land, I. reflexivity. }
    destruct kd; try (apply K; reflexivity). apply base; reflexivity.
  - apply value_enc; auto.
    + apply land_lt_l; auto.
    + rewrite smask_land, I. reflexivity.
Qed.

Theorem C09_canonical_same_packets : forall kd fs ps phv,
  layout_ok kd fs -> Forall param_typed ps -> Forall2 param_acceptable fs ps -> phv_ok fs phv ->
  (Forall2 (fun f p => param_holds_sh pad_shift f p phv) fs ps <->
   Forall2 (fun f p => param_holds_sh pad_shift f p phv) fs (canon_all kd fs ps)).
Proof.
  intros kd fs ps phv [HF _] HT HA HP.
  assert (E : Forall2 (fun f p => param_holds_sh pad_shift f p phv <-> param_holds_sh pad_shift f (canon kd f p) phv) fs ps).
  { revert HF HT HP. induction HA as [|f p fs ps H _ IH]; intros HF HT HP; constructor.
    2:{ apply IH; [apply Forall_inv_tail in HF|apply Forall_inv_tail in HT|apply Forall_inv_tail in HP]; auto. }
    apply Forall_inv in HF, HT. assert (CV := canon_value kd f p HF HT H).
    unfold param_holds_sh. rewrite CV.
    assert (CM : (f_type f = TTernary \/ f_type f = TRange) -> p_mask (canon kd f p) = p_mask p)
      by (intros [T|T]; unfold canon; rewrite T; reflexivity).
    assert (CL : f_type f = TLpm -> p_plen (canon kd f p) = p_plen p)
      by (intros T; unfold canon; rewrite T; reflexivity).
    destruct (f_type f) eqn:T; try reflexivity.
    - rewrite CM by auto. reflexivity.
    - unfold pad_shift. rewrite CL by auto. destruct kd; try reflexivity; cbv zeta;
      rewrite N.shiftr_shiftl_l, N.sub_diag, N.shiftl_0_r by lia; reflexivity.
    - rewrite CM by auto. rewrite <- N.land_assoc, N.land_diag. reflexivity. }
  clear - E. induction E as [|f p fs ps H _ IH]; cbn [canon_all]; [split; constructor|].
  split; intros F; inversion F; subst; constructor; tauto.
Qed.
Print Assumptions C09_canonical_same_packets.

Lemma land_le x m : (N.land x m <= x)%N.
Proof.
  assert (E : x = (N.land x m + N.ldiff x m)%N).
  { rewrite N.add_nocarry_lxor.
    - apply N.bits_inj. intros i. rewrite N.lxor_spec, N.land_spec, N.ldiff_spec.
      destruct (N.testbit x i), (N.testbit m i); reflexivity.
    - apply N.bits_inj. intros i. rewrite !N.land_spec, N.ldiff_spec, N.bits_0.
      destruct (N.testbit x i), (N.testbit m i); reflexivity. }
  lia.
Qed.
Lemma param_value_le f p : (param_value f p <= be_val (p_key p))%N.
Proof.
  assert (be_val (p_key p) mod 2 ^ N.of_nat (f_bits f) <= be_val (p_key p))%N
    by (apply N.mod_le, N.pow_nonzero; lia).
  unfold param_value, smask. destruct (f_mask f) as [m|]; auto.
  eapply N.le_trans; [apply land_le|auto].
Qed.

(** Installing what was read back: the canonical parameters are acceptable and canonical. *)
Lemma canon_ok kd f p : field_ok f -> param_typed p -> param_acceptable f p ->
  param_typed (canon kd f p) /\ param_acceptable f (canon kd f p) /\
  canon kd f (canon kd f p) = canon kd f p.
Proof.
  intros HF HT HA. assert (CV := canon_value kd f p HF HT HA).
  destruct HF as (B & B32 & _), HT as (Bk & Bm & BP), HA as (T & L & A).
  split; [|split].
  - unfold canon. destruct (f_type f); unfold param_typed; cbn [p_key p_mask p_plen];
      (split; [destruct kd; apply be_enc_ok|split; [first [exact Bm|apply Forall_nil]|lia]]).
  - unfold canon, param_acceptable. destruct (f_type f); cbn [p_type p_key p_mask p_plen];
      rewrite ?be_enc_length; try tauto.
    + destruct A as [A1 A2]. split; [auto|split; [auto|split; [auto|]]].
      rewrite be_val_enc. eapply N.le_trans; [|exact A2].
      eapply N.le_trans; [apply N.mod_le, N.pow_nonzero; lia|apply param_value_le].
    + destruct kd; rewrite be_enc_length; tauto.
  - assert (CM : (f_type f = TTernary \/ f_type f = TRange) -> p_mask (canon kd f p) = p_mask p)
      by (intros [X|X]; unfold canon; rewrite X; reflexivity).
    assert (CL : f_type f = TLpm -> p_plen (canon kd f p) = p_plen p)
      by (intros X; unfold canon; rewrite X; reflexivity).
    unfold canon at 1. rewrite CV. unfold canon. destruct (f_type f) eqn:TY; cbn [p_mask p_plen]; try reflexivity.
    + destruct kd; try reflexivity; cbv zeta; rewrite N.shiftr_shiftl_l, N.sub_diag, N.shiftl_0_r by lia; reflexivity.
    + rewrite <- N.land_assoc, N.land_diag. reflexivity.
Qed.

Theorem C09_reinstall_fixpoint : forall kd fs ps prio,
  layout_ok kd fs -> Forall param_typed ps -> Forall2 param_acceptable fs ps ->
  exists k, kb_build_entry kd (kb_build fs) (canon_all kd fs ps) prio = Some (BEntry k) /\
    kb_to_params kd (kb_build fs) k = Some (canon_all kd fs ps).
Proof.
  intros kd fs ps prio HL HT HA.
  assert (Q : Forall param_typed (canon_all kd fs ps) /\ Forall2 param_acceptable fs (canon_all kd fs ps) /\
              canon_all kd fs (canon_all kd fs ps) = canon_all kd fs ps).
  { destruct HL as [HF _]. revert HF HT. induction HA as [|f p fs ps H _ IH]; intros HF HT; cbn [canon_all].
    - split; [constructor|split; [constructor|reflexivity]].
    - inversion HF; inversion HT; subst.
      destruct IH as (I1 & I2 & I3); auto.
      destruct (canon_ok kd f p) as (J1 & J2 & J3); auto.
      split; [constructor; auto|]. split; [constructor; auto|]. rewrite I3, J3. reflexivity. }
  destruct Q as (Q1 & Q2 & Q3).
  destruct (C09_params_round_trip kd fs (canon_all kd fs ps) prio HL Q1 Q2) as (k & Bk & _ & R).
  exists k. rewrite Q3 in R. auto.
Qed.
Print Assumptions C09_reinstall_fixpoint.

(** Splitting an internal key back into fields (used to print packets' keys): declared order. *)
Theorem C09_key_to_fields : forall fs phv,
  Forall field_ok fs -> phv_ok fs phv ->
  kb_key_to_fields (kb_build fs) (kb_key (kb_build fs) phv) =
  map (fun f => be_enc (f_nbytes f) (smask f (field_value f phv))) fs.
Proof.
  intros fs phv HF HP. unfold kb_key_to_fields.
  assert (L : length (kb_map (kb_build fs)) = length fs) by (apply build_map_length, build_perm).
  rewrite L, kb_key_ok by auto.
  transitivity (map (fun i => be_enc (f_nbytes (nth i fs dummyF)) (smask (nth i fs dummyF) (field_value (nth i fs dummyF) phv)))
                    (seq 0 (length fs))).
  - apply map_ext_in. intros i Hi. apply in_seq in Hi.
    assert (Hi' : i < length fs) by lia.
    pose proof (field_at_ok fs i Hi') as FA. unfold kb_field_at in FA. rewrite FA.
    rewrite build_slice; auto.
    + destruct (kchunk_props fs HF phv HP i Hi') as (A & B & C).
      apply be_enc_of; auto.
    + intros j Hj. apply kchunk_props; auto.
  - rewrite <- (map_map (fun i => nth i fs dummyF) (fun f => be_enc (f_nbytes f) (smask f (field_value f phv)))).
    rewrite (F_map fs). reflexivity.
Qed.
Print Assumptions C09_key_to_fields.

(** *** Concrete cases meeting the hypotheses: a five-field key, declared out of order, with a
    static mask, a 12-bit exact field, and one parameter of each kind. *)
Definition ex_fields : list kfield :=
  [mkF TLpm 32 None 0; mkF TTernary 9 None 1; mkF TExact 12 (Some [15; 240]%N) 2;
   mkF TRange 16 None 3; mkF TValid 8 None 4].
Definition ex_params : list param :=
  [mkParam TLpm [10; 1; 2; 3]%N [] 16; mkParam TTernary [255; 7]%N [1; 3]%N 0; mkParam TExact [250; 188]%N [] 0;
   mkParam TRange [0; 80]%N [31; 144]%N 0; mkParam TValid [1]%N [] 0].
Definition ex_phv (i : nat) : pfield :=
  match i with
  | 0 => mkPF true false [10; 1; 99; 98]%N
  | 1 => mkPF true false [1; 11]%N
  | 2 => mkPF true false [10; 177]%N
  | 3 => mkPF true false [4; 0]%N
  | _ => mkPF true false []
  end.
Example ex_layout : layout_ok KRange ex_fields.
Proof.
  split; [|split].
  - unfold ex_fields. repeat (apply Forall_cons); try apply Forall_nil;
    (split; [cbn; lia|split; [cbn; lia|split; [intros m E; first [discriminate|injection E as <-; split; [repeat constructor|reflexivity]]|
      intros E; first [discriminate|split; reflexivity]]]]).
  - repeat constructor.
  - discriminate.
Qed.
Example ex_aligned : lpm_aligned ex_fields.
Proof. unfold lpm_aligned, ex_fields. repeat (apply Forall_cons); try apply Forall_nil; cbn; intros; try discriminate; reflexivity. Qed.
Example ex_typed : Forall param_typed ex_params.
Proof. unfold ex_params. repeat (apply Forall_cons); try apply Forall_nil; (split; [repeat constructor|split; [repeat constructor|cbn; lia]]). Qed.
Example ex_acceptable : Forall2 param_acceptable ex_fields ex_params.
Proof.
  unfold ex_fields, ex_params. repeat (apply Forall2_cons); try apply Forall2_nil;
  (split; [reflexivity|split; [reflexivity|cbn; first [exact I|reflexivity|lia|split; [reflexivity|vm_compute; discriminate]]]]).
Qed.
Example ex_phv_ok : phv_ok ex_fields ex_phv.
Proof.
  unfold phv_ok, ex_fields. repeat (apply Forall_cons); try apply Forall_nil; intros N; try (exfalso; apply N; reflexivity);
  (split; [repeat constructor|split; reflexivity]).
Qed.
Example ex_holds : Forall2 (fun f p => param_holds f p ex_phv) ex_fields ex_params.
Proof.
  unfold ex_fields, ex_params. repeat (apply Forall2_cons); try apply Forall2_nil; vm_compute; try reflexivity; try (split; discriminate).
Qed.
(** and a packet that differs in one looked-at bit does not match *)
Definition ex_phv' (i : nat) : pfield := match i with 1 => mkPF true false [1; 10]%N | _ => ex_phv i end.
Example ex_not_holds : phv_ok ex_fields ex_phv' /\ ~ Forall2 (fun f p => param_holds f p ex_phv') ex_fields ex_params.
Proof.
  split.
  - unfold phv_ok, ex_fields. repeat (apply Forall_cons); try apply Forall_nil; intros N; try (exfalso; apply N; reflexivity);
    (split; [repeat constructor|split; reflexivity]).
  - intros H. inversion H as [|? ? ? ? _ H2]; subst. inversion H2 as [|? ? ? ? Q _]; subst. vm_compute in Q. discriminate.
Qed.
(** what is read back: the 9-bit ternary value and the masked 12-bit value are cut *)
Example ex_read_back :
  (match kb_build_entry KRange (kb_build ex_fields) ex_params 7 with
   | Some (BEntry k) => kb_to_params KRange (kb_build ex_fields) k
   | _ => None
   end) = Some [mkParam TLpm [10; 1; 0; 0]%N [] 16; mkParam TTernary [1; 3]%N [1; 3]%N 0;
                mkParam TExact [10; 176]%N [] 0; mkParam TRange [0; 80]%N [31; 144]%N 0; mkParam TValid [1]%N [] 0].
Proof. vm_compute. reflexivity. Qed.
