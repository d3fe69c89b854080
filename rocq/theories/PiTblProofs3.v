(** Whole keys: the facts of PiTblProofs and PiTblProofs2 put together. *)
From Coq Require Import List Arith NArith ZArith Bool Lia Permutation.
From Verif Require Import Base Bits Bytes EntryListModel EntryListSpec MatchUnitModel MatchUnitSpec
  KeyBuilderModel KeyBuilderSpec KeyBuilderProofs KeyBuilderProofs2 KeyBuilderProofs3 KeyBuilderProps
  PiTblModel PiTblSpec PiTblProofs PiTblProofs2.
Import ListNotations.

Section K.
Variables (kd : mkind) (fs : list pif) (ks : list kfield).
Hypothesis AG : agree kd fs ks.

Definition key_of (ms : list pmatch) (prio : N) : mkey :=
  ekey kd ks (params_of fs ms) (bm_prio fs prio 0).

Lemma ag_layout : layout_ok kd ks. Proof. apply AG. Qed.
Lemma ag_all : Forall2 (fun f k => agree1 f k /\ field_ok k /\ (pi_mt f = PLpm -> pi_bw f mod 8 = 0) /\ (N.of_nat (pi_bw f) < 2 ^ 31)%N) fs ks.
Proof.
  destruct AG as (_ & A & (B & _) & _ & C). clear AG. induction A as [|f k fs ks H _ IH]; constructor.
  - inversion B; inversion C; subst. tauto.
  - inversion B; inversion C; subst. auto.
Qed.

Lemma typed_all ms : Forall2 fits fs ms -> Forall param_typed (params_of fs ms).
Proof.
  intros H. pose proof ag_all as A. clear AG. revert ks A.
  induction H as [|f m fs ms Hm _ IH]; intros ks A; cbn [params_of]; constructor.
  - inversion A; subst. eapply typed_of; [exact Hm|tauto].
  - inversion A; subst. eauto.
Qed.
Lemma acc_all ms : Forall2 fits fs ms -> (Forall2 param_acceptable ks (params_of fs ms) <-> Forall2 sensible fs ms).
Proof.
  intros H. pose proof ag_all as A. clear AG. revert ms H.
  induction A as [|f k fs ks (A1 & A2 & A3 & A4) A IH]; intros ms H; inversion H; subst; cbn [params_of].
  - split; constructor.
  - specialize (IH l' ltac:(auto)). pose proof (acceptable_of f k y A1 A2 ltac:(auto) A3 A4) as Q.
    split; intros X; inversion X; subst; constructor; tauto.
Qed.
Lemma acc_idx ms : Forall2 fits fs ms -> Forall2 sensible fs ms ->
  length (params_of fs ms) = length ks /\
  forall i, i < length ks -> param_acceptable (nth i ks dummyF) (nth i (params_of fs ms) dummyP).
Proof. intros H S. apply Forall2_idx. apply acc_all; auto. Qed.

Lemma build_ok ms prio : Forall2 fits fs ms -> (prio <= prio_limit)%N -> Forall2 sensible fs ms ->
  x_key kd fs ks (wire fs ms) prio = Some (inr (key_of ms prio)).
Proof.
  intros H P S. unfold x_key, pi_build_key. rewrite decode_ok by auto. cbn [app].
  destruct (acc_idx ms H S) as [L A].
  rewrite (build_entry_ok kd ks (params_of fs ms) ag_layout (typed_all ms H) L A). reflexivity.
Qed.
Lemma build_bad ms prio : Forall2 fits fs ms -> (prio <= prio_limit)%N -> ~ Forall2 sensible fs ms ->
  x_key kd fs ks (wire fs ms) prio = Some (inl tt).
Proof.
  intros H P S. unfold x_key, pi_build_key. rewrite decode_ok by auto. cbn [app].
  rewrite (proj2 (C08_bad_keys_refused kd ks (params_of fs ms) (bm_prio fs prio 0) ag_layout (typed_all ms H))); auto.
  rewrite acc_all by auto. exact S.
Qed.
Lemma sensible_dec ms : Forall2 fits fs ms -> Forall2 sensible fs ms \/ ~ Forall2 sensible fs ms.
Proof.
  clear AG. induction 1 as [|f m fs' ms Hm _ IH]; [left; constructor|].
  assert (D : sensible f m \/ ~ sensible f m) by (destruct m; cbn [sensible]; try (left; exact I); lia).
  destruct D as [D|D]; [|right; intros X; inversion X; auto].
  destruct IH as [IH|IH]; [left; constructor; auto|right; intros X; inversion X; auto].
Qed.

Section One.
Variables (ms : list pmatch) (prio : N).
Hypothesis FT : Forall2 fits fs ms.
Hypothesis SE : Forall2 sensible fs ms.

Lemma key_ok_of : key_ok kd (key_bytes ks) (key_of ms prio).
Proof. destruct (acc_idx ms FT SE) as [L A]. apply entry_key_ok; auto using ag_layout, typed_all. Qed.

Lemma match_of phv : phv_ok ks phv ->
  (key_matches kd (key_bytes ks) (key_of ms prio) (kb_key (kb_build ks) phv) <-> all_hold phv fs ks ms).
Proof.
  intros HP. destruct (acc_idx ms FT SE) as [L A].
  unfold key_of. rewrite (match_iff kd ks (params_of fs ms) ag_layout (typed_all ms FT) L A phv HP). cbv beta.
  assert (E := Forall2_idx (fun f p => param_holds_sh pad_shift f p phv) ks (params_of fs ms)). cbv beta in E.
  transitivity (Forall2 (fun f p => param_holds_sh pad_shift f p phv) ks (params_of fs ms)).
  { rewrite E. tauto. }
  clear E L A HP. pose proof ag_all as A. clear AG. revert ms FT SE.
  induction A as [|f k fs ks (A1 & A2 & A3 & A4) A IH]; intros ms FT SE; inversion FT; subst; cbn [params_of].
  - split; constructor.
  - inversion SE; subst. specialize (IH l' ltac:(auto) ltac:(auto)).
    pose proof (holds_of f k y A1 A2 ltac:(auto) A3 A4 phv ltac:(auto)) as Q.
    split; intros X; inversion X; subst; constructor; tauto.
Qed.

Lemma read_of : exists ps, kb_to_params kd (kb_build ks) (key_of ms prio) = Some ps /\
  emit_match_key ps = wire fs (canon_ms kd fs ms).
Proof.
  destruct (acc_idx ms FT SE) as [L A].
  destruct (C09_params_round_trip kd ks (params_of fs ms) (bm_prio fs prio 0) ag_layout (typed_all ms FT)
              (proj2 (acc_all ms FT) SE)) as (k & B & _ & R).
  rewrite (build_entry_ok kd ks (params_of fs ms) ag_layout (typed_all ms FT) L A) in B. injection B as <-.
  exists (canon_all kd ks (params_of fs ms)). split; [exact R|].
  clear L A R. pose proof ag_all as A. clear AG. revert ms FT SE.
  induction A as [|f k fs ks (A1 & A2 & A3 & A4) A IH]; intros ms FT SE; inversion FT; subst; cbn [params_of].
  - reflexivity.
  - inversion SE; subst. specialize (IH l' ltac:(auto) ltac:(auto)).
    cbn [canon_all canon_ms wire]. unfold emit_match_key in *. cbn [flat_map]. rewrite IH. f_equal.
    apply (emit_of f k y A1 A2 ltac:(auto) A3 A4); auto.
Qed.

Lemma bm_prio_ranked : ranked kd -> bm_prio fs prio 0 = (Z.of_N bm_max_priority - Z.of_N prio)%Z.
Proof.
  intros R. destruct AG as (_ & _ & _ & Q & _). apply Q in R. unfold bm_prio.
  assert (X : existsb (fun f => match pi_mt f with PTernary | POptional | PRange => true | _ => false end) fs = true).
  { apply existsb_exists. apply Exists_exists in R as (f & I & N). exists f. split; auto.
    unfold needs_prio in N. destruct (pi_mt f); auto; contradiction. }
  rewrite X. reflexivity.
Qed.

Lemma prio_of : (prio <= prio_limit)%N ->
  emit_priority (entry_priority kd (key_of ms prio)) = Some (match kd with KExact | KLpm => 0%N | _ => prio end).
Proof.
  intros P. pose proof bm_prio_ranked as B. unfold prio_limit in P. change (2 ^ 31 - 1)%N with 2147483647%N in P.
  unfold entry_priority, key_of, emit_priority.
  assert (Q : kd = KTernary \/ kd = KRange -> (if (k_prio (ekey kd ks (params_of fs ms) (bm_prio fs prio 0)) =? -1)%Z
     then Some 0%N else bm_to_pi (k_prio (ekey kd ks (params_of fs ms) (bm_prio fs prio 0)))) = Some prio).
  { intros K. replace (k_prio (ekey kd ks (params_of fs ms) (bm_prio fs prio 0))) with (Z.of_N bm_max_priority - Z.of_N prio)%Z.
    2:{ unfold ekey. cbn [k_prio]. destruct K as [K|K]; rewrite K in *; rewrite B; auto; exact I. }
    unfold bm_max_priority. destruct (Z.eqb_spec (Z.of_N 2147483647 - Z.of_N prio) (-1)); [lia|].
    unfold bm_to_pi, bm_max_priority.
    destruct (Z.leb_spec 0 (Z.of_N 2147483647 - Z.of_N prio)); [|lia].
    destruct (Z.leb_spec (Z.of_N 2147483647 - Z.of_N prio) (Z.of_N 2147483647)); [|lia].
    cbn [andb]. f_equal. lia. }
  remember kd as k0 eqn:K in |- *. destruct k0; auto; rewrite K; apply Q; auto.
Qed.
End One.

Lemma same_of_keys ms ms' p p' :
  Forall2 fits fs ms -> Forall2 sensible fs ms -> Forall2 fits fs ms' -> Forall2 sensible fs ms' ->
  (p <= prio_limit)%N -> (p' <= prio_limit)%N ->
  (same_key kd (key_of ms p) (key_of ms' p') <-> same fs ms ms' /\ (ranked kd -> p = p')).
Proof.
  intros F1 S1 F2 S2 P1 P2. destruct (acc_idx ms F1 S1) as [L1 A1]. destruct (acc_idx ms' F2 S2) as [L2 A2].
  unfold key_of.
  rewrite (same_key_iff kd ks _ _ ag_layout (typed_all ms F1) (typed_all ms' F2) L1 L2 A1 A2).
  assert (X : (kd = KTernary \/ kd = KRange -> bm_prio fs p 0 = bm_prio fs p' 0) <-> (ranked kd -> p = p')).
  { split.
    - intros Q R. assert (K : kd = KTernary \/ kd = KRange) by (destruct kd; try contradiction; auto).
      specialize (Q K). rewrite !bm_prio_ranked in Q by auto. unfold bm_max_priority in Q. lia.
    - intros Q K. rewrite Q; auto. destruct K as [-> | ->]; exact I. }
  rewrite X.
  assert (Y : (forall i, i < length ks -> sameP (nth i ks dummyF) (nth i (params_of fs ms) dummyP) (nth i (params_of fs ms') dummyP)) <->
              same fs ms ms').
  { clear X L1 A1 L2 A2 P1 P2. pose proof ag_all as A. clear AG. revert ms ms' F1 S1 F2 S2.
    induction A as [|f k fs ks (A1 & A2 & A3 & A4) A IH]; intros ms ms' F1 S1 F2 S2;
      inversion F1; inversion F2; subst; cbn [params_of same].
    - split; auto. intros _ i Hi. cbn in Hi. lia.
    - inversion S1; inversion S2; subst.
      rewrite <- (IH l' l'0) by auto.
      pose proof (same_of f k y y0 A1 A2 ltac:(auto) ltac:(auto) A3 A4 ltac:(auto) ltac:(auto)) as Q.
      rewrite <- Q. split.
      + intros X. split; [apply (X 0); cbn; lia|]. intros i Hi. apply (X (S i)). cbn. lia.
      + intros [X Z] [|i] Hi; [exact X|]. apply (Z i). cbn in Hi. lia. }
  rewrite Y. reflexivity.
Qed.

(** Prefix lengths *)
Lemma zsum_perm l l' : Permutation l l' -> zsum l = zsum l'.
Proof. induction 1; cbn [zsum fold_right] in *; unfold zsum in *; cbn [fold_right] in *; lia. Qed.

Definition pl1 (p : param) : Z :=
  match p_type p with
  | TValid => 8 | TExact => 8 * Z.of_nat (length (p_key p)) | TLpm => p_plen p | _ => 0
  end%Z.
Lemma pl_seq ps : zsum (map (pl ps) (seq 0 (length ps))) = zsum (map pl1 ps).
Proof.
  f_equal. apply (nth_ext _ _ 0%Z 0%Z); rewrite !map_length, ?seq_length; auto.
  intros i Hi. rewrite (nth_indep _ _ (pl ps 0)) by (rewrite map_length, seq_length; auto).
  rewrite map_nth, seq_nth by auto. rewrite (nth_indep (map pl1 ps) _ (pl1 dummyP)) by (rewrite map_length; auto).
  rewrite map_nth. reflexivity.
Qed.
Definition fixed1 (f : pif) : Z := match pi_mt f with PValid => 8 | PExact => 8 * Z.of_nat (pi_nbytes f) | _ => 0 end%Z.
Lemma zsum_params ms : Forall2 fits fs ms -> Forall2 sensible fs ms -> 
  zsum (map pl1 (params_of fs ms)) = (zsum (map fixed1 fs) + Z.of_N (plen_of ms))%Z.
Proof.
  pose proof ag_all as A. clear AG. revert ms.
  induction A as [|f k fs ks (A1 & A2 & A3 & A4) A IH]; intros ms F S; inversion F as [|? y ? l' H1 H2]; subst; [reflexivity|].
  inversion S; subst. cbn [params_of map zsum fold_right].
    change (fold_right Z.add 0%Z (map pl1 (params_of fs l'))) with (zsum (map pl1 (params_of fs l'))).
    change (fold_right Z.add 0%Z (map fixed1 fs)) with (zsum (map fixed1 fs)).
    rewrite IH by auto.
    pose proof (plen_of_small f y ltac:(auto) A3 A4 ltac:(auto)) as PS.
    unfold fits in H1. unfold fixed1, pl1. destruct (pi_mt f); destruct y; try contradiction;
      cbn [param_of p_type p_key p_plen plen_of]; cbv zeta; rewrite ?be_enc_length; try lia.
    rewrite (PS v plen eq_refl). lia.
Qed.
Lemma plen_le ms p ms' p' : kd = KLpm -> Forall2 fits fs ms -> Forall2 sensible fs ms ->
  Forall2 fits fs ms' -> Forall2 sensible fs ms' ->
  k_plen (key_of ms p) <= k_plen (key_of ms' p') -> (plen_of ms <= plen_of ms')%N.
Proof.
  intros K F1 S1 F2 S2. destruct (acc_idx ms F1 S1) as [L1 _]. destruct (acc_idx ms' F2 S2) as [L2 _].
  unfold key_of, ekey. rewrite K. cbn [k_plen].
  assert (Q : forall ps, length ps = length ks -> zsum (map (pl ps) (kb_inv (kb_build ks))) = zsum (map pl1 ps)).
  { intros ps L. rewrite <- pl_seq, L. apply zsum_perm. apply Permutation_map. apply Permutation_sym, build_perm. }
  rewrite !Q by auto. rewrite !zsum_params by auto.
  assert (0 <= zsum (map fixed1 fs))%Z.
  { clear. induction fs as [|f l IH]; cbn [map zsum fold_right]; [lia|].
    change (fold_right Z.add 0%Z (map fixed1 l)) with (zsum (map fixed1 l)). unfold fixed1 at 1. destruct (pi_mt f); lia. }
  lia.
Qed.
End K.
