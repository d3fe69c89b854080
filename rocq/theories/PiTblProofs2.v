(** Field by field: the client's matches, the parameters made of them, and back. *)
From Coq Require Import List Arith NArith ZArith Bool Lia.
From Verif Require Import Base Bits Bytes EntryListModel EntryListSpec MatchUnitModel MatchUnitSpec
  KeyBuilderModel KeyBuilderSpec KeyBuilderProofs KeyBuilderProofs2 KeyBuilderProofs3 KeyBuilderProps
  PiTblModel PiTblSpec PiTblProofs.
Import ListNotations.

Definition param_of (f : pif) (m : pmatch) : param :=
  let num := be_enc (pi_nbytes f) in
  match m with
  | PMValid b => mkParam TValid [if b then 1%N else 0%N] [] 0
  | PMExact v => mkParam TExact (num v) [] 0
  | PMLpm v p => mkParam TLpm (num v) [] (to_int p)
  | PMTernary v k => mkParam TTernary (num v) (num k) 0
  | PMRange lo hi => mkParam TRange (num lo) (num hi) 0
  end.
Fixpoint params_of (fs : list pif) (ms : list pmatch) : list param :=
  match fs, ms with
  | f :: fs', m :: ms' => param_of f m :: params_of fs' ms'
  | _, _ => []
  end.

Lemma to_int_small p : (p <= 2 ^ 31 - 1)%N -> to_int p = Z.of_N p.
Proof. intros H. unfold to_int. destruct (N.ltb_spec p 2147483648); [reflexivity|]. change (2 ^ 31 - 1)%N with 2147483647%N in H. lia. Qed.
Lemma to_int_range p : (p < 2 ^ 32)%N -> (- 2 ^ 31 <= to_int p < 2 ^ 31)%Z.
Proof.
  intros H. change (2 ^ 32)%N with 4294967296%N in H. change (2 ^ 31)%Z with 2147483648%Z. unfold to_int.
  destruct (N.ltb_spec p 2147483648); lia.
Qed.
Lemma to_int_pos p : (p < 2 ^ 32)%N -> (0 <= to_int p)%Z -> to_int p = Z.of_N p.
Proof.
  intros H P. change (2 ^ 32)%N with 4294967296%N in H. unfold to_int in *.
  destruct (N.ltb_spec p 2147483648); lia.
Qed.

Lemma le32_rt p r : (p < 2 ^ 32)%N -> retrieve_uint32 (le32 p ++ r) = Some (p, r).
Proof.
  intros H. unfold le32. cbn [app retrieve_uint32]. f_equal. f_equal.
  pose proof (N.div_mod' p 256) as A. pose proof (N.div_mod' (p / 256) 256) as B.
  pose proof (N.div_mod' (p / 256 / 256) 256) as C.
  set (a := (p / 256)%N) in *. set (b := (a / 256)%N) in *. set (c := (b / 256)%N) in *. lia.
Qed.
Lemma emit_le32 p : (p < 2 ^ 32)%N -> emit_uint32 p = le32 p.
Proof.
  intros H. unfold emit_uint32, le32.
  change 65536%N with (256 * 256)%N. change 16777216%N with (256 * 256 * 256)%N.
  rewrite <- !N.div_div by lia. do 3 f_equal. f_equal.
  apply N.mod_small. rewrite !N.div_div by lia. apply N.div_lt_upper_bound; [lia|]. exact H.
Qed.

Lemma take_app n a r : length a = n -> take n (a ++ r) = Some (a, r).
Proof.
  intros <-. unfold take. rewrite app_length. destruct (Nat.leb_spec (length a) (length a + length r)); [|lia].
  rewrite firstn_app, Nat.sub_diag, firstn_all. cbn [firstn]. rewrite app_nil_r.
  rewrite skipn_app, Nat.sub_diag, skipn_all. reflexivity.
Qed.

Definition bm_prio (fs : list pif) (prio : N) (start : Z) : Z :=
  if existsb (fun f => match pi_mt f with PTernary | POptional | PRange => true | _ => false end) fs
  then (Z.of_N bm_max_priority - Z.of_N prio)%Z else start.

Lemma decode_ok fs : forall ms prio ps z, Forall2 fits fs ms -> (prio <= prio_limit)%N ->
  build_key fs (wire fs ms) prio ps z = Some (ps ++ params_of fs ms, bm_prio fs prio z).
Proof.
  induction fs as [|f fs IH]; intros ms prio ps z H P; inversion H as [|? m ? ms' Hm Hr]; subst; clear H.
  - cbn [build_key params_of]. rewrite app_nil_r. reflexivity.
  - cbn [build_key wire params_of].
    assert (BP : pi_to_bm prio = Some (Z.of_N bm_max_priority - Z.of_N prio)%Z).
    { unfold pi_to_bm. change bm_max_priority with prio_limit. apply N.leb_le in P. rewrite P. reflexivity. }
    assert (NX : forall p z', build_key fs (wire fs ms') prio (ps ++ [p]) z' = Some (ps ++ p :: params_of fs ms', bm_prio fs prio z')).
    { intros p z'. rewrite IH by auto. rewrite <- app_assoc. reflexivity. }
    assert (PR : forall z', bm_prio fs prio (Z.of_N bm_max_priority - Z.of_N prio) =
                            (if true || existsb (fun f => match pi_mt f with PTernary | POptional | PRange => true | _ => false end) fs
                             then (Z.of_N bm_max_priority - Z.of_N prio)%Z else z')).
    { intros z'. unfold bm_prio. cbn [orb]. destruct (existsb _ fs); reflexivity. }
    assert (PE : pi_nbytes f = (pi_bw f + 7) / 8) by reflexivity.
    assert (TK : forall x r, take (pi_nbytes f) (be_enc ((pi_bw f + 7) / 8) x ++ r) = Some (be_enc ((pi_bw f + 7) / 8) x, r)).
    { intros x r. apply take_app. rewrite be_enc_length. reflexivity. }
    unfold bm_prio at 1. cbn [existsb].
    unfold fits in Hm. destruct (pi_mt f) eqn:T; destruct m; try contradiction; cbn [wire1 param_of]; cbv zeta; rewrite PE in *.
    + cbn [app]. destruct b; cbn [N.eqb]; rewrite NX; reflexivity.
    + rewrite TK, NX. reflexivity.
    + rewrite <- app_assoc, TK. rewrite le32_rt by tauto. rewrite NX. reflexivity.
    + rewrite <- app_assoc, TK, TK, BP, NX, (PR z). reflexivity.
    + rewrite <- app_assoc, TK, TK, BP, NX, (PR z). reflexivity.
    + rewrite <- app_assoc, TK, TK, BP, NX, (PR z). reflexivity.
Qed.

(** ** One field *)
Section One.
Variables (f : pif) (k : kfield) (m : pmatch).
Hypothesis AG : agree1 f k.
Hypothesis FO : field_ok k.
Hypothesis FT : fits f m.
Hypothesis AL : pi_mt f = PLpm -> pi_bw f mod 8 = 0.
Hypothesis WB : (N.of_nat (pi_bw f) < 2 ^ 31)%N.

Lemma bits_pos : 0 < f_bits k. Proof. apply FO. Qed.
Lemma nb_same : pi_mt f <> PValid -> pi_nbytes f = f_nbytes k /\ pi_bw f = f_bits k.
Proof.
  intros NV. unfold pi_nbytes, f_nbytes, nbytes_of. destruct AG as [_ G].
  destruct (pi_mt f); try congruence; destruct G as [_ ->]; auto.
Qed.
Lemma enc_val v : pi_mt f <> PValid -> (v < 2 ^ N.of_nat (pi_bw f))%N -> be_val (be_enc (pi_nbytes f) v) = v.
Proof.
  intros NV L. rewrite be_val_enc, pow256. apply N.mod_small. eapply N.lt_le_trans; [exact L|].
  destruct (nb_same NV) as [-> E]. apply N.pow_le_mono_r; [lia|].
  destruct (div_ceil8 (f_bits k) bits_pos) as [C _]. fold (f_nbytes k) in C. lia.
Qed.
Lemma smask_none x : smask k x = x.
Proof. unfold smask. destruct AG as [-> _]. reflexivity. Qed.
Lemma mod_bw v : pi_mt f <> PValid -> (v < 2 ^ N.of_nat (pi_bw f))%N -> (v mod 2 ^ N.of_nat (f_bits k) = v)%N.
Proof. intros NV L. apply N.mod_small. destruct (nb_same NV) as [_ <-]. auto. Qed.

Definition num_of : N :=
  match m with PMValid b => if b then 1 else 0 | PMExact v | PMLpm v _ | PMTernary v _ | PMRange v _ => v end%N.

Lemma pv_of : param_value k (param_of f m) = num_of.
Proof.
  unfold param_value. rewrite smask_none. assert (EV := enc_val). assert (MB := mod_bw).
  unfold fits in FT. destruct AG as [_ G]. unfold num_of.
  destruct (pi_mt f) eqn:T; destruct m; try contradiction; cbn [param_of p_key]; cbv zeta;
    try (rewrite EV by (try discriminate; tauto); apply MB; try discriminate; tauto).
  destruct FO as (_ & _ & _ & V). destruct (V G) as [-> _]. destruct b; reflexivity.
Qed.

Lemma typed_of : param_typed (param_of f m).
Proof.
  unfold fits in FT. unfold param_typed. destruct (pi_mt f) eqn:T; destruct m; try contradiction; cbn [param_of p_key p_mask p_plen]; cbv zeta;
    (split; [try apply be_enc_ok|split; [try apply be_enc_ok; try constructor|]]); try (apply to_int_range; tauto);
    try (split; [discriminate|reflexivity]).
  destruct b; repeat constructor.
Qed.

Lemma acceptable_of : param_acceptable k (param_of f m) <-> sensible f m.
Proof.
  assert (EV := enc_val). assert (NB := nb_same).
  unfold fits in FT. unfold param_acceptable, sensible.
  destruct AG as [_ G]. destruct FO as (_ & B32 & _ & V).
  destruct (pi_mt f) eqn:T; destruct m; try contradiction; cbn [param_of p_type p_key p_mask p_plen]; cbv zeta;
    rewrite ?be_enc_length.
  - rewrite G. split; auto. intros _. split; auto. split; auto. destruct (V G) as [W _]. unfold f_nbytes. rewrite W. reflexivity.
  - destruct G as [-> _]. destruct (NB ltac:(discriminate)) as [-> _]. tauto.
  - destruct G as [-> W]. destruct (NB ltac:(discriminate)) as [-> E].
    split.
    + intros (_ & _ & P). rewrite to_int_pos in P by (try tauto; lia). lia.
    + intros P. split; auto. split; auto. rewrite to_int_small; [lia|].
      change (2 ^ 31)%N with 2147483648%N in WB. change (2 ^ 31 - 1)%N with 2147483647%N. lia.
  - destruct G as [-> _]. destruct (NB ltac:(discriminate)) as [-> _]. tauto.
  - destruct G as [-> _]. destruct (NB ltac:(discriminate)) as [-> _]. tauto.
  - destruct G as [-> _]. rewrite !EV by (try discriminate; tauto). destruct (NB ltac:(discriminate)) as [-> _]. tauto.
Qed.

Lemma plen_of_small : sensible f m -> forall v p, m = PMLpm v p -> to_int p = Z.of_N p.
Proof.
  intros S v p ->. cbn in S. apply to_int_small.
  change (2 ^ 31)%N with 2147483648%N in WB. change (2 ^ 31 - 1)%N with 2147483647%N. lia.
Qed.

Lemma pad_of v p : sensible f m -> m = PMLpm v p -> pad_shift k (param_of f m) = (N.of_nat (pi_bw f) - p)%N.
Proof.
  intros S E. assert (PS := plen_of_small S v p E). assert (NB := nb_same).
  unfold fits in FT. subst m. destruct (pi_mt f) eqn:T; try contradiction.
  unfold pad_shift. cbn [param_of p_plen]. rewrite PS. destruct (NB ltac:(discriminate)) as [N1 N2].
  rewrite aligned_bytes by (rewrite <- N2; auto). rewrite N2. lia.
Qed.

Lemma holds_of phv : sensible f m ->
  (param_holds_sh pad_shift k (param_of f m) phv <-> holds1 f (field_value k phv) m).
Proof.
  intros S. assert (EV := enc_val). assert (PV := pv_of). assert (SM := smask_none).
  assert (PD := fun v p => pad_of v p S).
  unfold param_holds_sh. rewrite PV, SM. unfold fits in FT. unfold num_of. destruct AG as [_ G].
  destruct (pi_mt f) eqn:T; destruct m; try contradiction; cbn [holds1]; cbv zeta.
  - rewrite G. reflexivity.
  - destruct G as [-> _]. reflexivity.
  - destruct G as [-> _]. rewrite (PD v plen eq_refl). reflexivity.
  - destruct G as [-> _]. cbn [param_of p_mask]. cbv zeta. rewrite EV by (try discriminate; tauto). reflexivity.
  - destruct G as [-> _]. cbn [param_of p_mask]. cbv zeta. rewrite EV by (try discriminate; tauto). reflexivity.
  - destruct G as [-> _]. cbn [param_of p_mask]. cbv zeta. rewrite EV by (try discriminate; tauto). reflexivity.
Qed.

Lemma emit_of kd : sensible f m -> emit_param (canon kd k (param_of f m)) = wire1 f (canon1 kd f m).
Proof.
  intros S. assert (EV := enc_val). assert (PV := pv_of). assert (NB := nb_same).
  assert (PD := fun v p => pad_of v p S). assert (PS := plen_of_small S).
  unfold canon. rewrite PV. unfold num_of. unfold fits in FT. destruct AG as [_ G]. destruct FO as (_ & _ & _ & V).
  destruct (pi_mt f) eqn:T; destruct m; try contradiction; unfold emit_param, wire1, canon1.
  - rewrite G. cbn [p_type p_key]. destruct (V G) as [W _]. unfold f_nbytes. rewrite W. destruct b; reflexivity.
  - destruct G as [-> _]. cbn [p_type p_key]. destruct (NB ltac:(discriminate)) as [<- _]. reflexivity.
  - destruct G as [-> _]. cbn [p_type p_key p_plen param_of]. destruct (NB ltac:(discriminate)) as [<- _].
    specialize (PD v plen eq_refl). specialize (PS v plen eq_refl). unfold pad_shift in PD. cbn [p_plen param_of] in PD.
    rewrite <- PD. destruct (NB ltac:(discriminate)) as [<- _]. rewrite PS.
    assert (U : to_uint32 (Z.of_N plen) = plen).
    { unfold to_uint32. rewrite Z.mod_small; [lia|]. destruct FT as [_ Q]. change (2 ^ 32)%N with 4294967296%N in Q. lia. }
    rewrite U, emit_le32 by tauto. destruct kd; reflexivity.
  - destruct G as [-> _]. cbn [p_type p_key p_mask param_of]. cbv zeta. rewrite EV by (try discriminate; tauto).
    destruct (NB ltac:(discriminate)) as [<- _]. reflexivity.
  - destruct G as [-> _]. cbn [p_type p_key p_mask param_of]. cbv zeta. rewrite EV by (try discriminate; tauto).
    destruct (NB ltac:(discriminate)) as [<- _]. reflexivity.
  - destruct G as [-> _]. cbn [p_type p_key p_mask param_of]. cbv zeta.
    destruct (NB ltac:(discriminate)) as [<- _]. reflexivity.
Qed.
End One.

Lemma enc_inj n a b lim : be_enc n a = be_enc n b -> (lim <= 256 ^ N.of_nat n)%N -> (a < lim)%N -> (b < lim)%N -> a = b.
Proof.
  intros E L A B. apply (f_equal be_val) in E. rewrite !be_val_enc in E.
  rewrite !N.mod_small in E by lia. exact E.
Qed.

Lemma same_of f k a b : agree1 f k -> field_ok k -> fits f a -> fits f b ->
  (pi_mt f = PLpm -> pi_bw f mod 8 = 0) -> (N.of_nat (pi_bw f) < 2 ^ 31)%N -> sensible f a -> sensible f b ->
  (sameP k (param_of f a) (param_of f b) <-> same1 f a b).
Proof.
  intros AG FO Fa Fb AL WB Sa Sb.
  assert (EV := enc_val f k AG FO AL WB). assert (PV := pv_of f k a AG FO Fa AL WB). assert (PV' := pv_of f k b AG FO Fb AL WB).
  assert (NB := nb_same f k AG AL).
  assert (PD := fun v p => pad_of f k a AG Fa AL WB v p Sa).
  assert (PS := plen_of_small f a Fa AL WB Sa). assert (PS' := plen_of_small f b Fb AL WB Sb).
  unfold sameP. rewrite PV, PV'. unfold num_of. destruct AG as [_ G]. unfold fits in Fa, Fb.
  assert (LE : pi_mt f <> PValid -> (2 ^ N.of_nat (pi_bw f) <= 256 ^ N.of_nat (pi_nbytes f))%N).
  { intros NV. destruct (NB NV) as [-> ->]. rewrite pow256. apply N.pow_le_mono_r; [lia|].
    destruct (div_ceil8 (f_bits k) (proj1 FO)) as [C _]. fold (f_nbytes k) in C. lia. }
  destruct (pi_mt f) eqn:T; destruct a; try contradiction; destruct b; try contradiction; unfold same1; cbv zeta.
  - rewrite G. destruct b0, b; split; intros; try discriminate; auto.
  - destruct G as [-> _]. reflexivity.
  - destruct G as [-> _]. rewrite (PD v plen eq_refl). cbn [param_of p_plen].
    rewrite (PS v plen eq_refl), (PS' v0 plen0 eq_refl). split; intros [X Y]; split; auto; lia.
  - destruct G as [-> _]. cbn [param_of p_mask]. cbv zeta. rewrite EV by (try discriminate; tauto).
    split; intros [X Y]; split; auto; [|congruence].
    apply (enc_inj _ _ _ _ X (LE ltac:(discriminate))); tauto.
  - destruct G as [-> _]. cbn [param_of p_mask]. cbv zeta. rewrite EV by (try discriminate; tauto).
    split; intros [X Y]; split; auto; [|congruence].
    apply (enc_inj _ _ _ _ X (LE ltac:(discriminate))); tauto.
  - destruct G as [-> _]. cbn [param_of p_mask]. cbv zeta.
    split; intros [X Y]; split; auto; [|congruence].
    apply (enc_inj _ _ _ _ Y (LE ltac:(discriminate))); tauto.
Qed.
