(** Proofs about direct match tables. *)
From Coq Require Import List Arith NArith ZArith Bool Lia Sorted.
From Verif Require Import Base Bits Bytes EntryListModel EntryListSpec MatchUnitModel MatchUnitSpec
  MatchUnitProofs MatchUnitConseq KeyBuilderModel KeyBuilderSpec KeyBuilderProofs KeyBuilderProofs2
  KeyBuilderProofs3 KeyBuilderProps TableModel TableSpec.
Import ListNotations.

Lemma kb_nbytes_eq fs : kb_nbytes (kb_build fs) = key_bytes fs.
Proof.
  unfold kb_build, key_bytes; cbn [kb_nbytes].
  assert (H : forall l a, fold_left (fun a f => a + f_nbytes f) l a = a + list_sum (map f_nbytes l)).
  { induction l as [|x l IH]; intros a; cbn [fold_left map]; [cbn; lia|]. rewrite IH.
    change (list_sum (f_nbytes x :: map f_nbytes l)) with (f_nbytes x + list_sum (map f_nbytes l)). lia. }
  rewrite H. reflexivity.
Qed.

Lemma canon_all_combine kd fs : forall ps, length ps = length fs ->
  canon_all kd fs ps = map (fun x => canon kd (fst x) (snd x)) (combine fs ps).
Proof.
  induction fs as [|f fs IH]; intros [|p ps] L; cbn in *; auto; try lia. f_equal. apply IH. lia.
Qed.

Lemma Forall2_len {A B} (R : A -> B -> Prop) l m : Forall2 R l m -> length m = length l.
Proof. induction 1; cbn; congruence. Qed.

(** The prefix length of an LPM key is that of the prefix parameter, plus a constant of the
    layout. *)
Lemma fold_prefix fs : forall ps j, length ps = length fs -> j < length fs ->
  (forall i, i < length fs -> is_lpm (nth i fs dummyF) = true <-> i = j) ->
  fold_right (fun x acc => if is_lpm (fst x) then p_plen (snd x) else acc) 0%Z (combine fs ps) =
  p_plen (nth j ps dummyP).
Proof.
  induction fs as [|f fs IH]; intros [|p ps] j L Hj H; cbn [length] in *; try lia.
  cbn [combine fold_right fst snd]. pose proof (H 0 ltac:(lia)) as H0; cbn [nth] in H0.
  destruct (is_lpm f) eqn:E.
  - destruct j; [reflexivity|]. destruct H0 as [H0 _]. specialize (H0 eq_refl). lia.
  - destruct j; [destruct H0 as [_ H0]; specialize (H0 eq_refl); discriminate|]. cbn [nth].
    apply IH; [lia|lia|]. intros i Hi. pose proof (H (S i) ltac:(lia)) as Q; cbn [nth] in Q. split; intros; [apply Q in H1; lia|apply Q; lia].
Qed.

Lemma lpm_plen fs ps prio ps' prio' : layout_ok KLpm fs ->
  Forall param_typed ps -> Forall2 param_acceptable fs ps ->
  Forall param_typed ps' -> Forall2 param_acceptable fs ps' ->
  (k_plen (ekey KLpm fs ps' prio') <= k_plen (ekey KLpm fs ps prio) <->
   (prefix_len fs (mkRow 0 ps' prio' 0 [] 0 0) <= prefix_len fs (mkRow 0 ps prio 0 [] 0 0))%Z).
Proof.
  intros HL T A T' A'. apply Forall2_idx in A as [L A], A' as [L' A'].
  destruct (lpm_last KLpm fs HL eq_refl) as (l & j & S & Tj & TE).
  assert (Hj : j < length fs) by (apply (in_inv fs); rewrite S; apply in_or_app; right; left; auto).
  rewrite (plen_ekey KLpm fs ps HL L A prio eq_refl l j S Tj TE).
  rewrite (plen_ekey KLpm fs ps' HL L' A' prio' eq_refl l j S Tj TE).
  assert (U : forall i, i < length fs -> is_lpm (nth i fs dummyF) = true <-> i = j).
  { intros i Hi. split.
    - intros E. apply (in_inv fs) in Hi. rewrite S in Hi. apply in_app_or in Hi. destruct Hi as [Hi|[Hi|[]]]; auto.
      apply TE in Hi. unfold is_lpm in E. destruct Hi as [X|X]; rewrite X in E; discriminate.
    - intros ->. unfold is_lpm. rewrite Tj. reflexivity. }
  unfold prefix_len; cbn [r_params]. rewrite !(fold_prefix fs _ j) by auto.
  assert (P1 := A j Hj). assert (P2 := A' j Hj). unfold param_acceptable in P1, P2. rewrite Tj in P1, P2. lia.
Qed.

Section Table.
Variables (kd : mkind) (c : tcfg) (fs : list kfield) (size : nat) (cache : bool).
Hypothesis HL : layout_ok kd fs.
Hypothesis HA : lpm_aligned fs.
Hypothesis HS : (N.of_nat size <= 2 ^ 24)%N.
Let kb := kb_build fs.
Let nb := key_bytes fs.

Definition corr (e : sent aentry) (r : row) : Prop :=
  Forall param_typed (r_params r) /\ Forall2 param_acceptable fs (r_params r) /\
  kb_build_entry kd kb (r_params r) (r_prio r) = Some (BEntry (s_key e)) /\
  (exists nn, next_node c (r_fn r) = Some nn /\ s_val e = mkA (Some (r_fn r)) (r_data r) nn) /\
  s_bytes e = r_bytes r /\ s_pkts e = r_pkts r.

Definition corr_opt (a : option (sent aentry)) (b : option row) : Prop :=
  match a, b with
  | None, None => True
  | Some e, Some r => corr e r
  | _, _ => False
  end.

Record TI (last : N) (t : table) (s : stab aentry) (rows : nat -> option row)
    (d : option (nat * list N)) (im : bool) : Prop := {
  ti_mr : MR kd nb size cache last (t_unit t) s;
  ti_inv : inv kd nb size s;
  ti_rows : forall i, corr_opt (slot_of s i) (rows i);
  ti_dflt : match d with
            | None => t_default t = c_default c
            | Some (fn, data) => exists nn, next_node_default c fn = Some nn /\
                                            t_default t = mkA (Some fn) data nn
            end;
  ti_imm : t_imm t = im;
  ti_hdl : forall i r, rows i = Some r -> r_handle r = handle_of s i }.

Lemma TI_new : TI 0 (t_new kd c size cache) tab_empty no_rows None false.
Proof.
  constructor; cbn; auto.
  - apply MR_new; auto.
  - apply inv_empty.
  - intros; discriminate.
Qed.

Lemma rows_some last t s rows d im i r : TI last t s rows d im -> rows i = Some r ->
  exists e, slot_of s i = Some e /\ corr e r.
Proof.
  intros H E. pose proof (ti_rows _ _ _ _ _ _ H i) as C. rewrite E in C. destruct (slot_of s i); [eauto|contradiction].
Qed.
Lemma rows_none last t s rows d im i : TI last t s rows d im -> (rows i = None <-> slot_of s i = None).
Proof.
  intros H. pose proof (ti_rows _ _ _ _ _ _ H i) as C.
  destruct (slot_of s i), (rows i); cbn in C; try contradiction; split; intros; congruence.
Qed.
Lemma slots_some last t s rows d im i e : TI last t s rows d im -> slot_of s i = Some e ->
  exists r, rows i = Some r /\ corr e r.
Proof.
  intros H E. pose proof (ti_rows _ _ _ _ _ _ H i) as C. rewrite E in C. destruct (rows i); [eauto|contradiction].
Qed.

Lemma slot_num_eq h : slot_num h = h_slot h. Proof. reflexivity. Qed.

(** One call on the unit. *)
Lemma unit_step last t s rows d im o : TI last t s rows d im ->
  ops_ok kd nb last [o] ->
  exists u' x s', mu_step kd nb (t_unit t) o = Some (u', x) /\
    mspec_step kd nb size s o x s' /\ MR kd nb size cache (N.max last (op_time o)) u' s' /\
    inv kd nb size s'.
Proof.
  intros H Ho. destruct (step_ok kd nb size cache HS last (t_unit t) s o [] (ti_mr _ _ _ _ _ _ H) Ho)
    as (u' & x & s' & E & Sp & M).
  exists u', x, s'. split; [exact E|]. split; [exact Sp|]. split; [exact M|]. eapply step_inv; eauto. apply (ti_inv _ _ _ _ _ _ H).
Qed.

Lemma TI_last last last' t s rows d im : TI last t s rows d im -> (last <= last')%N -> TI last' t s rows d im.
Proof. intros [A B C D E F] L. constructor; auto. eapply MR_last; eauto. Qed.

(** Matching a row and matching its key agree. *)
Lemma corr_matches e r phv : corr e r -> phv_ok fs phv ->
  (key_matches kd nb (s_key e) (kb_key kb phv) <-> row_matches fs r phv).
Proof.
  intros (T & A & B & _) P.
  destruct (C08_field_semantics kd fs (r_params r) (r_prio r) phv HL HA T A P) as (k & B' & _ & _ & _ & _ & M).
  unfold kb in B. rewrite B in B'. injection B' as <-. exact M.
Qed.

Lemma corr_prio e r : corr e r ->
  k_prio (s_key e) = match kd with KExact | KLpm => 0%Z | _ => r_prio r end.
Proof.
  intros (T & A & B & _). destruct (C09_params_round_trip kd fs (r_params r) (r_prio r) HL T A) as (k & B' & P & _).
  unfold kb in B. rewrite B in B'. injection B' as <-. exact P.
Qed.

Lemma corr_ekey e r : corr e r -> s_key e = ekey kd fs (r_params r) (r_prio r).
Proof.
  intros (T & A & B & _). apply Forall2_idx in A as [L A].
  unfold kb in B. rewrite (build_entry_ok kd fs (r_params r) HL T L A (r_prio r)) in B. congruence.
Qed.

Lemma corr_wins i e r i' e' r' : corr e r -> corr e' r' ->
  (preferred kd i e i' e' -> wins kd fs i r i' r').
Proof.
  intros C C'. unfold preferred, wins.
  pose proof (corr_prio _ _ C) as P. pose proof (corr_prio _ _ C') as P'.
  pose proof (corr_ekey _ _ C) as E. pose proof (corr_ekey _ _ C') as E'.
  destruct C as (T & A & _), C' as (T' & A' & _).
  remember kd as k0 eqn:KD in |- *; symmetry in KD; destruct k0; auto.
  - rewrite E, E', KD. intros Q.
    apply (lpm_plen fs (r_params r) (r_prio r) (r_params r') (r_prio r')) in Q; auto.
    rewrite <- KD; auto.
  - rewrite KD in P, P'. rewrite P, P'. auto.
  - rewrite KD in P, P'. rewrite P, P'. auto.
Qed.

Lemma corr_reads e r h ps : corr e r -> h = r_handle r -> kb_to_params kd kb (s_key e) = Some ps ->
  reads_back kd fs r (mkTE h ps (kind_prio kd (s_key e)) (s_val e)).
Proof.
  intros C -> E. pose proof (corr_prio _ _ C) as P. destruct C as (T & A & B & (nn & N & V) & _).
  destruct (C09_params_round_trip kd fs (r_params r) (r_prio r) HL T A) as (k & B' & _ & RT).
  unfold kb in *. rewrite B in B'. injection B' as <-. rewrite RT in E. injection E as <-.
  unfold reads_back; cbn [te_handle te_params te_prio te_act]. split; [reflexivity|].
  split; [apply canon_all_combine, (Forall2_len _ _ _ A)|].
  split; [unfold kind_prio; rewrite P; destruct kd; reflexivity|]. rewrite V; auto.
Qed.

Lemma corr_to_params e r : corr e r -> exists ps, kb_to_params kd kb (s_key e) = Some ps.
Proof.
  intros (T & A & B & _).
  destruct (C09_params_round_trip kd fs (r_params r) (r_prio r) HL T A) as (k & B' & _ & RT).
  unfold kb in *. rewrite B in B'. injection B' as <-. eauto.
Qed.

(** Handles of occupied slots. *)
Lemma handle_slot s i : inv kd nb size s -> slot_of s i <> None -> slot_num (@handle_of aentry s i) = i.
Proof. intros I H. apply handle_of_slot with (kd := kd) (nbytes := nb) (size := size); auto. Qed.

Lemma handle_ok s i : inv kd nb size s -> @slot_of aentry s i <> None ->
  (handle_of s i < 2 ^ 32)%N /\ h_gen (handle_of s i) = N.of_nat (gen s i mod 256).
Proof.
  intros I Hi. assert (LT : i < size) by (apply (iv_lt _ _ _ _ I); auto). split.
  - unfold handle_of. pose proof (Nat.mod_upper_bound (gen s i) 256 ltac:(lia)). change (2 ^ 32)%N with (256 * 2 ^ 24)%N. nia.
  - unfold h_gen, handle_of. apply div24. lia.
Qed.

Lemma handle_split s h : h_gen h = N.of_nat (@gen aentry s (h_slot h) mod 256) -> h = handle_of s (h_slot h).
Proof.
  intros G. unfold handle_of. rewrite <- G. unfold h_gen, h_slot. rewrite N2Nat.id.
  pose proof (N.div_mod h (2 ^ 24) ltac:(discriminate)). lia.
Qed.

Lemma hdl_eqb last t s rows d im h r : TI last t s rows d im -> rows (slot_num h) = Some r ->
  ((h =? r_handle r)%N = true <-> h_gen h = N.of_nat (gen s (h_slot h) mod 256)).
Proof.
  intros H W. rewrite N.eqb_eq, (ti_hdl _ _ _ _ _ _ H _ _ W), slot_num_eq. split.
  - intros E. destruct (rows_some _ _ _ _ _ _ _ _ H W) as (e & S1 & _).
    destruct (handle_ok s (slot_num h) (ti_inv _ _ _ _ _ _ H) ltac:(congruence)) as [_ G].
    rewrite slot_num_eq in G. rewrite <- E in G. exact G.
  - apply handle_split.
Qed.

(** get_entry *)
Lemma get_entry_ok last t s rows d im h : TI last t s rows d im -> (h < 2 ^ 32)%N ->
  exists r, t_get_entry kd kb t h = Some r /\
    match rows (slot_num h) with
    | None => r = inl (TCUnit MInvalid)
    | Some w => if (h =? r_handle w)%N then exists e, r = inr e /\ reads_back kd fs w e
                else r = inl (TCUnit MExpired)
    end.
Proof.
  intros H Hh. destruct (unit_step last t s rows d im (MGetEntry h) H ltac:(cbn; auto)) as (u' & x & s' & E & Sp & _).
  cbn [mu_step] in E. unfold t_get_entry. rewrite E.
  inversion Sp; subst.
  - match goal with Q : resolves _ _ _ |- _ => inversion Q; subst end.
    + eexists; split; [reflexivity|]. rewrite (proj2 (rows_none _ _ _ _ _ _ (slot_num h) H)) by auto. reflexivity.
    + eexists; split; [reflexivity|]. destruct (slots_some _ _ _ _ _ _ (slot_num h) e H ltac:(auto)) as (r & W & _).
      rewrite W. pose proof (hdl_eqb _ _ _ _ _ _ _ _ H W) as Q. destruct (h =? r_handle r)%N; [|reflexivity]. tauto.
  - match goal with Q : resolves _ _ _ |- _ => apply resolves_slot in Q; destruct Q as (S1 & -> & G) end.
    destruct (slots_some _ _ _ _ _ _ (slot_num h) e H S1) as (r & W & C).
    destruct (corr_to_params _ _ C) as (ps & TP). rewrite TP. eexists; split; [reflexivity|].
    rewrite W. pose proof (proj2 (hdl_eqb _ _ _ _ _ _ _ _ H W) G) as Q. rewrite Q.
    eexists; split; [reflexivity|]. apply corr_reads; auto. apply N.eqb_eq; auto.
Qed.

Lemma row_handle last t s rows d im i r : TI last t s rows d im -> rows i = Some r ->
  slot_num (r_handle r) = i /\ (r_handle r < 2 ^ 32)%N.
Proof.
  intros H W. destruct (rows_some _ _ _ _ _ _ _ _ H W) as (e & S1 & _).
  rewrite (ti_hdl _ _ _ _ _ _ H _ _ W). split.
  - apply handle_slot; [apply (ti_inv _ _ _ _ _ _ H)|congruence].
  - apply handle_ok; [apply (ti_inv _ _ _ _ _ _ H)|congruence].
Qed.

Lemma get_row last t s rows d im i r : TI last t s rows d im -> rows i = Some r ->
  exists e, t_get_entry kd kb t (r_handle r) = Some (inr e) /\ reads_back kd fs r e.
Proof.
  intros H W. destruct (row_handle _ _ _ _ _ _ _ _ H W) as [S1 L].
  destruct (get_entry_ok _ _ _ _ _ _ (r_handle r) H L) as (x & G & Q). rewrite S1, W, N.eqb_refl in Q.
  destruct Q as (e & -> & RB). eauto.
Qed.

(** Two keys the unit takes for the same cover the same packets. *)
Lemma same_key_matches k k' key : key_ok kd nb k -> key_ok kd nb k' -> same_key kd k k' ->
  (key_matches kd nb k key <-> key_matches kd nb k' key).
Proof.
  intros _ _ H. unfold same_key, key_matches in *. destruct kd.
  - rewrite H. tauto.
  - rewrite H. tauto.
  - destruct H as (A & B & _). unfold ternary_matches_from. rewrite A, B. tauto.
  - destruct H as (A & B & _ & D). rewrite D. generalize (k_widths k') 0. intros l.
    induction l as [|w l IH]; intros o; cbn [range_matches_from].
    + unfold ternary_matches_from. rewrite A, B. tauto.
    + rewrite A, B, IH. tauto.
Qed.

Lemma same_key_covers e r k ps prio : corr e r ->
  Forall param_typed ps -> Forall2 param_acceptable fs ps -> kb_build_entry kd kb ps prio = Some (BEntry k) ->
  same_key kd (s_key e) k -> covers_same fs r ps /\ prio_same kd (r_prio r) prio.
Proof.
  intros C HT AC B SK. split.
  - intros phv HP. rewrite <- (corr_matches e r phv C HP).
    destruct (C08_field_semantics kd fs ps prio phv HL HA HT AC HP) as (k' & B' & KO & _ & _ & _ & M).
    unfold kb in B. rewrite B in B'. injection B' as <-.
    assert (KE : key_ok kd nb (s_key e)).
    { rewrite (corr_ekey _ _ C). destruct C as (T & A & _). apply Forall2_idx in A as [L A]. apply entry_key_ok; auto. }
    rewrite (same_key_matches _ k _ KE KO SK). exact M.
  - pose proof (corr_prio _ _ C) as P.
    destruct (C09_params_round_trip kd fs ps prio HL HT AC) as (k' & B' & P' & _).
    unfold kb in B. rewrite B in B'. injection B' as <-.
    unfold prio_same, same_key in *. destruct kd; auto; destruct SK as (_ & _ & SK); [|destruct SK as [SK _]]; congruence.
Qed.

Lemma same_params_key e r k ps prio : corr e r -> kb_build_entry kd kb ps prio = Some (BEntry k) ->
  Forall param_typed ps -> Forall2 param_acceptable fs ps ->
  r_params r = ps -> prio_same kd (r_prio r) prio -> same_key kd (s_key e) k.
Proof.
  intros C B HT AC E P. rewrite (corr_ekey _ _ C), E.
  apply Forall2_idx in AC as [L A]. unfold kb in B. rewrite (build_entry_ok kd fs ps HL HT L A prio) in B. injection B as <-.
  unfold same_key, prio_same, ekey in *; cbn [k_data k_plen k_mask k_prio k_widths].
  remember kd as k0 eqn:KD in |- *; symmetry in KD; rewrite KD in P; destruct k0; auto.
Qed.

Lemma live_of last t s rows d im l : TI last t s rows d im -> enumerates s l -> live_rows rows l.
Proof.
  intros H [SS Q]. split; auto. intros i. rewrite Q.
  split; intros Z W; apply Z; apply (rows_none _ _ _ _ _ _ _ H); auto.
Qed.

Lemma put_eq f i o : put f i o i = o. Proof. unfold put. rewrite Nat.eqb_refl. reflexivity. Qed.

(** Rows and slots change together. *)
Lemma corr_put s rows i e r : (forall j, corr_opt (slot_of s j) (rows j)) -> corr_opt e r ->
  forall j, corr_opt (set_slot (slot_of s) i e j) (put rows i r j).
Proof. intros H C j. unfold set_slot, put. destruct (j =? i); auto. Qed.

Lemma corr_upd s rows i e e' : (forall j, corr_opt (slot_of s j) (rows j)) -> slot_of s i = Some e ->
  s_key e' = s_key e -> s_val e' = s_val e -> s_bytes e' = s_bytes e -> s_pkts e' = s_pkts e ->
  forall j, corr_opt (set_slot (slot_of s) i (Some e') j) (rows j).
Proof.
  intros H E K V VB VP j. unfold set_slot. destruct (Nat.eqb_spec j i) as [->|]; auto.
  specialize (H i). rewrite E in H. destruct (rows i) as [r|]; [|contradiction]. unfold corr_opt, corr in *.
  rewrite K, V, VB, VP. exact H.
Qed.

(** Changing the counters of a slot. *)
Lemma corr_cnt s rows i e r b p ts : (forall j, corr_opt (slot_of s j) (rows j)) -> slot_of s i = Some e ->
  rows i = Some r ->
  forall j, corr_opt (set_slot (slot_of s) i (Some (mkSent (s_key e) (s_val e) ts b p)) j)
                     (put rows i (Some (set_counts r b p)) j).
Proof.
  intros H E W. apply corr_put; auto. specialize (H i). rewrite E, W in H.
  destruct H as (A & B & C & D & _). repeat (split; auto).
Qed.

Lemma hdl_cnt s s' rows i r b p : (forall j r, rows j = Some r -> r_handle r = @handle_of aentry s j) ->
  rows i = Some r -> gen s' = gen s ->
  forall j r', put rows i (Some (set_counts r b p)) j = Some r' -> r_handle r' = @handle_of aentry s' j.
Proof.
  intros H W G j r'. unfold put, handle_of. rewrite G. destruct (Nat.eqb_spec j i) as [->|]; [|apply H].
  intros Q. injection Q as <-. apply (H _ _ W).
Qed.

Lemma enum_all last t s rows d im : TI last t s rows d im -> forall l, (forall i, In i l -> slot_of s i <> None) ->
  exists es, t_get_all kd kb t (map (handle_of s) l) = Some es /\
    map (fun e => slot_num (te_handle e)) es = l /\
    forall e, In e es -> exists r, rows (slot_num (te_handle e)) = Some r /\ reads_back kd fs r e.
Proof.
  intros H. induction l as [|i l IH]; intros Hl.
  - exists []. cbn. split; [reflexivity|]. split; [reflexivity|]. intros e [].
  - destruct IH as (es & E & M & R); [intros j Hj; apply Hl; right; auto|].
    assert (Hi : slot_of s i <> None) by (apply Hl; left; auto).
    destruct (rows i) as [w|] eqn:W; [|apply (rows_none _ _ _ _ _ _ _ H) in W; congruence].
    destruct (get_row _ _ _ _ _ _ _ _ H W) as (e & GE & RB). pose proof RB as (TH & _).
    destruct (row_handle _ _ _ _ _ _ _ _ H W) as [HH _].
    rewrite (ti_hdl _ _ _ _ _ _ H _ _ W) in *.
    exists (e :: es). cbn [map t_get_all]. rewrite GE, E. split; [reflexivity|]. split.
    + rewrite TH, HH, M. reflexivity.
    + intros e' [<-|Hin]; auto. exists w. rewrite TH, HH. auto.
Qed.

Lemma TI_step last t s rows d im o : TI last t s rows d im -> tops_ok c fs last [o] ->
  exists t' x s', t_step kd c kb t o = Some (t', x) /\ call_spec kd c fs size rows d im o x /\
    TI (N.max last (top_time o)) t' s' (row_step rows o x) (dflt_step d o x) (imm_step im o).
Proof.
  intros H [Ho _]. pose proof H as [MRH INV RW DF IM HD].
  assert (Hc : forall t' s', t' = t -> s' = s -> TI (N.max last (top_time o)) t' s' rows d im)
    by (intros ? ? -> ->; eapply TI_last; eauto; lia).
  destruct o as [now ps prio fn data|h|h fn data|fn data| | |h|ps prio| |ts len phv|rd| |h|h b p| |now h tl|now| ].
  - (* add *)
    destruct Ho as [HT HN]. cbn [t_step call_spec dflt_step imm_step]. unfold t_add. rewrite IM.
    destruct im; [do 3 eexists; split; [reflexivity|]; split; [reflexivity|]; apply Hc; auto|].
    destruct (length data =? c_params c fn); cbn [negb];
      [|do 3 eexists; split; [reflexivity|]; split; [reflexivity|]; apply Hc; auto].
    destruct (next_node c fn) as [nn|] eqn:NN; [|first [exfalso; apply HN; exact NN|exfalso; apply Ho; exact NN]].
    unfold kb at 1. rewrite kb_nbytes_eq.
    destruct (key_bytes fs =? 0);
      [do 3 eexists; split; [reflexivity|]; split; [reflexivity|]; apply Hc; auto|].
    pose proof (C08_bad_keys_refused kd fs ps prio HL HT) as BK.
    assert (DEC : Forall2 param_acceptable fs ps \/ kb_build_entry kd kb ps prio = Some BBadKey).
    { unfold kb_build_entry. destruct (kb_sanity kb ps) eqn:E; auto. left.
      apply Forall2_idx. apply sanity_iff with (kd := kd); auto. }
    destruct DEC as [AC|BB].
    2:{ unfold kb. fold kb. rewrite BB. do 3 eexists; split; [reflexivity|]; split;
        [left; split; [apply BK; auto|reflexivity]|apply Hc; auto]. }
    destruct (C09_params_round_trip kd fs ps prio HL HT AC) as (k & B & _ & _).
    fold kb in B. rewrite B.
    assert (KO : key_ok kd nb k).
    { pose proof AC as AC'. apply Forall2_idx in AC' as [L A].
      unfold kb in B. rewrite (build_entry_ok kd fs ps HL HT L A prio) in B. injection B as <-. apply entry_key_ok; auto. }
    destruct (unit_step last t s rows d false (MAdd now k (mkA (Some fn) data nn)) H ltac:(cbn; auto))
      as (u' & x & s' & E & Sp & M & I'). cbn [mu_step] in E. rewrite E.
    inversion Sp; subst; cbn [on_unit tc_of row_step].
    + do 3 eexists; split; [reflexivity|]; split; [|constructor; [exact M|exact I'|auto..|try exact HD]].
      right; split; [auto|]. left. split; [reflexivity|].
      destruct (slots_some _ _ _ _ _ _ i e H ltac:(auto)) as (r & W & C). exists i, r. split; [exact W|].
      eapply same_key_covers; eauto.
    + do 3 eexists; split; [reflexivity|]; split; [|constructor; [exact M|exact I'|auto..|try exact HD]].
      right; split; [auto|]. right; left. split; [reflexivity|]. exists l. split; [eapply live_of; eauto|auto].
    + assert (HH : slot_num (handle_of s i) = i).
      { change (handle_of s i) with (handle_of (mkTab (set_slot (slot_of s) i (Some (mkSent k (mkA (Some fn) data nn) now 0 0))) (gen s) (ttl s)) i).
        apply handle_slot; auto. cbn. rewrite set_slot_eq. congruence. }
      do 3 eexists; split; [reflexivity|]; split.
      * right; split; auto. right; right. eexists; split; [reflexivity|]. rewrite HH. split; [auto|].
        split; [apply (rows_none _ _ _ _ _ _ _ H); auto|].
        intros j r W RP PS. destruct (rows_some _ _ _ _ _ _ _ _ H W) as (e & S1 & C).
        match goal with Q : forall _ _, slot_of s _ = Some _ -> ~ _ |- _ => apply (Q j e S1) end.
        eapply same_params_key; eauto.
      * rewrite HH. constructor; [exact M|exact I'|cbn [t_unit t_default t_imm slot_of]; auto..|try exact HD].
        { apply corr_put; auto. cbn. unfold corr; cbn. repeat (split; auto). eauto. }
        intros j r. unfold put. destruct (Nat.eqb_spec j i) as [->|]; [|apply HD]. intros Q. injection Q as <-. reflexivity.
  - (* delete *)
    cbn [t_step call_spec dflt_step imm_step]. unfold t_delete. rewrite IM.
    destruct im; [do 3 eexists; split; [reflexivity|]; split; [reflexivity|]; apply Hc; auto|].
    destruct (unit_step last t s rows d false (MDel h) H ltac:(cbn; auto)) as (u' & x & s' & E & Sp & M & I').
    cbn [mu_step] in E. rewrite E. inversion Sp; subst; cbn [on_unit tc_of row_step ok_code].
    + match goal with Q0 : resolves _ _ (inl _) |- _ => inversion Q0; subst end; cbn [tc_of ok_code].
      * do 3 eexists; split; [reflexivity|]; split; [|constructor; [exact M|exact I'|auto..|try exact HD]].
        rewrite (proj2 (rows_none _ _ _ _ _ _ (slot_num h) H)) by auto. reflexivity.
      * do 3 eexists; split; [reflexivity|]; split; [|constructor; [exact M|exact I'|auto..|try exact HD]].
        destruct (slots_some _ _ _ _ _ _ (slot_num h) e H ltac:(auto)) as (r & W & _). rewrite W.
        pose proof (hdl_eqb _ _ _ _ _ _ _ _ H W) as Q. destruct (h =? r_handle r)%N; [tauto|reflexivity].
    + match goal with Q : resolves _ _ _ |- _ => apply resolves_slot in Q; destruct Q as (S1 & -> & G) end.
      do 3 eexists; split; [reflexivity|]; split.
      * destruct (slots_some _ _ _ _ _ _ (slot_num h) e H S1) as (r & W & _). rewrite W.
        rewrite (proj2 (hdl_eqb _ _ _ _ _ _ _ _ H W) G). reflexivity.
      * constructor; [exact M|exact I'|cbn [t_unit t_default t_imm slot_of]; auto..|try exact HD]; [apply corr_put; cbn; auto|].
        intros j r. unfold put, handle_of; cbn [gen ok_code]. change (h_slot h) with (slot_num h).
        destruct (j =? slot_num h); [intros; discriminate|]. apply HD.
  - (* modify *)
    destruct Ho as [H32 HN]. cbn [t_step call_spec dflt_step imm_step]. unfold t_modify. rewrite IM.
    destruct im; [do 3 eexists; split; [reflexivity|]; split; [reflexivity|]; apply Hc; auto|].
    destruct (length data =? c_params c fn); cbn [negb];
      [|do 3 eexists; split; [reflexivity|]; split; [reflexivity|]; apply Hc; auto].
    destruct (next_node c fn) as [nn|] eqn:NN; [|first [exfalso; apply HN; exact NN|exfalso; apply Ho; exact NN]].
    destruct (unit_step last t s rows d false (MMod h (mkA (Some fn) data nn)) H ltac:(cbn; auto)) as (u' & x & s' & E & Sp & M & I').
    cbn [mu_step] in E. rewrite E. inversion Sp; subst; cbn [on_unit tc_of row_step ok_code].
    + match goal with Q0 : resolves _ _ (inl _) |- _ => inversion Q0; subst end; cbn [tc_of ok_code].
      * do 3 eexists; split; [reflexivity|]; split; [|constructor; [exact M|exact I'|auto..|try exact HD]].
        rewrite (proj2 (rows_none _ _ _ _ _ _ (slot_num h) H)) by auto. reflexivity.
      * do 3 eexists; split; [reflexivity|]; split; [|constructor; [exact M|exact I'|auto..|try exact HD]].
        destruct (slots_some _ _ _ _ _ _ (slot_num h) e H ltac:(auto)) as (r & W & _). rewrite W.
        pose proof (hdl_eqb _ _ _ _ _ _ _ _ H W) as Q. destruct (h =? r_handle r)%N; [tauto|reflexivity].
    + match goal with Q : resolves _ _ _ |- _ => apply resolves_slot in Q; destruct Q as (S1 & -> & G) end.
      destruct (slots_some _ _ _ _ _ _ (slot_num h) e H S1) as (r & W & C).
      do 3 eexists; split; [reflexivity|]; split.
      * rewrite W, (proj2 (hdl_eqb _ _ _ _ _ _ _ _ H W) G). reflexivity.
      * rewrite W. constructor; [exact M|exact I'|cbn [t_unit t_default t_imm slot_of]; auto..|try exact HD].
        { apply corr_put; cbn; auto.
          destruct C as (C1 & C2 & C3 & _ & C4). unfold corr; cbn. repeat (split; auto). eauto. }
        intros j r'. unfold put; cbn [ok_code]. destruct (Nat.eqb_spec j (slot_num h)) as [->|]; [|apply HD].
        intros Q. injection Q as <-. apply (HD _ _ W).
  - (* set default *)
    cbn [t_step call_spec]. unfold t_set_default.
    destruct (c_const_entry c); [do 3 eexists; split; [reflexivity|]; split; [reflexivity|]; apply Hc; auto|].
    destruct (match c_const_action c with Some f => negb (f =? fn) | None => false end);
      [do 3 eexists; split; [reflexivity|]; split; [reflexivity|]; apply Hc; auto|].
    destruct (length data =? c_params c fn); cbn [negb];
      [|do 3 eexists; split; [reflexivity|]; split; [reflexivity|]; apply Hc; auto].
    destruct (next_node_default c fn) as [nn|] eqn:NN; [|first [exfalso; apply HN; exact NN|exfalso; apply Ho; exact NN]].
    do 3 eexists; split; [reflexivity|]; split; [reflexivity|].
    cbn [row_step dflt_step imm_step ok_code].
    constructor; [|exact INV|exact RW|cbn; eauto|exact IM|exact HD]. apply MR_last with (last := last); auto; lia.
  - (* reset default *)
    do 3 eexists; split; [reflexivity|]; split; [exact I|]. cbn [row_step dflt_step imm_step ok_code].
    constructor; [|exact INV|exact RW|cbn; eauto|exact IM|exact HD]. apply MR_last with (last := last); auto; lia.
  - (* get default *)
    cbn [t_step call_spec row_step dflt_step imm_step].
    assert (Q : exists x, match a_fn (t_default t) with
                   | None => Some (t, TCode TCNoDefault)
                   | Some fn => Some (t, TDefault fn (a_data (t_default t))) end = Some (t, x) /\
              match d with
              | Some (fn, data) => x = TDefault fn data
              | None => match a_fn (c_default c) with
                        | Some fn => x = TDefault fn (a_data (c_default c))
                        | None => x = TCode TCNoDefault end
              end).
    { destruct d as [[fn data]|].
      - destruct DF as (nn & _ & ->). cbn. eauto.
      - rewrite DF. destruct (a_fn (c_default c)); eauto. }
    destruct Q as (x & E & Q). exists t, x, s. split; [exact E|]. split; [exact Q|]. apply Hc; auto.
  - (* get *)
    cbn [t_step call_spec row_step dflt_step imm_step]. unfold t_get.
    destruct (get_entry_ok _ _ _ _ _ _ h H Ho) as (r & GE & Sp). rewrite GE.
    destruct (rows (slot_num h)) as [w|] eqn:W.
    + destruct (h =? r_handle w)%N; [destruct Sp as (e & -> & RB)|subst r].
      * do 3 eexists; split; [reflexivity|]; split; [eauto|]. apply Hc; auto.
      * do 3 eexists; split; [reflexivity|]; split; [reflexivity|]. apply Hc; auto.
    + subst r. do 3 eexists; split; [reflexivity|]; split; [reflexivity|]. apply Hc; auto.
  - (* get by key *)
    cbn [t_step call_spec row_step dflt_step imm_step]. unfold t_get_key.
    pose proof (C08_bad_keys_refused kd fs ps prio HL Ho) as BK.
    assert (DEC : Forall2 param_acceptable fs ps \/ kb_build_entry kd kb ps prio = Some BBadKey).
    { unfold kb_build_entry. destruct (kb_sanity kb ps) eqn:E; auto. left.
      apply Forall2_idx. apply sanity_iff with (kd := kd); auto. }
    destruct DEC as [AC|BB].
    2:{ rewrite BB. do 3 eexists; split; [reflexivity|]; split;
        [left; split; [apply BK; auto|reflexivity]|apply Hc; auto]. }
    destruct (C09_params_round_trip kd fs ps prio HL Ho AC) as (k & B & _ & _).
    fold kb in B. rewrite B.
    assert (KO : key_ok kd nb k).
    { pose proof AC as AC'. apply Forall2_idx in AC' as [L A].
      unfold kb in B. rewrite (build_entry_ok kd fs ps HL Ho L A prio) in B. injection B as <-. apply entry_key_ok; auto. }
    destruct (unit_step last t s rows d im (MRetr k) H ltac:(cbn; auto)) as (u' & x & s' & E & Sp & M & I').
    cbn [mu_step] in E. rewrite E. inversion Sp; subst; cbn [tc_of].
    + do 3 eexists; split; [reflexivity|]; split; [|apply Hc; auto]. right; split; auto. left. split; [reflexivity|].
      intros j r W RP PS. destruct (rows_some _ _ _ _ _ _ _ _ H W) as (e & S1 & C).
      match goal with Q : forall _ _, slot_of _ _ = Some _ -> ~ _ |- _ => apply (Q j e S1) end.
      eapply same_params_key; eauto.
    + destruct (slots_some _ _ _ _ _ _ i e H ltac:(auto)) as (w & W & C).
      rewrite <- (HD _ _ W). destruct (get_row _ _ _ _ _ _ _ _ H W) as (en & GE & RB). pose proof RB as (TH & _).
      destruct (row_handle _ _ _ _ _ _ _ _ H W) as [HH _]. unfold t_get. rewrite GE.
      do 3 eexists; split; [reflexivity|]; split; [|apply Hc; auto].
      right; split; auto. right. exists en, w. split; [reflexivity|]. rewrite TH, HH.
      split; [exact W|]. split; [exact RB|]. eapply same_key_covers; eauto.
  - (* get all *)
    cbn [t_step call_spec row_step dflt_step imm_step]. unfold t_entries.
    destruct (unit_step last t s rows d im MIter H ltac:(cbn; auto)) as (u' & x & s' & E & Sp & M & I').
    cbn [mu_step] in E. rewrite E. inversion Sp; subst.
    match goal with Q0 : enumerates _ _ |- _ => destruct Q0 as [SS Q] end.
    destruct (enum_all _ _ _ _ _ _ H l) as (es & GA & ME & R); [intros i Hi; apply Q; auto|].
    rewrite GA. do 3 eexists; split; [reflexivity|]; split; [|apply Hc; auto].
    exists es. split; [reflexivity|]. rewrite ME. split; [exact SS|]. split; [|exact R].
    intros i Hi. apply Q. intros Z. apply Hi. apply (rows_none _ _ _ _ _ _ _ H). exact Z.
  - (* apply *)
    cbn [t_step call_spec row_step dflt_step imm_step top_time]. unfold t_apply. unfold kb at 1. rewrite kb_nbytes_eq. fold nb.
    assert (LD : lpm_aligned fs) by auto.
    assert (KL : bytes_ok (kb_key kb phv) /\ length (kb_key kb phv) = nb).
    { apply kb_key_shape; auto. apply (proj1 HL). }
    destruct (unit_step last t s rows d im (MLookup ts len (kb_key kb phv)) H ltac:(cbn; auto)) as (u' & x & s' & E & Sp & M & I').
    cbn [mu_step] in E. rewrite E. cbn [op_time] in M. inversion Sp; subst.
    + do 3 eexists; split; [reflexivity|]; split; [|constructor; [exact M|exact I'|auto..|try exact HD]].
      right. split.
      * intros i r W Mt. destruct (rows_some _ _ _ _ _ _ _ _ H W) as (e & S1 & C).
        match goal with Q : lookup_answer _ _ _ _ None |- _ => apply (Q i e S1) end. apply (corr_matches e r); auto.
      * destruct d as [[fn data]|]; [destruct DF as (nn & NN & ->); eauto|rewrite DF; reflexivity].
    + match goal with Q : lookup_answer _ _ _ _ (Some _) |- _ => destruct Q as (S1 & KM & PR) end.
      destruct (slots_some _ _ _ _ _ _ i e H S1) as (r & W & C). pose proof C as (_ & _ & _ & (nn & NN & VV) & CB & CP).
      do 3 eexists; split; [reflexivity|]; split.
      * left. exists i, r, nn. split; [exact W|]. split; [apply (corr_matches e r); auto|]. split.
        { intros i' r' W' Mt'. destruct (rows_some _ _ _ _ _ _ _ _ H W') as (e' & S1' & C').
          apply (corr_wins i e r i' e' r'); auto. apply PR; auto. apply (corr_matches e' r'); auto. }
        split; [exact NN|]. rewrite VV. cbn [a_fn a_data a_next]. do 2 f_equal.
        change 16777215%N with (N.ones 24). rewrite N.land_ones.
        assert (HH : slot_num (handle_of s i) = i) by (apply handle_slot; auto; congruence).
        unfold slot_num in HH. lia.
      * assert (HH : slot_num (handle_of s i) = i) by (apply handle_slot; auto; congruence).
        assert (HN : N.to_nat (N.land (handle_of s i) 16777215) = i).
        { change 16777215%N with (N.ones 24). rewrite N.land_ones. exact HH. }
        rewrite HN, W. constructor; [exact M|exact I'|cbn [slot_of]; auto..|].
        { rewrite <- CB, <- CP. apply corr_cnt; auto. }
        eapply hdl_cnt; eauto.
  - (* clear *)
    do 3 eexists; split; [reflexivity|]; split; [exact I|].
    destruct (unit_step last t s rows d im MReset H ltac:(cbn; auto)) as (u' & x & s' & E & Sp & M & I').
    cbn [mu_step] in E. injection E as <- <-. inversion Sp; subst.
    cbn [row_step dflt_step imm_step t_clear]. constructor; [exact M|exact I'|cbn [t_unit t_default t_imm t_clear]; auto..].
    { destruct rd; auto. } intros; discriminate.
  - (* set immutable *)
    do 3 eexists; split; [reflexivity|]; split; [exact I|]. cbn [row_step dflt_step imm_step].
    constructor; [|exact INV|exact RW|exact DF|reflexivity|exact HD]. apply MR_last with (last := last); auto; lia.
  - (* query *)
    cbn [t_step call_spec row_step dflt_step imm_step].
    destruct (c_counters c); [|do 3 eexists; split; [reflexivity|]; split; [reflexivity|]; apply Hc; auto].
    destruct (unit_step last t s rows d im (MQuery h) H ltac:(cbn; auto)) as (u' & x & s' & E & Sp & M & I').
    cbn [mu_step] in E. rewrite E. inversion Sp; subst; do 3 eexists; (split; [reflexivity|]; split; [|constructor; [exact M|exact I'|auto..|try exact HD]]).
    + rewrite (proj2 (rows_none _ _ _ _ _ _ (slot_num h) H)) by auto. reflexivity.
    + destruct (slots_some _ _ _ _ _ _ (slot_num h) e H ltac:(auto)) as (r & W & _ & _ & _ & _ & -> & ->). rewrite W. reflexivity.
  - (* write *)
    cbn [t_step call_spec row_step dflt_step imm_step].
    destruct (c_counters c); [|do 3 eexists; split; [reflexivity|]; split; [reflexivity|]; apply Hc; auto].
    destruct (unit_step last t s rows d im (MWrite h b p) H ltac:(cbn; auto)) as (u' & x & s' & E & Sp & M & I').
    cbn [mu_step] in E. rewrite E. inversion Sp; subst; do 3 eexists; (split; [reflexivity|]; split); cbn [tc_of ok_code].
    + rewrite (proj2 (rows_none _ _ _ _ _ _ (slot_num h) H)) by auto. reflexivity.
    + constructor; [exact M|exact I'|auto..|try exact HD].
    + destruct (slots_some _ _ _ _ _ _ (slot_num h) e H ltac:(auto)) as (r & W & _). rewrite W. reflexivity.
    + destruct (slots_some _ _ _ _ _ _ (slot_num h) e H ltac:(auto)) as (r & W & _). rewrite W.
      constructor; [exact M|exact I'|cbn [slot_of]; auto..|].
      * apply corr_cnt; auto.
      * eapply hdl_cnt; eauto.
  - (* reset counters *)
    cbn [t_step call_spec row_step dflt_step imm_step].
    destruct (c_counters c); [|do 3 eexists; split; [reflexivity|]; split; [reflexivity|]; apply Hc; auto].
    destruct (unit_step last t s rows d im MResetC H ltac:(cbn; auto)) as (u' & x & s' & E & Sp & M & I').
    cbn [mu_step] in E. rewrite E. inversion Sp; subst; do 3 eexists; (split; [reflexivity|]; split; [reflexivity|]); cbn [tc_of ok_code].
    constructor; [exact M|exact I'|cbn [slot_of]; auto..|].
    + intros i. specialize (RW i). destruct (slot_of s i), (rows i); cbn in *; auto.
      destruct RW as (A & B & C & D & _). repeat (split; auto).
    + intros i r W. unfold handle_of; cbn [gen]. destruct (rows i) as [r0|] eqn:W0; [|discriminate]. injection W as <-. apply (HD _ _ W0).
  - (* ttl *)
    cbn [t_step call_spec row_step dflt_step imm_step].
    destruct (c_ageing c); [|do 3 eexists; split; [reflexivity|]; split; [reflexivity|]; apply Hc; auto].
    destruct (unit_step last t s rows d im (MTtl now h tl) H ltac:(cbn; auto)) as (u' & x & s' & E & Sp & M & I').
    cbn [mu_step] in E. rewrite E. inversion Sp; subst; do 3 eexists; (split; [reflexivity|]; split; [|constructor; [exact M|exact I'|auto..|try exact HD]]).
    + rewrite (proj2 (rows_none _ _ _ _ _ _ (slot_num h) H)) by auto. reflexivity.
    + destruct (slots_some _ _ _ _ _ _ (slot_num h) e H ltac:(auto)) as (r & W & _). rewrite W. reflexivity.
    + cbn [slot_of]. apply corr_upd with (e := e); auto.
  - (* sweep *)
    cbn [t_step call_spec row_step dflt_step imm_step].
    destruct (unit_step last t s rows d im (MSweep now) H ltac:(cbn; auto)) as (u' & x & s' & E & Sp & M & I').
    cbn [mu_step] in E. rewrite E. inversion Sp; subst; do 3 eexists; (split; [reflexivity|]; split; [|constructor; [exact M|exact I'|auto..|try exact HD]]).
    eexists; split; [reflexivity|]. intros h Hh. apply in_map_iff in Hh as (i & <- & Hi).
    match goal with Q : forall _, In _ _ <-> aged _ _ _ |- _ => apply Q in Hi end. destruct Hi as (e & S1 & _).
    destruct (slots_some _ _ _ _ _ _ i e H S1) as (r & W & _). exists r. rewrite (HD _ _ W).
    split; [|reflexivity]. rewrite handle_slot; auto. congruence.
  - (* count *)
    cbn [t_step call_spec row_step dflt_step imm_step].
    destruct (unit_step last t s rows d im MCount H ltac:(cbn; auto)) as (u' & x & s' & E & Sp & M & I').
    cbn [mu_step] in E. rewrite E. inversion Sp; subst; do 3 eexists; (split; [reflexivity|]); split.
    2:{ constructor; [exact M|exact I'|auto..|try exact HD]. }
    exists l. split; [reflexivity|]. eapply live_of; eauto.
Qed.

Lemma TI_run : forall ops last t s rows d im, TI last t s rows d im -> tops_ok c fs last ops ->
  exists t' outs, t_run kd c kb t ops = Some (t', outs) /\ history_ok kd c fs size rows d im ops outs.
Proof.
  induction ops as [|o ops IH]; intros last t s rows d im H Ho.
  - exists t, []. cbn. auto.
  - destruct Ho as [Ho Hr]. destruct (TI_step last t s rows d im o H ltac:(split; cbn; auto)) as (t' & x & s' & E & C & H').
    destruct (IH _ _ _ _ _ _ H' Hr) as (t'' & xs & E' & C').
    exists t'', (x :: xs). cbn [t_run]. rewrite E, E'. cbn [history_ok]. auto.
Qed.
End Table.
