(** Proofs about action profiles shared by indirect tables: the whole system. *)
From Coq Require Import List Arith NArith ZArith Bool Lia Sorted.
From Verif Require Import Base Bits HandleMgrModel HandleMgrSpec HandleMgrProofs EntryListModel
  MatchUnitModel MatchUnitSpec MatchUnitProofs MatchUnitConseq TableModel TableSpec ProfileModel
  ProfileSpec ProfileProofs ProfileProofs2.
Import ListNotations.

Lemma nth_ex {A} (l : list A) i n : length l = n -> i < n -> exists x, nth_error l i = Some x.
Proof. intros <- H. destruct (nth_error l i) eqn:E; eauto. apply nth_error_None in E. lia. Qed.

Section World.
Variables (np : nat -> nat) (cs : list itcfg).
Hypothesis CO : cfg_ok cs.

Definition refs (s : wst) (x : idx) : nat := trefs cs (tabs s) x + grefs gmax (g_of s) x.

Definition tabR (c : itcfg) (t : itab) (sd : stab idx * option idx) : Prop :=
  (exists last, MR (ic_kd c) (ic_nb c) (ic_size c) (ic_cache c) last (it_unit t) (fst sd)) /\
  inv (ic_kd c) (ic_nb c) (ic_size c) (fst sd) /\ it_def t = snd sd.

Record WR (w : world) (s : wst) : Prop := {
  wr_p : PR (w_prof w) (m_of s) (g_of s) (refs s);
  wr_len : length (tabs s) = length cs;
  wr_lenw : length (w_tabs w) = length cs;
  wr_tab : forall j c t sd, nth_error cs j = Some c -> nth_error (w_tabs w) j = Some t ->
             nth_error (tabs s) j = Some sd -> tabR c t sd;
  wr_sort : forall g l, g_of s g = Some l -> StronglySorted lt l;
  wr_glt : forall g, g_of s g <> None -> g < gmax;
  wr_ref : forall x, 0 < refs s x -> tgt (m_of s) (g_of s) x;
  wr_mlt : forall m, m_of s m <> None -> m < gmax }.

Lemma cfg_size c j : nth_error cs j = Some c -> (N.of_nat (ic_size c) <= 2 ^ 24)%N.
Proof. intros E. destruct CO as [F _]. apply nth_error_In in E. apply (proj1 (Forall_forall _ _) F) in E. apply E. Qed.

Lemma refs_bound s x : (N.of_nat (S (refs s x)) < 2 ^ 32)%N.
Proof.
  destruct CO as [_ B]. pose proof (trefs_bound cs (tabs s) x) as T.
  assert (Gb : grefs gmax (g_of s) x <= gmax) by (destruct x; cbn; [apply cnt_le|lia]).
  unfold refs. pose proof gmax_N as G. unfold index_limit in G. change (2 ^ 24)%N with 16777216%N in B. lia.
Qed.

Lemma trefs_repeat x : forall cs' n, trefs cs' (repeat (@tab_empty idx, None) n) x = 0.
Proof.
  induction cs' as [|c cs' IH]; intros [|n]; cbn [trefs repeat]; auto. rewrite IH. unfold tref1; cbn [fst snd].
  assert (H : cnt (slot_is (@tab_empty idx) x) (ic_size c) = 0).
  { generalize (ic_size c). induction n0; auto. rewrite cnt_S, IHn0. reflexivity. }
  rewrite H. reflexivity.
Qed.

Lemma cnt_false n : cnt (fun _ => false) n = 0.
Proof. induction n; auto. rewrite cnt_S, IHn. reflexivity. Qed.

Lemma WR_new : WR (w_new cs) (wst0 (length cs)).
Proof.
  assert (Z : forall x, refs (wst0 (length cs)) x = 0).
  { intros x. unfold refs, wst0; cbn [tabs g_of]. rewrite trefs_repeat. destruct x; cbn [grefs]; auto. apply cnt_false. }
  constructor; cbn [w_prof w_tabs w_new wst0 m_of g_of tabs]; try (intros; discriminate).
  - apply PR_empty.
  - apply repeat_length.
  - apply map_length.
  - intros j c t sd E1 E2 E3. rewrite nth_error_map, E1 in E2. injection E2 as <-.
    apply nth_error_In, repeat_spec in E3. subst sd. split; [exists 0%N; apply MR_new; eapply cfg_size; eauto|].
    split; [apply inv_empty|reflexivity].
  - congruence.
  - intros x H. rewrite Z in H. lia.
  - congruence.
Qed.

Lemma designated_refs w s x : WR w s -> (designated s x <-> 0 < refs s x).
Proof.
  intros H. split.
  - intros D. unfold refs.
    assert (T : forall j t d i e, nth_error (tabs s) j = Some (t, d) -> slot_of t i = Some e -> s_val e = x -> 0 < trefs cs (tabs s) x).
    { intros j t d i e E1 E2 E3. apply trefs_pos; [apply (wr_len _ _ H)|].
      destruct (nth_ex cs j _ eq_refl) as (c & Ec). { rewrite <- (wr_len _ _ H). apply nth_error_Some. congruence. }
      destruct (nth_ex (w_tabs w) j _ (wr_lenw _ _ H)) as (t' & Et). { apply nth_error_Some. congruence. }
      destruct (wr_tab _ _ H _ _ _ _ Ec Et E1) as (_ & I & _). exists j, c, t, d. split; auto. split; auto.
      left. exists i, e. split; [apply (iv_lt _ _ _ _ I); cbn; congruence|auto]. }
    destruct D as [j t d i e E1 E2 E3|j t E1|m g l -> E1 E2].
    + specialize (T _ _ _ _ _ E1 E2 E3). lia.
    + assert (0 < trefs cs (tabs s) x); [|lia]. apply trefs_pos; [apply (wr_len _ _ H)|].
      destruct (nth_ex cs j _ eq_refl) as (c & Ec). { rewrite <- (wr_len _ _ H). apply nth_error_Some. congruence. }
      exists j, c, t, (Some x). auto.
    + assert (0 < grefs gmax (g_of s) (Mbr m)); [|lia]. cbn [grefs]. apply cnt_pos. exists g.
      split; [apply (wr_glt _ _ H); congruence|]. rewrite E1. apply set_mem_In. auto.
  - unfold refs. intros L. destruct (Nat.eq_dec (trefs cs (tabs s) x) 0) as [Z|Z].
    + destruct x as [m|g]; cbn [grefs] in L; [|lia].
      destruct (proj1 (cnt_pos (fun g => match g_of s g with Some l => set_mem m l | None => false end) gmax) ltac:(lia)) as (g & _ & Q).
      destruct (g_of s g) as [l|] eqn:E; [|discriminate]. apply set_mem_In in Q. eapply by_group; eauto.
    + destruct (proj1 (trefs_pos cs (tabs s) x (wr_len _ _ H)) ltac:(lia)) as (j & c & t & d & E1 & E2 & [(i & e & _ & E3 & E4)| ->]).
      * eapply by_entry; eauto.
      * eapply by_default; eauto.
Qed.

Lemma refs_set_t s j c sd sd' x : nth_error cs j = Some c -> nth_error (tabs s) j = Some sd ->
  refs (set_t s j sd') x + tref1 c sd x = refs s x + tref1 c sd' x.
Proof.
  intros E F. unfold refs, set_t; cbn [tabs g_of]. rewrite replace_list_set.
  pose proof (trefs_upd cs (tabs s) j c sd sd' x E F). lia.
Qed.

Lemma WR_set_t w s j c t sd t' sd' p' : WR w s -> nth_error cs j = Some c -> nth_error (w_tabs w) j = Some t ->
  nth_error (tabs s) j = Some sd -> tabR c t' sd' ->
  PR p' (m_of s) (g_of s) (refs (set_t s j sd')) ->
  (forall x, refs s x < refs (set_t s j sd') x -> tgt (m_of s) (g_of s) x) ->
  WR (set_tab w j p' t') (set_t s j sd').
Proof.
  intros H Ec Et Es T P L. constructor; cbn [w_prof w_tabs set_tab set_t m_of g_of tabs]; auto.
  - rewrite replace_list_set, list_set_length. apply (wr_len _ _ H).
  - rewrite list_set_length. apply (wr_lenw _ _ H).
  - intros j' c' t0 sd0 E1 E2 E3. rewrite replace_list_set in E3. destruct (Nat.eq_dec j' j) as [->|N].
    + rewrite nth_error_list_set_eq in E2 by (apply nth_error_Some; congruence).
      rewrite nth_error_list_set_eq in E3 by (apply nth_error_Some; congruence). congruence.
    + rewrite nth_error_list_set_neq in E2 by auto. rewrite nth_error_list_set_neq in E3 by auto.
      eapply (wr_tab _ _ H); eauto.
  - apply (wr_sort _ _ H).
  - apply (wr_glt _ _ H).
  - intros x Hx. destruct (Nat.lt_ge_cases (refs s x) (refs (set_t s j sd') x)); auto.
    apply (wr_ref _ _ H). change (refs (mkWst _ _ _) x) with (refs (set_t s j sd') x) in Hx. lia.
  - apply (wr_mlt _ _ H).
Qed.

(** A call on one table's entry store. *)
Lemma tab_unit c t sd j o : nth_error cs j = Some c -> tabR c t sd ->
  (forall last, ops_ok (ic_kd c) (ic_nb c) last [o]) ->
  exists u' x st', mu_step (ic_kd c) (ic_nb c) (it_unit t) o = Some (u', x) /\
    mspec_step (ic_kd c) (ic_nb c) (ic_size c) (fst sd) o x st' /\
    (forall d, tabR c (mkIT u' d) (st', d)).
Proof.
  intros Ec ((last & M) & I & D) O.
  destruct (step_ok (ic_kd c) (ic_nb c) (ic_size c) (ic_cache c) (cfg_size _ _ Ec) last (it_unit t) (fst sd) o [] M (O last))
    as (u' & x & st' & E & Sp & M').
  exists u', x, st'. split; auto. split; auto. intros d. split; [|split; auto].
  - exists (N.max last (op_time o)). exact M'.
  - cbn [fst]. eapply (step_inv _ _ _ last o []); eauto.
Qed.

Lemma bad_code_spec s x : match bad_code (m_of s) (g_of s) x with
  | Some e => bad_target s x e | None => good_target s x end.
Proof.
  destruct x as [m|g]; cbn.
  - destruct (m_of s m) eqn:E; [eapply gt_mbr; eauto|apply bt_mbr; auto].
  - destruct (g_of s g) as [[|y l]|] eqn:E; [apply bt_empty; auto| |apply bt_grp; auto].
    eapply gt_grp; eauto. discriminate.
Qed.
Lemma good_tgt s x : good_target s x -> tgt (m_of s) (g_of s) x.
Proof. intros [m a E|g l E N]; cbn; congruence. Qed.

Lemma tab_at w s j : WR w s -> j < length cs -> exists c t st d, nth_error cs j = Some c /\
  nth_error (w_tabs w) j = Some t /\ nth_error (tabs s) j = Some (st, d) /\ tabR c t (st, d) /\ it_def t = d.
Proof.
  intros H L. destruct (nth_ex cs j _ eq_refl L) as (c & Ec).
  destruct (nth_ex (w_tabs w) j _ (wr_lenw _ _ H) L) as (t & Et).
  destruct (nth_ex (tabs s) j _ (wr_len _ _ H) L) as ([st d] & Es).
  exists c, t, st, d. pose proof (wr_tab _ _ H _ _ _ _ Ec Et Es) as T. repeat (split; auto). apply T.
Qed.

Lemma on_tab_eq w j c t f : nth_error cs j = Some c -> nth_error (w_tabs w) j = Some t -> on_tab cs w j f = f c t.
Proof. intros A B. unfold on_tab. rewrite A, B. reflexivity. Qed.

Definition sim (w : world) (s : wst) (o : pop) : Prop :=
  exists w' x s', w_step np cs w o = Some (w', x) /\ pspec_step np cs s o x s' /\ (~ dirty o x -> WR w' s').

Lemma WR_same w s : WR w s -> forall p, PR p (m_of s) (g_of s) (refs s) -> WR (mkW p (w_tabs w)) s.
Proof. intros [A B C D E F G MB] p P. constructor; auto. Qed.

Lemma b2n_idx x y : b2n (idx_eqb x y) = if idx_eqb x y then 1 else 0. Proof. reflexivity. Qed.

Lemma sim_add w s j now k x : WR w s -> pop_ok cs (IAdd j now k x) -> sim w s (IAdd j now k x).
Proof.
  intros H (c & Ec & KO). unfold sim; cbn [w_step].
  assert (Lj : j < length cs) by (apply nth_error_Some; congruence).
  destruct (tab_at w s j H Lj) as (c' & t & st & d & Ec' & Et & Es & T & D). assert (c' = c) by congruence; subst c'.
  rewrite (on_tab_eq _ _ _ _ _ Ec Et). unfold i_add. rewrite (PR_check _ _ _ _ x (wr_p _ _ H)).
  pose proof (bad_code_spec s x) as B. destruct (bad_code (m_of s) (g_of s) x) as [e|].
  { do 3 eexists. split; [reflexivity|]. split; [apply is_add_bad; auto|auto]. }
  pose proof (good_tgt _ _ B) as TG.
  destruct (PR_inc _ _ _ _ x (wr_p _ _ H) TG (refs_bound s x)) as (p' & -> & P').
  destruct k as [k|].
  2:{ do 3 eexists. split; [reflexivity|]. split; [apply is_add_key; auto|]. cbn. tauto. }
  destruct (tab_unit c t (st, d) j (MAdd now k x) Ec T) as (u' & o & st' & E & Sp & T').
  { intros last. cbn. split; auto. }
  cbn [mu_step] in E. rewrite E. cbn [fst] in Sp. inversion Sp; subst.
  - do 3 eexists. split; [reflexivity|]. split; [eapply is_add_fail; eauto|]. cbn. tauto.
  - do 3 eexists. split; [reflexivity|]. split; [eapply is_add_fail; eauto|]. cbn. tauto.
  - do 3 eexists. split; [reflexivity|]. split; [eapply is_add; eauto|]. intros _.
    assert (RF : forall y, refs (set_t s j (mkTab (set_slot (slot_of st) i (Some (mkSent k x now 0 0))) (gen st) (ttl st), it_def t)) y
                 = refs s y + b2n (idx_eqb x y)).
    { intros y. pose proof (refs_set_t s j c (st, it_def t) (mkTab (set_slot (slot_of st) i (Some (mkSent k x now 0 0))) (gen st) (ttl st), it_def t) y Ec Es) as Q.
      pose proof (tref1_set c st (it_def t) i (Some (mkSent k x now 0 0)) y (gen st) (ttl st) ltac:(auto)) as Q2.
      cbn [s_val] in Q2. unfold slot_is in Q2. match goal with Z : slot_of st i = None |- _ => rewrite Z in Q2 end. cbn [b2n] in Q2. lia. }
    apply WR_set_t with (c := c) (t := t) (sd := (st, it_def t)); auto.
    + eapply PR_ext; [exact P'|]. intros y _. rewrite RF. unfold cset, b2n.
      destruct (idx_eqb y x) eqn:Q.
      * apply idx_eqb_eq in Q. subst y. rewrite idx_eqb_refl. lia.
      * destruct (idx_eqb x y) eqn:Q2; [apply idx_eqb_eq in Q2; subst y; rewrite idx_eqb_refl in Q; discriminate|lia].
    + intros y. rewrite RF. unfold b2n. destruct (idx_eqb x y) eqn:Q; [|lia]. apply idx_eqb_eq in Q. subst y. auto.
Qed.

Lemma refs_of_slot w s j c t st d i e : WR w s -> nth_error cs j = Some c -> nth_error (w_tabs w) j = Some t ->
  nth_error (tabs s) j = Some (st, d) ->
  slot_of st i = Some e -> 0 < refs s (s_val e) /\ i < ic_size c.
Proof.
  intros H Ec Et Es S1. split.
  - apply (designated_refs w); auto. eapply by_entry; eauto.
  - destruct (wr_tab _ _ H _ _ _ _ Ec Et Es) as (_ & I & _). apply (iv_lt _ _ _ _ I). cbn. congruence.
Qed.

Lemma sim_del w s j h : WR w s -> pop_ok cs (IDel j h) -> sim w s (IDel j h).
Proof.
  intros H (Lj & Hh). unfold sim; cbn [w_step].
  destruct (tab_at w s j H Lj) as (c & t & st & d & Ec & Et & Es & T & D).
  rewrite (on_tab_eq _ _ _ _ _ Ec Et). unfold i_del.
  destruct (tab_unit c t (st, d) j (MGet h) Ec T) as (u' & o & st' & E & Sp & T'). { intros last. cbn. auto. }
  cbn [mu_step] in E. rewrite E. cbn [fst] in Sp. inversion Sp; subst.
  - do 3 eexists. split; [reflexivity|]. split; [eapply is_del_bad; eauto|]. auto.
  - match goal with Q : resolves _ _ _ |- _ => pose proof Q as RS; apply resolves_slot in Q; destruct Q as (S1 & Hi & HG) end.
    destruct (refs_of_slot w s j c t st' (it_def t) i e H Ec Et Es S1) as [RP IL].
    destruct (refs s (s_val e)) as [|k] eqn:RK; [lia|].
    destruct (PR_dec _ _ _ _ (s_val e) k (wr_p _ _ H) (wr_ref _ _ H (s_val e) ltac:(lia)) RK) as (p' & -> & P').
    { rewrite <- RK. pose proof (refs_bound s (s_val e)). lia. }
    destruct (tab_unit c t (st', it_def t) j (MDel h) Ec T) as (u2 & o2 & st2 & E2 & Sp2 & T2). { intros last. cbn. auto. }
    cbn [mu_step] in E2. rewrite E2. cbn [fst] in Sp2. inversion Sp2; subst.
    + match goal with Q : resolves _ _ (inl _) |- _ => pose proof (resolves_det _ _ _ _ Q RS); discriminate end.
    + match goal with Q : resolves st' h (inr (i0, e0)) |- _ => pose proof (resolves_det _ _ _ _ Q RS) as DD; injection DD as -> -> end.
      do 3 eexists. split; [reflexivity|]. split; [eapply is_del; eauto|]. intros _.
      match goal with |- WR _ (set_t _ _ (?tb, _)) => set (tb' := tb) end.
      assert (RF : forall y, refs (set_t s j (tb', it_def t)) y + b2n (idx_eqb (s_val e) y) = refs s y).
      { intros y. pose proof (refs_set_t s j c (st', it_def t) (tb', it_def t) y Ec Es) as Q.
        pose proof (tref1_set c st' (it_def t) (h_slot h) None y (fun j0 => if j0 =? h_slot h then S (gen st' (h_slot h)) else gen st' j0) (ttl st') IL) as Q2.
        fold tb' in Q2. cbn [b2n] in Q2. unfold slot_is in Q2. rewrite S1 in Q2. lia. }
      apply WR_set_t with (c := c) (t := t) (sd := (st', it_def t)); auto.
      * eapply PR_ext; [exact P'|]. intros y _. specialize (RF y). unfold cset, b2n in *.
        destruct (idx_eqb y (s_val e)) eqn:Q.
        -- apply idx_eqb_eq in Q. subst y. rewrite idx_eqb_refl in RF. lia.
        -- destruct (idx_eqb (s_val e) y) eqn:Q2; [apply idx_eqb_eq in Q2; subst y; rewrite idx_eqb_refl in Q; discriminate|lia].
      * intros y. specialize (RF y). lia.
Qed.

Lemma cset_b2n c x n y : cset c x n y + b2n (idx_eqb x y) * c x = c y + b2n (idx_eqb x y) * n.
Proof.
  unfold cset. destruct (idx_eqb y x) eqn:Q.
  - apply idx_eqb_eq in Q. subst y. rewrite idx_eqb_refl. cbn [b2n]. lia.
  - destruct (idx_eqb x y) eqn:Q2; cbn [b2n]; [apply idx_eqb_eq in Q2; subst y; rewrite idx_eqb_refl in Q; discriminate|lia].
Qed.

(** Move one reference from [a] to [b]. *)
Lemma PR_move p M G c a b k : PR p M G c -> tgt M G a -> tgt M G b -> c a = S k ->
  (forall x, (N.of_nat (S (c x)) < 2 ^ 32)%N) ->
  exists p1 p2, ref_dec p a = Some p1 /\ PR p1 M G (cset c a k) /\ ref_inc p1 b = Some p2 /\
   exists c', PR p2 M G c' /\ forall x, c' x + b2n (idx_eqb a x) = c x + b2n (idx_eqb b x).
Proof.
  intros P A B E L.
  destruct (PR_dec _ _ _ _ a k P A E) as (p1 & E1 & P1). { specialize (L a). lia. }
  destruct (PR_inc _ _ _ _ b P1 B) as (p2 & E2 & P2).
  { pose proof (cset_b2n c a k b). pose proof (L b). destruct (idx_eqb a b); cbn [b2n] in *; lia. }
  exists p1, p2. split; auto. split; auto. split; auto. eexists. split; [exact P2|]. intros x.
  pose proof (cset_b2n c a k b) as Q0. pose proof (cset_b2n c a k x) as Q1.
  pose proof (cset_b2n (cset c a k) b (S (cset c a k b)) x) as Q2. 
  destruct (idx_eqb a x) eqn:X1; destruct (idx_eqb b x) eqn:X2; cbn [b2n] in *; rewrite ?X1, ?X2 in *; try lia.
Qed.

Lemma sim_mod w s j h x : WR w s -> pop_ok cs (IMod j h x) -> sim w s (IMod j h x).
Proof.
  intros H (Lj & Hh). unfold sim; cbn [w_step].
  destruct (tab_at w s j H Lj) as (c & t & st & d & Ec & Et & Es & T & D).
  rewrite (on_tab_eq _ _ _ _ _ Ec Et). unfold i_mod.
  destruct (tab_unit c t (st, d) j (MGet h) Ec T) as (u' & o & st' & E & Sp & T'). { intros last. cbn. auto. }
  cbn [mu_step] in E. rewrite E. cbn [fst] in Sp. inversion Sp; subst.
  - do 3 eexists. split; [reflexivity|]. split; [eapply is_mod_bad; eauto|]. auto.
  - match goal with Q : resolves _ _ _ |- _ => pose proof Q as RS; apply resolves_slot in Q; destruct Q as (S1 & Hi & HG) end.
    destruct (refs_of_slot w s j c t st' (it_def t) i e H Ec Et Es S1) as [RP IL].
    destruct (refs s (s_val e)) as [|k] eqn:RK; [lia|].
    pose proof (wr_ref _ _ H (s_val e) ltac:(lia)) as TG0.
    pose proof (bad_code_spec s x) as B. destruct (bad_code (m_of s) (g_of s) x) as [e'|] eqn:BC.
    { destruct (PR_dec _ _ _ _ (s_val e) k (wr_p _ _ H) TG0 RK) as (p' & -> & P').
      { rewrite <- RK. pose proof (refs_bound s (s_val e)). lia. }
      rewrite (PR_check _ _ _ _ x P'), BC. do 3 eexists. split; [reflexivity|]. split; [eapply is_mod_target; eauto|].
      intros ND. exfalso. apply ND. destruct B; cbn; auto. }
    pose proof (good_tgt _ _ B) as TG.
    destruct (PR_move _ _ _ _ (s_val e) x k (wr_p _ _ H) TG0 TG RK (refs_bound s)) as (p1 & p2 & -> & P1 & E2 & c' & P2 & CE).
    rewrite (PR_check _ _ _ _ x P1), BC, E2.
    destruct (tab_unit c t (st', it_def t) j (MMod h x) Ec T) as (u2 & o2 & st2 & E3 & Sp2 & T2). { intros last. cbn. auto. }
    cbn [mu_step] in E3. rewrite E3. cbn [fst] in Sp2. inversion Sp2; subst.
    + match goal with Q : resolves _ _ (inl _) |- _ => pose proof (resolves_det _ _ _ _ Q RS); discriminate end.
    + match goal with Q : resolves st' h (inr (i0, e0)) |- _ => pose proof (resolves_det _ _ _ _ Q RS) as DD; injection DD as -> -> end.
      do 3 eexists. split; [reflexivity|]. split; [eapply is_mod; eauto|]. intros _.
      match goal with |- WR _ (set_t _ _ (?tb, _)) => set (tb' := tb) end.
      assert (RF : forall y, refs (set_t s j (tb', it_def t)) y + b2n (idx_eqb (s_val e) y) = refs s y + b2n (idx_eqb x y)).
      { intros y. pose proof (refs_set_t s j c (st', it_def t) (tb', it_def t) y Ec Es) as Q.
        pose proof (tref1_set c st' (it_def t) (h_slot h) (Some (mkSent (s_key e) x (s_ts e) (s_bytes e) (s_pkts e))) y (gen st') (ttl st') IL) as Q2.
        fold tb' in Q2. unfold slot_is in Q2. rewrite S1 in Q2. cbn [s_val] in Q2. lia. }
      apply WR_set_t with (c := c) (t := t) (sd := (st', it_def t)); auto.
      * eapply PR_ext; [exact P2|]. intros y _. specialize (RF y). specialize (CE y). lia.
      * intros y. specialize (RF y). destruct (idx_eqb x y) eqn:Q; cbn [b2n] in RF; [|lia]. apply idx_eqb_eq in Q. subst y. auto.
Qed.

Lemma tref1_def c st d d' y : tref1 c (st, d') y + b2n (def_is d y) = tref1 c (st, d) y + b2n (def_is d' y).
Proof. unfold tref1; cbn [fst snd]. lia. Qed.

Lemma def_tgt w s j st x : WR w s -> nth_error (tabs s) j = Some (st, Some x) ->
  tgt (m_of s) (g_of s) x /\ 0 < refs s x.
Proof.
  intros H E. assert (0 < refs s x) by (apply (designated_refs w); auto; eapply by_default; eauto).
  split; auto. apply (wr_ref _ _ H). auto.
Qed.

Lemma sim_resetd w s j : WR w s -> pop_ok cs (IResetDefault j) -> sim w s (IResetDefault j).
Proof.
  intros H Lj. unfold sim; cbn [w_step].
  destruct (tab_at w s j H Lj) as (c & t & st & d & Ec & Et & Es & T & D).
  rewrite (on_tab_eq _ _ _ _ _ Ec Et). unfold i_reset_default.
  assert (RF : forall y, refs (set_t s j (st, None)) y + b2n (def_is d y) = refs s y).
  { intros y. pose proof (refs_set_t s j c (st, d) (st, None) y Ec Es). pose proof (tref1_def c st d None y). cbn [def_is b2n] in *. lia. }
  assert (T' : tabR c (mkIT (it_unit t) None) (st, None)) by (destruct T as (A & B & _); split; [|split]; auto).
  rewrite D. destruct d as [x|]; cbn [drop_default].
  - destruct (def_tgt w s j st x H Es) as [TG RP]. destruct (refs s x) as [|k] eqn:RK; [lia|].
    destruct (PR_dec _ _ _ _ x k (wr_p _ _ H) TG RK) as (p' & -> & P'). { rewrite <- RK. pose proof (refs_bound s x). lia. }
    do 3 eexists. split; [reflexivity|]. split; [eapply is_resetd; eauto|]. intros _.
    eapply WR_set_t; eauto.
    + eapply PR_ext; [exact P'|]. intros y _. specialize (RF y). pose proof (cset_b2n (refs s) x k y). cbn [def_is] in RF.
      destruct (idx_eqb x y) eqn:Q; cbn [b2n] in *; [|lia]. apply idx_eqb_eq in Q; subst y. lia.
    + intros y. specialize (RF y). lia.
  - do 3 eexists. split; [reflexivity|]. split; [eapply is_resetd; eauto|]. intros _.
    eapply WR_set_t; eauto.
    + eapply PR_ext; [exact (wr_p _ _ H)|]. intros y _. specialize (RF y). cbn [def_is b2n] in RF. lia.
    + intros y. specialize (RF y). lia.
Qed.

Lemma sim_setd w s j x : WR w s -> pop_ok cs (ISetDefault j x) -> sim w s (ISetDefault j x).
Proof.
  intros H Lj. unfold sim; cbn [w_step].
  destruct (tab_at w s j H Lj) as (c & t & st & d & Ec & Et & Es & T & D).
  rewrite (on_tab_eq _ _ _ _ _ Ec Et). unfold i_set_default.
  destruct (c_const_entry (ic_cfg c)) eqn:CE.
  { do 3 eexists. split; [reflexivity|]. split; [eapply is_setd_const; eauto|auto]. }
  rewrite (PR_valid_idx _ _ _ _ x (wr_p _ _ H)).
  assert (V : {e | (match x with Mbr m => if some (m_of s m) then None else Some PInvalidMbr
                   | Grp g => if some (g_of s g) then None else Some PInvalidGrp end) = Some e /\ pspec_step np cs s (ISetDefault j x) (PErr e) s}
            + {(match x with Mbr m => if some (m_of s m) then None else Some PInvalidMbr
                   | Grp g => if some (g_of s g) then None else Some PInvalidGrp end) = None /\ tgt (m_of s) (g_of s) x}).
  { destruct x as [m|g]; cbn [tgt].
    - destruct (m_of s m) eqn:Q; cbn [some]; [right; split; congruence|left; eexists; split; [reflexivity|eapply is_setd_mbr; eauto]].
    - destruct (g_of s g) eqn:Q; cbn [some]; [right; split; congruence|left; eexists; split; [reflexivity|eapply is_setd_grp; eauto]]. }
  destruct V as [(e & -> & SP)|(-> & TG)].
  { do 3 eexists. split; [reflexivity|]. split; [exact SP|auto]. }
  assert (RF : forall y, refs (set_t s j (st, Some x)) y + b2n (def_is d y) = refs s y + b2n (idx_eqb x y)).
  { intros y. pose proof (refs_set_t s j c (st, d) (st, Some x) y Ec Es). pose proof (tref1_def c st d (Some x) y). cbn [def_is] in *. lia. }
  assert (T' : tabR c (mkIT (it_unit t) (Some x)) (st, Some x)) by (destruct T as (A & B & _); split; [|split]; auto).
  assert (SP : pspec_step np cs s (ISetDefault j x) POk (set_t s j (st, Some x))).
  { eapply is_setd; eauto. }
  assert (TT : forall y, refs s y < refs (set_t s j (st, Some x)) y -> tgt (m_of s) (g_of s) y).
  { intros y. specialize (RF y). destruct (idx_eqb x y) eqn:Q; cbn [b2n] in RF; [|lia]. apply idx_eqb_eq in Q. subst y. auto. }
  rewrite D. destruct d as [x0|]; cbn [drop_default].
  - destruct (def_tgt w s j st x0 H Es) as [TG0 RP]. destruct (refs s x0) as [|k] eqn:RK; [lia|].
    destruct (PR_move _ _ _ _ x0 x k (wr_p _ _ H) TG0 TG RK (refs_bound s)) as (p1 & p2 & -> & P1 & -> & c' & P2 & CE').
    do 3 eexists. split; [reflexivity|]. split; [exact SP|]. intros _.
    eapply WR_set_t; eauto.
    eapply PR_ext; [exact P2|]. intros y _. specialize (RF y). specialize (CE' y). cbn [def_is] in RF. lia.
  - destruct (PR_inc _ _ _ _ x (wr_p _ _ H) TG (refs_bound s x)) as (p' & -> & P').
    do 3 eexists. split; [reflexivity|]. split; [exact SP|]. intros _.
    eapply WR_set_t; eauto.
    eapply PR_ext; [exact P'|]. intros y _. specialize (RF y). pose proof (cset_b2n (refs s) x (S (refs s x)) y).
    destruct (idx_eqb x y) eqn:Q; cbn [b2n def_is] in *; [|lia]. apply idx_eqb_eq in Q; subst y. lia.
Qed.

Lemma sim_get w s j h : WR w s -> pop_ok cs (IGet j h) -> sim w s (IGet j h).
Proof.
  intros H (Lj & Hh). unfold sim; cbn [w_step].
  destruct (tab_at w s j H Lj) as (c & t & st & d & Ec & Et & Es & T & D).
  rewrite (on_tab_eq _ _ _ _ _ Ec Et). unfold i_get.
  destruct (tab_unit c t (st, d) j (MGet h) Ec T) as (u' & o & st' & E & Sp & T'). { intros last. cbn. auto. }
  cbn [mu_step] in E. rewrite E. cbn [fst] in Sp. inversion Sp; subst.
  - do 3 eexists. split; [reflexivity|]. split; [eapply is_get_bad; eauto|]. auto.
  - do 3 eexists. split; [reflexivity|]. split; [eapply is_get; eauto|]. auto.
Qed.
End World.
