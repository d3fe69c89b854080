(** Proofs about action profiles shared by indirect tables: remaining calls, and histories. *)
From Coq Require Import List Arith NArith ZArith Bool Lia Sorted.
From Verif Require Import Base Bits HandleMgrModel HandleMgrSpec HandleMgrProofs EntryListModel
  MatchUnitModel MatchUnitSpec MatchUnitProofs MatchUnitConseq TableModel TableSpec ProfileModel
  ProfileSpec ProfileProofs ProfileProofs2 ProfileProofs3.
Import ListNotations.

Section World.
Variables (np : nat -> nat) (cs : list itcfg).
Hypothesis CO : cfg_ok cs.
Notation WR := (WR cs).
Notation refs := (refs cs).
Notation sim := (sim np cs).

Lemma sim_getd w s j : WR w s -> pop_ok cs (IGetDefault j) -> sim w s (IGetDefault j).
Proof.
  intros H Lj. unfold ProfileProofs3.sim; cbn [w_step].
  destruct (tab_at cs w s j H Lj) as (c & t & st & d & Ec & Et & Es & T & D).
  rewrite (on_tab_eq cs _ _ _ _ _ Ec Et). unfold i_get_default. rewrite D.
  destruct d as [x|]; do 3 eexists; (split; [reflexivity|]).
  - split; [eapply is_getd; eauto|auto].
  - split; [eapply is_getd_no; eauto|auto].
Qed.

Lemma sim_clear w s j rd : WR w s -> pop_ok cs (IClear j rd) -> sim w s (IClear j rd).
Proof.
  intros H Lj. unfold ProfileProofs3.sim; cbn [w_step].
  destruct (tab_at cs w s j H Lj) as (c & t & st & d & Ec & Et & Es & T & D).
  rewrite (on_tab_eq cs _ _ _ _ _ Ec Et).
  do 3 eexists; (split; [reflexivity|]); (split; [|]).
  - eapply is_clear; eauto.
  - cbn. tauto.
Qed.

Lemma land24 h : N.land h 16777215 = (h mod 2 ^ 24)%N.
Proof. change 16777215%N with (N.ones 24). apply N.land_ones. Qed.

Lemma handle_low st c j i : nth_error cs j = Some c -> i < ic_size c ->
  N.land (@handle_of idx st i) 16777215 = N.of_nat i.
Proof.
  intros Ec L. rewrite land24. unfold handle_of. apply mod24. pose proof (cfg_size cs CO c j Ec). lia.
Qed.

Lemma group_members_live w s : WR w s -> forall g l m, g_of s g = Some l -> In m l -> m_of s m <> None.
Proof.
  intros H g l m E I. change (tgt (m_of s) (g_of s) (Mbr m)). apply (wr_ref _ _ _ H).
  apply (designated_refs cs w); auto. eapply by_group; eauto.
Qed.

Lemma empty_idx_spec w s x : WR w s -> tgt (m_of s) (g_of s) x ->
  (exists g, x = Grp g /\ g_of s g = Some [] /\ empty_idx (w_prof w) x = Some true) \/
  (bad_code (m_of s) (g_of s) x = None /\ empty_idx (w_prof w) x = Some false).
Proof.
  intros H T. destruct x as [m|g]; cbn in *.
  - right. destruct (m_of s m); [auto|congruence].
  - destruct (g_of s g) as [l|] eqn:E; [|congruence]. rewrite (pr_gr _ _ _ _ (wr_p _ _ _ H) _ _ E).
    destruct l; [left; exists g; auto|right; auto].
Qed.

Lemma serve w s x hash : WR w s -> bad_code (m_of s) (g_of s) x = None ->
  exists a, p_lookup (w_prof w) x hash = Some a /\ serves s hash x a.
Proof.
  intros H B. destruct (PR_lookup _ _ _ _ x hash (wr_p _ _ _ H) B) as (a & E & Q).
  { intros g l m. apply (group_members_live w s H). }
  exists a. split; auto. destruct x as [m|g].
  - apply sv_mbr. auto.
  - destruct Q as (l & G1 & G2 & G3). eapply sv_grp; eauto.
Qed.

Lemma sim_apply w s j ts len key hash : WR w s -> pop_ok cs (IApply j ts len key hash) -> sim w s (IApply j ts len key hash).
Proof.
  intros H (c & Ec & KB & KL). unfold ProfileProofs3.sim; cbn [w_step].
  assert (Lj : j < length cs) by (apply nth_error_Some; congruence).
  destruct (tab_at cs w s j H Lj) as (c' & t & st & d & Ec' & Et & Es & T & D). assert (c' = c) by congruence; subst c'.
  rewrite (on_tab_eq cs _ _ _ _ _ Ec Et). unfold i_apply.
  destruct (tab_unit cs CO c t (st, d) j (MLookup ts len key) Ec T) as (u' & o & st' & E & Sp & T').
  { intros last. cbn. auto. }
  cbn [mu_step] in E. rewrite E. cbn [fst] in Sp. 
  assert (NN : forall fn, node_on_hit (ic_cfg c) fn <> None /\ node_on_miss (ic_cfg c) fn <> None).
  { destruct CO as [F _]. apply nth_error_In in Ec. apply (proj1 (Forall_forall _ _) F) in Ec. apply Ec. }
  inversion Sp; subst.
  - (* miss *)
    assert (W : WR (set_tab w j (w_prof w) (mkIT u' (it_def t))) s).
    { destruct H as [A B C F G I J MB]. constructor; cbn [set_tab w_prof w_tabs]; auto.
      - rewrite list_set_length; auto.
      - intros j' c1 t1 sd1 X1 X2 X3. destruct (Nat.eq_dec j' j) as [->|N].
        + rewrite nth_error_list_set_eq in X2 by (apply nth_error_Some; congruence).
          assert (sd1 = (st', it_def t)) by congruence. assert (c1 = c) by congruence. subst. injection X2 as <-. apply T'.
        + rewrite nth_error_list_set_neq in X2 by auto. eapply F; eauto. }
    destruct (it_def t) as [x|] eqn:DF.
    + destruct (def_tgt cs w s j st' x H Es) as [TG _].
      destruct (empty_idx_spec w s x H TG) as [(g & -> & GE & EI)|(BC & EI)]; rewrite EI.
      * do 3 eexists. split; [reflexivity|]. split; [eapply is_miss_empty; eauto|]. auto.
      * destruct (serve w s x hash H BC) as ([fn data] & -> & SV).
        destruct (NN fn) as [_ NM]. change (next_node_default (ic_cfg c) fn) with (node_on_miss (ic_cfg c) fn).
        destruct (node_on_miss (ic_cfg c) fn) as [nn|] eqn:EN; [|congruence].
        do 3 eexists. split; [reflexivity|]. split; [eapply is_miss_def; eauto|]. auto.
    + do 3 eexists. split; [reflexivity|]. split; [eapply is_miss; eauto|]. auto.
  - (* hit *)
    match goal with Q : lookup_answer _ _ _ _ _ |- _ => pose proof Q as LA; destruct Q as (S1 & _) end.
    destruct (refs_of_slot cs w s j c t st (it_def t) i e H Ec Et Es S1) as [RP IL].
    rewrite (handle_low st c j i Ec IL).
    match goal with |- context [set_tab w j (w_prof w) (mkIT u' (it_def t))] => idtac end.
    match type of Sp with mspec_step _ _ _ _ _ _ ?tb => set (tb' := tb) in * end.
    assert (W : WR (set_tab w j (w_prof w) (mkIT u' (it_def t))) (set_t s j (tb', it_def t))).
    { assert (RF : forall y, refs (set_t s j (tb', it_def t)) y = refs s y).
      { intros y. pose proof (refs_set_t cs s j c (st, it_def t) (tb', it_def t) y Ec Es) as Q.
        pose proof (tref1_set c st (it_def t) i (Some (mkSent (s_key e) (s_val e) ts ((s_bytes e + len) mod 2 ^ 64)%N ((s_pkts e + 1) mod 2 ^ 64)%N)) y (gen st) (ttl st) IL) as Q2.
        fold tb' in Q2. unfold slot_is in Q2. rewrite S1 in Q2. cbn [s_val] in Q2. lia. }
      eapply WR_set_t; eauto.
      - eapply PR_ext; [exact (wr_p _ _ _ H)|]. intros y _. rewrite RF. auto.
      - intros y. rewrite RF. lia. }
    destruct (empty_idx_spec w s (s_val e) H (wr_ref _ _ _ H (s_val e) RP)) as [(g & SV & GE & EI)|(BC & EI)]; rewrite EI.
    + do 3 eexists. split; [reflexivity|]. split; [eapply is_hit_empty; eauto|]. auto.
    + destruct (serve w s (s_val e) hash H BC) as ([fn data] & -> & SV).
      destruct (NN fn) as [NM _]. change (next_node (ic_cfg c) fn) with (node_on_hit (ic_cfg c) fn).
      destruct (node_on_hit (ic_cfg c) fn) as [nn|] eqn:EN; [|congruence].
      do 3 eexists. split; [reflexivity|]. split; [eapply is_hit; eauto|]. auto.
Qed.

(** ** Profile calls *)
Lemma set_m_refs s m o x : refs (set_m s m o) x = refs s x. Proof. reflexivity. Qed.

Definition gin (o : option (list nat)) (x : idx) : bool :=
  match o, x with Some l, Mbr m => set_mem m l | _, _ => false end.
Lemma set_g_refs s g o x : g < gmax ->
  refs (set_g s g o) x + b2n (gin (g_of s g) x) = refs s x + b2n (gin o x).
Proof.
  intros L. unfold ProfileProofs3.refs, set_g; cbn [tabs g_of]. destruct x as [m|g']; cbn [grefs].
  2:{ assert (Z : forall o, gin o (Grp g') = false) by (intros [?|]; auto). rewrite !Z. lia. }
  pose proof (cnt_upd (fun g0 => match g_of s g0 with Some l => set_mem m l | None => false end)
                      (fun g0 => match upd (g_of s) g o g0 with Some l => set_mem m l | None => false end) gmax g L) as Q.
  cbv beta in Q. assert (U : upd (g_of s) g o g = o) by (unfold upd; rewrite Nat.eqb_refl; auto). rewrite U in Q.
  change (match o with Some l => set_mem m l | None => false end) with (gin o (Mbr m)) in Q.
  change (match g_of s g with Some l => set_mem m l | None => false end) with (gin (g_of s g) (Mbr m)) in Q.
  assert (X : forall j, j <> g -> match g_of s j with Some l => set_mem m l | None => false end =
     match upd (g_of s) g o j with Some l => set_mem m l | None => false end).
  { intros j N. unfold upd. destruct (Nat.eqb_spec j g); [congruence|auto]. }
  specialize (Q X). lia.
Qed.

Lemma dead_refs w s x : WR w s -> ~ tgt (m_of s) (g_of s) x -> refs s x = 0.
Proof. intros H N. destruct (refs s x) eqn:E; auto. exfalso. apply N, (wr_ref _ _ _ H). lia. Qed.

Lemma sim_addm w s fn data : WR w s -> sim w s (PAddMember fn data).
Proof.
  intros H. unfold ProfileProofs3.sim; cbn [w_step on_prof].
  destruct (Nat.eq_dec (length data) (np fn)) as [L|L].
  - destruct (PR_add_member _ _ _ _ fn data np (wr_p _ _ _ H) L) as [[-> F]|(m & p' & -> & F & K & LT & P')].
    { intros m Hm. apply (dead_refs w); auto. }
    + do 3 eexists. split; [reflexivity|]. split; [apply ps_addm_full; auto|]. intros _. apply WR_same; auto. apply (wr_p _ _ _ H).
    + do 3 eexists. split; [reflexivity|]. split; [apply ps_addm; eauto|]. intros _.
      destruct H as [A B C D X I J MB]. constructor; cbn [set_m m_of g_of tabs w_prof w_tabs]; auto.
      * intros [m'|g'] Q; [|apply (J (Grp g') Q)]. cbn. unfold upd. destruct (m' =? m); [congruence|]. apply (J (Mbr m') Q).
      * unfold upd. intros m'. destruct (Nat.eqb_spec m' m) as [->|]; auto. intros _.
        pose proof gmax_N as Q. unfold index_limit in Q. change (2 ^ 24)%N with 16777216%N in LT. lia.
  - unfold p_add_member. destruct (Nat.eqb_spec (length data) (np fn)); [congruence|]. cbn [negb on_prof].
    do 3 eexists. split; [reflexivity|]. split; [apply ps_addm_bad; auto|]. intros _. apply WR_same; auto. apply (wr_p _ _ _ H).
Qed.

Lemma WR_self w s : WR w s -> WR (mkW (w_prof w) (w_tabs w)) s.
Proof. intros H. apply WR_same; auto. apply (wr_p _ _ _ H). Qed.

Lemma sim_delm w s m : WR w s -> sim w s (PDelMember m).
Proof.
  intros H. unfold ProfileProofs3.sim; cbn [w_step on_prof].
  destruct (m_of s m) as [a|] eqn:E.
  - pose proof (PR_del_member _ _ _ _ m (wr_p _ _ _ H) ltac:(congruence)) as Q.
    destruct (Nat.eqb_spec (refs s (Mbr m)) 0) as [Z|Z].
    + destruct Q as (p' & -> & P'). do 3 eexists. split; [reflexivity|]. split.
      { apply ps_delm; [congruence|]. rewrite (designated_refs cs w) by auto. lia. }
      intros _. destruct H as [A B C D X I J MB]. constructor; cbn [set_m m_of g_of tabs w_prof w_tabs]; auto.
      * intros [m'|g'] Q; [|apply (J (Grp g') Q)]. cbn. unfold upd. destruct (Nat.eqb_spec m' m) as [->|N]; [|apply (J (Mbr m') Q)].
        change (ProfileProofs3.refs cs _ (Mbr m)) with (refs s (Mbr m)) in Q. lia.
      * unfold upd. intros m'. destruct (m' =? m); [congruence|auto].
    + rewrite Q. do 3 eexists. split; [reflexivity|]. split; [|intros _; apply WR_self; exact H].
      apply ps_delm_used; [congruence|]. apply (designated_refs cs w); auto. lia.
  - unfold p_del_member. rewrite (HR_valid _ _ _ _ (pr_m _ _ _ _ (wr_p _ _ _ H))), E. cbn [some on_prof].
    do 3 eexists. split; [reflexivity|]. split; [apply ps_delm_bad; auto|]. intros _. apply WR_self; auto.
Qed.

Lemma sim_modm w s m fn data : WR w s -> sim w s (PModMember m fn data).
Proof.
  intros H. unfold ProfileProofs3.sim; cbn [w_step on_prof].
  destruct (Nat.eq_dec (length data) (np fn)) as [L|L].
  - destruct (m_of s m) as [a|] eqn:E.
    + destruct (PR_mod_member _ _ _ _ m fn data np (wr_p _ _ _ H) L ltac:(congruence)) as (p' & -> & P').
      do 3 eexists. split; [reflexivity|]. split; [apply ps_modm; auto; congruence|]. intros _.
      destruct H as [A B C D X I J MB]. constructor; cbn [set_m m_of g_of tabs w_prof w_tabs]; auto.
      * intros [m'|g'] Q; [|apply (J (Grp g') Q)]. cbn. unfold upd. destruct (m' =? m); [congruence|]. apply (J (Mbr m') Q).
      * unfold upd. intros m'. destruct (Nat.eqb_spec m' m) as [->|]; auto. intros _. apply MB. congruence.
    + unfold p_mod_member. rewrite L, Nat.eqb_refl. cbn [negb].
      rewrite (HR_valid _ _ _ _ (pr_m _ _ _ _ (wr_p _ _ _ H))), E. cbn [some on_prof].
      do 3 eexists. split; [reflexivity|]. split; [apply ps_modm_bad; auto|]. intros _. apply WR_self; auto.
  - unfold p_mod_member. destruct (Nat.eqb_spec (length data) (np fn)); [congruence|]. cbn [negb on_prof].
    do 3 eexists. split; [reflexivity|]. split; [apply ps_modm_data; auto|]. intros _. apply WR_self; auto.
Qed.

Lemma sim_addg w s : WR w s -> sim w s PAddGroup.
Proof.
  intros H. unfold ProfileProofs3.sim; cbn [w_step on_prof].
  destruct (PR_add_group _ _ _ _ (wr_p _ _ _ H)) as [[-> F]|(g & p' & -> & F & K & LT & P')].
  { intros g Hg. apply (dead_refs w); auto. }
  - do 3 eexists. split; [reflexivity|]. split; [apply ps_addg_full; auto|]. intros _. apply WR_self; auto.
  - do 3 eexists. split; [reflexivity|]. split; [apply ps_addg; auto|]. intros _.
    assert (LG : g < gmax). { pose proof gmax_N as Q. unfold index_limit in Q. change (2 ^ 24)%N with 16777216%N in LT. lia. }
    assert (RF : forall x, refs (set_g s g (Some [])) x = refs s x).
    { intros x. pose proof (set_g_refs s g (Some []) x LG) as Q. rewrite F in Q. destruct x; cbn in Q |- *; lia. }
    destruct H as [A B C D X I J MB]. constructor; cbn [w_prof w_tabs].
    + eapply PR_ext; [exact P'|]. intros x _. symmetry. apply RF.
    + exact B. + exact C. + exact D.
    + cbn [set_g g_of]. unfold upd. intros g' l. destruct (g' =? g); [intros Q; injection Q as <-; constructor|apply X].
    + cbn [set_g g_of]. unfold upd. intros g'. destruct (Nat.eqb_spec g' g) as [->|]; auto.
    + intros x Q. rewrite RF in Q. specialize (J x Q). destruct x as [m|g']; cbn in *; auto. unfold upd. destruct (g' =? g); [congruence|auto].
    + exact MB.
Qed.

Lemma sim_delg w s g : WR w s -> sim w s (PDelGroup g).
Proof.
  intros H. unfold ProfileProofs3.sim; cbn [w_step on_prof].
  destruct (g_of s g) as [l|] eqn:E.
  - assert (LG : g < gmax) by (apply (wr_glt _ _ _ H); congruence).
    pose proof (wr_sort _ _ _ H _ _ E) as SO.
    assert (RM : forall m, In m l -> 0 < refs s (Mbr m)).
    { intros m I. apply (designated_refs cs w); auto. eapply by_group; eauto. }
    pose proof (PR_del_group _ _ _ _ g l (wr_p _ _ _ H) E SO) as Q.
    assert (LV : forall m, In m l -> m_of s m <> None /\ 0 < refs s (Mbr m) /\ (N.of_nat (refs s (Mbr m)) < 2 ^ 32)%N).
    { intros m I. split; [eapply group_members_live; eauto|]. split; [auto|]. pose proof (refs_bound cs CO s (Mbr m)). lia. }
    specialize (Q LV). destruct (Nat.eqb_spec (refs s (Grp g)) 0) as [Z|Z].
    + destruct Q as (p' & -> & P'). do 3 eexists. split; [reflexivity|]. split.
      { apply ps_delg; [congruence|]. rewrite (designated_refs cs w) by auto. lia. }
      intros _.
      assert (RF : forall x, refs (set_g s g None) x = cdrop (refs s) l x).
      { intros x. pose proof (set_g_refs s g None x LG) as Q. rewrite E in Q. destruct x as [m|g']; cbn [gin b2n cdrop] in *; [|lia].
        destruct (set_mem m l); cbn [b2n] in Q; lia. }
      destruct H as [A B C D X I J MB]. constructor; cbn [w_prof w_tabs].
      * eapply PR_ext; [exact P'|]. intros x _. symmetry. apply RF.
      * exact B. * exact C. * exact D.
      * cbn [set_g g_of]. unfold upd. intros g' l'. destruct (g' =? g); [discriminate|apply X].
      * cbn [set_g g_of]. unfold upd. intros g'. destruct (g' =? g); [congruence|auto].
      * intros x Q. assert (Q' : 0 < refs s x) by (rewrite RF in Q; destruct x as [m|g']; cbn [cdrop] in Q; [destruct (set_mem m l)|]; lia).
        pose proof (J x Q') as JX. destruct x as [m|g']; cbn in *; auto. unfold upd. destruct (Nat.eqb_spec g' g) as [->|]; auto.
        exfalso. lia.
      * exact MB.
    + rewrite Q. do 3 eexists. split; [reflexivity|]. split; [|intros _; apply WR_self; exact H].
      apply ps_delg_used; [congruence|]. apply (designated_refs cs w); auto. lia.
  - unfold p_del_group. rewrite (HR_valid _ _ _ _ (pr_g _ _ _ _ (wr_p _ _ _ H))), E. cbn [some on_prof].
    do 3 eexists. split; [reflexivity|]. split; [apply ps_delg_bad; auto|]. intros _. apply WR_self; auto.
Qed.

(** A group's member list changes by one member. *)
Lemma WR_set_g w s g l l' m k : WR w s -> g_of s g = Some l -> m_of s m <> None ->
  StronglySorted lt l' -> (forall x, In x l' -> x = m \/ In x l) ->
  (forall x, refs (set_g s g (Some l')) x = cset (refs s) (Mbr m) k x) ->
  WR (mkW (set_group (w_prof w) g l' (list_set (p_mc (w_prof w)) m (N.of_nat k))) (w_tabs w)) (set_g s g (Some l')).
Proof.
  intros H E Hm SO IN RF. pose proof (PR_group_set _ _ _ _ g l l' m k (wr_p _ _ _ H) E Hm) as P'.
  destruct H as [A B C D X I J MB]. constructor; cbn [w_prof w_tabs].
  - eapply PR_ext; [exact P'|]. intros x _. symmetry. apply RF.
  - exact B. - exact C. - exact D.
  - cbn [set_g g_of]. unfold upd. intros g' l0. destruct (g' =? g); [intros Q; injection Q as <-; auto|apply X].
  - cbn [set_g g_of]. unfold upd. intros g'. destruct (Nat.eqb_spec g' g) as [->|]; auto. intros _. apply I. congruence.
  - intros x Q. rewrite RF in Q. destruct x as [m'|g'].
    + cbn. destruct (Nat.eq_dec m' m) as [->|N]; auto. rewrite cset_neq in Q by congruence. apply (J (Mbr m') Q).
    + cbn. unfold upd. destruct (g' =? g); [congruence|]. rewrite cset_neq in Q by discriminate. apply (J (Grp g') Q).
  - exact MB.
Qed.

Lemma sim_group_upd w s m g f o : WR w s ->
  w_step np cs w o = on_prof w (p_group_upd (w_prof w) m g f) ->
  (m_of s m = None -> pspec_step np cs s o (PErr PInvalidMbr) s) ->
  (m_of s m <> None -> g_of s g = None -> pspec_step np cs s o (PErr PInvalidGrp) s) ->
  (forall l, m_of s m <> None -> g_of s g = Some l -> exists w' x s', on_prof w (f l (w_prof w)) = Some (w', x) /\
     pspec_step np cs s o x s' /\ WR w' s') -> sim w s o.
Proof.
  intros H E A B C. unfold ProfileProofs3.sim. rewrite E. unfold p_group_upd.
  rewrite (HR_valid _ _ _ m (pr_m _ _ _ _ (wr_p _ _ _ H))). rewrite (HR_valid _ _ _ g (pr_g _ _ _ _ (wr_p _ _ _ H))).
  destruct (m_of s m) as [a|] eqn:Em; cbn [some].
  - destruct (g_of s g) as [l|] eqn:Eg; cbn [some].
    + rewrite (pr_gr _ _ _ _ (wr_p _ _ _ H) _ _ Eg).
      destruct (C l ltac:(congruence) eq_refl) as (w' & x & s' & C1 & C2 & C3). exists w', x, s'. auto.
    + do 3 eexists. split; [reflexivity|]. split; [apply B; congruence|]. intros _. apply WR_self; auto.
  - do 3 eexists. split; [reflexivity|]. split; [apply A; congruence|]. intros _. apply WR_self; auto.
Qed.

Lemma set_mem_neq x y l : x <> y -> set_mem x (set_ins y l) = set_mem x l.
Proof.
  intros N. destruct (set_mem x l) eqn:E.
  - apply set_mem_In. apply set_ins_In. right. apply set_mem_In; auto.
  - destruct (set_mem x (set_ins y l)) eqn:F; auto. apply set_mem_In, set_ins_In in F as [F|F]; [congruence|].
    apply set_mem_In in F. congruence.
Qed.
Lemma set_mem_del x y l : StronglySorted lt l -> set_mem x (set_del y l) = negb (x =? y) && set_mem x l.
Proof.
  intros SO. destruct (set_mem x (set_del y l)) eqn:E; symmetry.
  - apply set_mem_In, set_del_In in E; auto. destruct E as [A B]. apply set_mem_In in B. rewrite B.
    destruct (Nat.eqb_spec x y); [congruence|auto].
  - destruct (Nat.eqb_spec x y); [auto|]. cbn. destruct (set_mem x l) eqn:F; auto.
    assert (set_mem x (set_del y l) = true); [|congruence]. apply set_mem_In, set_del_In; auto. split; auto. apply set_mem_In; auto.
Qed.

Lemma sim_join w s m g : WR w s -> sim w s (PJoin m g).
Proof.
  intros H. eapply (sim_group_upd w s m g); [auto|reflexivity|apply ps_join_mbr|apply ps_join_grp|].
  intros l Hm Hg. cbv beta. destruct (set_mem m l) eqn:IN.
  - do 3 eexists. split; [reflexivity|]. split; [|apply WR_self; exact H]. eapply ps_join_in; eauto. apply set_mem_In; auto.
  - pose proof (wr_sort _ _ _ H _ _ Hg) as SO. assert (NI : ~ In m l) by (intros Q; apply set_mem_In in Q; congruence).
    rewrite (cnt_inc_ok _ _ _ (pr_mc _ _ _ _ (wr_p _ _ _ H) m Hm) (refs_bound cs CO s (Mbr m))). cbn [on_prof].
    do 3 eexists. split; [reflexivity|]. split.
    + apply ps_join with (l := l) (l' := set_ins m l); auto; [apply set_ins_sorted; auto|intros x; apply set_ins_In].
    + eapply WR_set_g; eauto.
      * apply set_ins_sorted; auto.
      * intros x Q. apply set_ins_In in Q. auto.
      * intros x. assert (LG : g < gmax) by (apply (wr_glt _ _ _ H); congruence).
        pose proof (set_g_refs s g (Some (set_ins m l)) x LG) as Q. rewrite Hg in Q.
        destruct x as [m'|g']; cbn [gin] in Q.
        -- destruct (Nat.eq_dec m' m) as [->|N].
           ++ rewrite cset_eq. rewrite IN in Q. assert (M1 : set_mem m (set_ins m l) = true) by (apply set_mem_In, set_ins_In; auto).
              rewrite M1 in Q. cbn [b2n] in Q. lia.
           ++ rewrite cset_neq by congruence. rewrite set_mem_neq in Q by auto. lia.
        -- rewrite cset_neq by discriminate. lia.
Qed.

Lemma sim_leave w s m g : WR w s -> sim w s (PLeave m g).
Proof.
  intros H. eapply (sim_group_upd w s m g); [auto|reflexivity|apply ps_leave_mbr|apply ps_leave_grp|].
  intros l Hm Hg. cbv beta. destruct (set_mem m l) eqn:IN.
  - pose proof (wr_sort _ _ _ H _ _ Hg) as SO. assert (I1 : In m l) by (apply set_mem_In; auto).
    assert (RP : 0 < refs s (Mbr m)) by (apply (designated_refs cs w); auto; eapply by_group; eauto).
    destruct (refs s (Mbr m)) as [|k] eqn:RK; [lia|].
    pose proof (pr_mc _ _ _ _ (wr_p _ _ _ H) m Hm) as E. rewrite RK in E.
    rewrite (cnt_dec_ok _ _ _ E) by (pose proof (refs_bound cs CO s (Mbr m)); lia). cbn [on_prof].
    do 3 eexists. split; [reflexivity|]. split.
    + apply ps_leave with (l := l) (l' := set_del m l); auto; [apply set_del_sorted; auto|intros x; apply set_del_In; auto].
    + eapply WR_set_g; eauto.
      * apply set_del_sorted; auto.
      * intros x Q. apply set_del_In in Q; auto. right. apply Q.
      * intros x. assert (LG : g < gmax) by (apply (wr_glt _ _ _ H); congruence).
        pose proof (set_g_refs s g (Some (set_del m l)) x LG) as Q. rewrite Hg in Q.
        destruct x as [m'|g']; cbn [gin] in Q.
        -- rewrite set_mem_del in Q by auto. destruct (Nat.eqb_spec m' m) as [->|N]; cbn [negb andb] in Q.
           ++ rewrite cset_eq. rewrite IN in Q. cbn [b2n] in Q. lia.
           ++ rewrite cset_neq by congruence. lia.
        -- rewrite cset_neq by discriminate. lia.
  - do 3 eexists. split; [reflexivity|]. split; [|apply WR_self; exact H]. eapply ps_leave_out; eauto.
    intros Q. apply set_mem_In in Q. congruence.
Qed.

Lemma sim_getg w s g f o : WR w s -> w_step np cs w o = on_prof w (p_get_group (w_prof w) g f) ->
  (g_of s g = None -> pspec_step np cs s o (PErr PInvalidGrp) s) ->
  (forall l, g_of s g = Some l -> pspec_step np cs s o (f l) s) -> sim w s o.
Proof.
  intros H E A B. unfold ProfileProofs3.sim. rewrite E. unfold p_get_group.
  rewrite (HR_valid _ _ _ g (pr_g _ _ _ _ (wr_p _ _ _ H))).
  destruct (g_of s g) as [l|] eqn:Eg; cbn [some].
  - rewrite (pr_gr _ _ _ _ (wr_p _ _ _ H) _ _ Eg). do 3 eexists. split; [reflexivity|]. split; [eauto|]. intros _. apply WR_self; auto.
  - do 3 eexists. split; [reflexivity|]. split; [auto|]. intros _. apply WR_self; auto.
Qed.

Lemma step_sim w s o : WR w s -> pop_ok cs o -> sim w s o.
Proof.
  intros H O. destruct o.
  - apply sim_addm; auto.
  - apply sim_delm; auto.
  - apply sim_modm; auto.
  - apply sim_addg; auto.
  - apply sim_delg; auto.
  - apply sim_join; auto.
  - apply sim_leave; auto.
  - unfold ProfileProofs3.sim; cbn [w_step]. unfold p_get_member. rewrite (HR_valid _ _ _ m (pr_m _ _ _ _ (wr_p _ _ _ H))).
    destruct (m_of s m) as [[fn data]|] eqn:E; cbn [some].
    + rewrite (pr_e _ _ _ _ (wr_p _ _ _ H) _ _ E). do 3 eexists. split; [reflexivity|]. split; [apply ps_getm; auto|]. intros _. apply WR_self; auto.
    + do 3 eexists. split; [reflexivity|]. split; [apply ps_getm_bad; auto|]. intros _. apply WR_self; auto.
  - eapply sim_getg; [auto|reflexivity|apply ps_getg_bad|]. intros l E. apply ps_getg; auto.
  - eapply sim_getg; [auto|reflexivity|apply ps_sizeg_bad|]. intros l E. apply ps_sizeg; auto.
  - unfold ProfileProofs3.sim; cbn [w_step]. unfold p_get_members.
    destruct (HR_iter _ _ _ (p_ents (w_prof w)) (pr_m _ _ _ _ (wr_p _ _ _ H)) (pr_e _ _ _ _ (wr_p _ _ _ H))) as (hs & l & -> & -> & -> & S1 & S2).
    rewrite Nat.eqb_refl. do 3 eexists. split; [reflexivity|]. split; [apply ps_members; auto|]. intros _. apply WR_self; auto.
  - unfold ProfileProofs3.sim; cbn [w_step]. unfold p_get_groups.
    destruct (HR_iter _ _ _ (p_groups (w_prof w)) (pr_g _ _ _ _ (wr_p _ _ _ H)) (pr_gr _ _ _ _ (wr_p _ _ _ H))) as (hs & l & -> & -> & -> & S1 & S2).
    rewrite Nat.eqb_refl. do 3 eexists. split; [reflexivity|]. split; [apply ps_groups; auto|]. intros _. apply WR_self; auto.
  - unfold ProfileProofs3.sim; cbn [w_step]. destruct (pr_m _ _ _ _ (wr_p _ _ _ H)) as (a & Ra & -> & L).
    do 3 eexists. split; [reflexivity|]. split; [apply ps_nm; auto; apply (R_nodup _ _ Ra)|auto].
  - unfold ProfileProofs3.sim; cbn [w_step]. destruct (pr_g _ _ _ _ (wr_p _ _ _ H)) as (a & Ra & -> & L).
    do 3 eexists. split; [reflexivity|]. split; [apply ps_ng; auto; apply (R_nodup _ _ Ra)|auto].
  - unfold ProfileProofs3.sim; cbn [w_step]. do 3 eexists. split; [reflexivity|]. split; [apply ps_reset|]. cbn. tauto.
  - apply sim_add; auto.
  - apply sim_del; auto.
  - apply sim_mod; auto.
  - apply sim_setd; auto.
  - apply sim_resetd; auto.
  - apply sim_get; auto.
  - apply sim_getd; auto.
  - apply sim_apply; auto.
  - apply sim_clear; auto.
Qed.

Lemma dirty_dec o x : dirty o x \/ ~ dirty o x.
Proof. destruct o; cbn; auto; destruct x; auto; destruct c; auto. Qed.

Lemma run_sim ops : forall w s, WR w s -> Forall (pop_ok cs) ops ->
  exists r w' outs, w_run np cs w ops = (w', outs) /\ pspec_run np cs s ops outs r /\    match r with Some s' => WR w' s' | None => True end.
Proof.
  induction ops as [|o ops IH]; intros w s H F; cbn [w_run].
  - exists (Some s), w, []. split; [auto|]. split; [constructor|auto].
  - inversion F as [|? ? O F']; subst. destruct (step_sim w s o H O) as (w1 & x & s1 & E & Sp & W). rewrite E.
    destruct (dirty_dec o x) as [D|D].
    + destruct (w_run np cs w1 ops) as [w2 xs]. exists None. do 2 eexists. split; [reflexivity|]. split; [eapply pr_dirty; eauto|auto].
    + destruct (IH w1 s1 (W D) F') as (r & w2 & xs & E2 & S2 & R2). rewrite E2.
      exists r. do 2 eexists. split; [reflexivity|]. split; [eapply pr_cons; eauto|auto].
Qed.
End World.
