From Coq Require Import List Arith NArith ZArith Bool Lia Sorted.
From Verif Require Import Base Bits SMap NMap HandleMgrModel HandleMgrSpec HandleMgrProofs
  LpmModel LpmSpec LpmProofs EntryListModel EntryListSpec EntryListProofs MatchUnitModel MatchUnitSpec.
Import ListNotations.

(** ** Handles *)
Lemma handle_internal_slot h : handle_internal h = h_slot h.
Proof.
  unfold handle_internal, h_slot. f_equal. change 16777215%N with (N.ones 24). apply N.land_ones.
Qed.
Lemma handle_version_gen h : handle_version h = h_gen h.
Proof. unfold handle_version, h_gen. apply N.shiftr_div_pow2. Qed.

Lemma lor_shift_add a b n : (b < 2 ^ n)%N -> N.lor (N.shiftl a n) b = (a * 2 ^ n + b)%N.
Proof.
  intros H. rewrite <- N.shiftl_mul_pow2.
  assert (L : N.land (N.shiftl a n) b = 0%N).
  { apply N.bits_inj. intros i. rewrite N.land_spec, N.bits_0.
    destruct (N.lt_ge_cases i n).
    - rewrite N.shiftl_spec_low by auto. auto.
    - rewrite (lt_pow2_bits b n i) by auto. apply andb_false_r. }
  rewrite N.add_nocarry_lxor by auto. symmetry. apply N.lxor_lor. auto.
Qed.

Lemma handle_set64_eq v i : (N.of_nat i < 2 ^ 24)%N ->
  handle_set64 v i = ((v mod 256) * 2 ^ 24 + N.of_nat i)%N.
Proof.
  intros H. unfold handle_set64. change 255%N with (N.ones 8). rewrite N.land_ones.
  change (2 ^ 8)%N with 256%N. apply lor_shift_add; auto.
Qed.
Lemma handle_set_eq v i : (N.of_nat i < 2 ^ 24)%N ->
  handle_set v i = ((v mod 256) * 2 ^ 24 + N.of_nat i)%N.
Proof.
  intros H. unfold handle_set. rewrite handle_set64_eq by auto. apply N.mod_small.
  assert (v mod 256 < 256)%N by (apply N.mod_lt; lia).
  change (2 ^ 32)%N with (256 * 2 ^ 24)%N. nia.
Qed.
Lemma div24 v i : (N.of_nat i < 2 ^ 24)%N -> ((v * 2 ^ 24 + N.of_nat i) / 2 ^ 24 = v)%N.
Proof. intros H. rewrite N.div_add_l by lia. rewrite N.div_small by auto. lia. Qed.
Lemma mod24 v i : (N.of_nat i < 2 ^ 24)%N -> ((v * 2 ^ 24 + N.of_nat i) mod 2 ^ 24 = N.of_nat i)%N.
Proof. intros H. rewrite N.add_comm, N.mod_add by lia. apply N.mod_small; auto. Qed.

Lemma handle_set_slot v i : (N.of_nat i < 2 ^ 24)%N -> handle_internal (handle_set v i) = i.
Proof.
  intros H. rewrite handle_internal_slot, handle_set_eq by auto. unfold h_slot.
  rewrite mod24 by auto. lia.
Qed.
Lemma handle_set_ver v i : (N.of_nat i < 2 ^ 24)%N -> handle_version (handle_set v i) = (v mod 256)%N.
Proof.
  intros H. rewrite handle_version_gen, handle_set_eq by auto. apply div24; auto.
Qed.

Definition ver_of (g : nat) : N := N.of_nat (g mod 256).
Lemma ver_of_lt g : (ver_of g < 256)%N.
Proof. unfold ver_of. pose proof (Nat.mod_upper_bound g 256). lia. Qed.
Lemma ver_of_S g : ((ver_of g + 1) mod 256)%N = ver_of (S g).
Proof.
  unfold ver_of. rewrite !Nat2N.inj_mod. change (N.of_nat 256) with 256%N.
  rewrite N.add_mod_idemp_l by lia. f_equal. lia.
Qed.

(** ** Lookup structures *)
Lemma em_find_remove m key key' :
  em_find (em_remove m key) key' = if bytes_eqb key key' then None else em_find m key'.
Proof.
  induction m as [|[k h] m IH]; cbn [em_remove em_find].
  - destruct (bytes_eqb key key'); auto.
  - destruct (bytes_eqb k key) eqn:E.
    + apply bytes_eqb_eq in E. subst k. rewrite IH. destruct (bytes_eqb key key'); auto.
    + cbn [em_find]. rewrite IH. destruct (bytes_eqb k key') eqn:F; auto.
      apply bytes_eqb_eq in F. subst k. destruct (bytes_eqb key key') eqn:G; auto.
      apply bytes_eqb_eq in G. subst key'. assert (bytes_eqb key key = true) by (apply bytes_eqb_eq; auto). congruence.
Qed.

Lemma same_key_refl kd k : same_key kd k k.
Proof. destruct kd; cbn; auto. Qed.
Lemma same_key_sym kd a b : same_key kd a b -> same_key kd b a.
Proof. destruct kd; cbn; intuition congruence. Qed.
Lemma same_key_trans kd a b c : same_key kd a b -> same_key kd b c -> same_key kd a c.
Proof. destruct kd; cbn; intuition congruence. Qed.

Lemma key_eqb_same kd a b : kd = KTernary \/ kd = KRange ->
  (k_prio a = k_prio b /\ key_eqb kd a b = true <-> same_key kd a b).
Proof.
  unfold key_eqb. intros [-> | ->]; cbn; rewrite !andb_true_iff, !bytes_eqb_eq; [|rewrite nats_eqb_eq]; tauto.
Qed.

Definition uniq (kd : mkind) (a : list (nat * mkey)) : Prop :=
  forall h k h' k', In (h, k) a -> In (h', k') a -> same_key kd k k' -> h = h'.

Definition LSR (kd : mkind) (nbytes size : nat) (cache : bool) (ls : lstruct) (a : list (nat * mkey)) : Prop :=
  csorted a /\ (forall h k, In (h, k) a -> wf_key kd nbytes k) /\ uniq kd a /\
  match kd, ls with
  | KExact, LSExact m => forall key h, em_find m key = Some h <-> exists k, In (h, k) a /\ k_data k = key
  | KLpm, LSLpm t => exists tab, Rl nbytes t tab /\
      forall p h, In (p, h) tab <-> exists k, In (h, k) a /\ p = pbits (k_data k) (k_plen k)
  | KTernary, LSList l | KRange, LSList l => elR (list_cmp kd nbytes) size cache l a
  | _, _ => False
  end.

Definition kpref (kd : mkind) (i : nat) (k : mkey) (i' : nat) (k' : mkey) : Prop :=
  match kd with
  | KExact => i = i'
  | KLpm => k_plen k' <= k_plen k
  | KTernary | KRange => (k_prio k < k_prio k')%Z \/ (k_prio k = k_prio k' /\ i <= i')
  end.

Lemma LSR_new kd nbytes size cache : LSR kd nbytes size cache (ls_new kd size cache) [].
Proof.
  split; [constructor|]. split; [intros h k []|]. split; [intros h k h' k' []|].
  destruct kd; cbn [ls_new].
  - intros key h. cbn. split; [discriminate|]. intros (k & [] & _).
  - exists []. split; [apply Rl_empty|]. intros p h. split; [intros []|]. intros (k & [] & _).
  - apply elR_new.
  - apply elR_new.
Qed.

Lemma vp_of_wf nbytes k : wf_key KLpm nbytes k -> vp nbytes (k_data k) (k_plen k).
Proof. intros (A & B & C). repeat split; auto. Qed.

Lemma ls_lookup_ok kd nbytes size cache ls a key : LSR kd nbytes size cache ls a ->
  bytes_ok key -> length key = nbytes ->
  exists ls' r, ls_lookup kd nbytes ls key = Some (ls', r) /\ LSR kd nbytes size cache ls' a /\
  match r with
  | None => forall h k, In (h, k) a -> ~ key_matches kd nbytes k key
  | Some h => exists k, In (h, k) a /\ key_matches kd nbytes k key /\
      forall h' k', In (h', k') a -> key_matches kd nbytes k' key -> kpref kd h k h' k'
  end.
Proof.
  intros L Hb Hl. pose proof L as (So & Wf & Un & M).
  assert (Lst : kd = KTernary \/ kd = KRange -> forall l, ls = LSList l ->
    elR (list_cmp kd nbytes) size cache l a -> 
    exists ls' r, ls_lookup kd nbytes ls key = Some (ls', r) /\ 
     (exists l', ls' = LSList l' /\ elR (list_cmp kd nbytes) size cache l' a) /\
    match r with
    | None => forall h k, In (h, k) a -> ~ key_matches kd nbytes k key
    | Some h => exists k, In (h, k) a /\ key_matches kd nbytes k key /\
      forall h' k', In (h', k') a -> key_matches kd nbytes k' key ->
        (k_prio k < k_prio k')%Z \/ (k_prio k = k_prio k' /\ h <= h')
    end).
  { intros K l -> E. cbn [ls_lookup].
    destruct (el_lookup_ok _ _ _ _ _ key E) as (l' & r & El & R' & B). rewrite El.
    exists (LSList l'), r. split; auto. split; [eauto|].
    assert (Q : forall h k, In (h, k) a -> (list_cmp kd nbytes key k = true <-> key_matches kd nbytes k key))
      by (intros; apply list_cmp_ok; eauto).
    destruct r as [h|]; cbn in B; unfold cmatch in B.
    - destruct B as (k & I & P & Mn). exists k. split; auto. split; [apply (Q h k); auto|].
      intros h' k' I' P'. apply Mn; auto. apply (Q h' k'); auto.
    - intros h k I P. apply (B h k I). apply (Q h k); auto. }
  destruct kd; destruct ls as [m|t|l]; try contradiction.
  - cbn [ls_lookup]. do 2 eexists; split; [reflexivity|]. split; auto.
    destruct (em_find m key) as [h|] eqn:E.
    + apply M in E. destruct E as (k & I & E). exists k. split; auto. split; auto.
      intros h' k' I' E'. cbn in *. eapply Un; eauto. cbn. congruence.
    + intros h k I E'. cbn in E'. assert (em_find m key = Some h) by (apply M; eauto). congruence.
  - cbn [ls_lookup]. destruct M as (tab & Rt & Mt).
    destruct (lpm_step_ok nbytes t tab (LLookup key) Rt) as (n' & x & t' & E & Sp & R').
    { cbn. auto. }
    cbn [lpm_step] in E. destruct (trie_lookup t key nbytes None) as [r|]; [|discriminate].
    injection E as <- <-. inversion Sp as [| | | |t0 key0 r0 An|]; subst.
    do 2 eexists; split; [reflexivity|]. split; auto.
    destruct r as [h|]; cbn in An.
    + destruct An as (p & I & P & Mx). apply Mt in I. destruct I as (k & I & ->).
      exists k. split; auto. split; auto. intros h' k' I' P'.
      assert (X : In (pbits (k_data k') (k_plen k'), h') t') by (apply Mt; eauto).
      specialize (Mx _ _ X P'). cbn.
      rewrite !(pbits_length (length key)) in Mx by (apply vp_of_wf; eauto). auto.
    + intros h k I P. eapply An; [apply Mt; eauto|]. auto.
  - destruct (Lst (or_introl eq_refl) l eq_refl M) as (ls' & r & E & (l' & -> & R') & B).
    exists (LSList l'), r. split; auto. split; auto. split; auto.
  - destruct (Lst (or_intror eq_refl) l eq_refl M) as (ls' & r & E & (l' & -> & R') & B).
    exists (LSList l'), r. split; auto. split; auto. split; auto.
Qed.

Lemma ls_retrieve_ok kd nbytes size cache ls a k : LSR kd nbytes size cache ls a -> wf_key kd nbytes k ->
  exists r, ls_retrieve kd ls k = Some r /\
  match r with
  | None => forall h k', In (h, k') a -> ~ same_key kd k' k
  | Some h => exists k', In (h, k') a /\ same_key kd k' k
  end.
Proof.
  intros L Wk. pose proof L as (So & Wf & Un & M).
  assert (Lst : kd = KTernary \/ kd = KRange -> forall l, elR (list_cmp kd nbytes) size cache l a ->
    exists r, el_find_entry (key_eqb kd) l k = Some r /\
    match r with
    | None => forall h k', In (h, k') a -> ~ same_key kd k' k
    | Some h => exists k', In (h, k') a /\ same_key kd k' k
    end).
  { intros K l E. destruct (el_find_entry_ok (list_cmp kd nbytes) (key_eqb kd) _ _ _ _ k E) as (r & Er & B).
    exists r. split; auto. destruct r as [h|].
    - destruct B as (k' & I & P & Q). exists k'. split; auto. apply key_eqb_same; auto.
    - intros h k' I X. apply key_eqb_same in X; auto. destruct X as [X Y]. rewrite (B h k' I X) in Y. discriminate. }
  destruct kd; destruct ls as [m|t|l]; try contradiction; cbn [ls_retrieve]; eauto.
  - eexists; split; [reflexivity|]. destruct (em_find m (k_data k)) as [h|] eqn:E.
    + apply M in E. destruct E as (k' & I & E). eauto.
    + intros h k' I E'. cbn in E'. assert (em_find m (k_data k) = Some h) by (apply M; eauto). congruence.
  - destruct M as (tab & Rt & Mt). pose proof (vp_of_wf _ _ Wk) as Vp.
    destruct (retrieve_total nbytes t (k_data k) (k_plen k) Vp) as (r & E). exists r. split; auto.
    destruct r as [h|].
    + apply (Rl_in _ _ _ Rt) in E; auto. apply Mt in E. destruct E as (k' & I & E). exists k'. split; [auto|].
      cbn. symmetry. exact E.
    + intros h k' I X. apply (Rl_none _ _ _ _ _ Rt Vp) with (v := h) in E. apply E. apply Mt.
      exists k'. split; [auto|]. unfold pbits. symmetry. exact X.
Qed.

Lemma in_put (a : list (nat * mkey)) h k i x : csorted a -> ~ In h (map fst a) ->
  (In (i, x) (smap_put Nat.ltb h k a) <-> (i = h /\ x = k) \/ In (i, x) a).
Proof.
  intros So Hn. rewrite (nm_put_In h k a i x So). split; [tauto|]. intros [|I]; auto.
  right. split; auto. intros ->. apply Hn. apply in_map_iff. exists (h, x); auto.
Qed.
Lemma in_del (a : list (nat * mkey)) h i x : csorted a ->
  (In (i, x) (smap_del Nat.ltb h a) <-> i <> h /\ In (i, x) a).
Proof. apply (nm_del_In h a i x). Qed.

Lemma ls_add_ok kd nbytes size cache ls a k h : LSR kd nbytes size cache ls a -> wf_key kd nbytes k ->
  (forall h' k', In (h', k') a -> ~ same_key kd k' k) ->
  h < size -> (kd = KTernary \/ kd = KRange -> forall i, i < h -> In i (map fst a)) -> ~ In h (map fst a) ->
  exists ls', ls_add ls k h = Some ls' /\ LSR kd nbytes size cache ls' (smap_put Nat.ltb h k a).
Proof.
  intros L Wk Nk Hs Lo Fr. pose proof L as (So & Wf & Un & M).
  assert (C : csorted (smap_put Nat.ltb h k a) /\
     (forall h0 k0, In (h0, k0) (smap_put Nat.ltb h k a) -> wf_key kd nbytes k0) /\
     uniq kd (smap_put Nat.ltb h k a)).
  { split; [apply smap_put_ok; eauto using nat_trans, nat_total|]. split.
    - intros i x I. apply in_put in I; auto. destruct I as [[-> ->]|I]; eauto.
    - intros i x j y I J Sk. apply in_put in I; auto. apply in_put in J; auto.
      destruct I as [[-> ->]|I], J as [[-> ->]|J]; auto.
      + exfalso. eapply Nk; eauto. apply same_key_sym; auto.
      + exfalso. eapply Nk; eauto.
      + eapply Un; eauto. }
  destruct C as (C1 & C2 & C3).
  destruct kd; destruct ls as [m|t|l]; try contradiction; cbn [ls_add].
  - eexists; split; [reflexivity|]. do 3 (split; auto). intros key i. cbn [em_find].
    destruct (bytes_eqb (k_data k) key) eqn:E.
    + apply bytes_eqb_eq in E. subst key. split.
      * intros X. injection X as <-. exists k. split; auto. apply in_put; auto.
      * intros (k' & I & E). apply in_put in I; auto. destruct I as [[-> ->]|I]; auto.
        exfalso. eapply (Nk i k'); eauto.
    + rewrite em_find_remove, E, M. split.
      * intros (k' & I & X). exists k'. split; auto. apply in_put; auto.
      * intros (k' & I & X). apply in_put in I; auto. destruct I as [[-> ->]|I]; [|eauto].
        subst key. assert (bytes_eqb (k_data k) (k_data k) = true) by (apply bytes_eqb_eq; auto). congruence.
  - destruct M as (tab & Rt & Mt). pose proof (vp_of_wf _ _ Wk) as Vp.
    destruct (lpm_step_ok nbytes t tab (LInsert (k_data k) (k_plen k) h) Rt) as (n' & x & t' & E & Sp & R').
    { exact Vp. }
    cbn [lpm_step] in E. destruct (trie_insert t (k_data k) (k_plen k) h) as [t2|]; [|discriminate].
    injection E as <- <-. inversion Sp as [t0 p0 l0 v0 t1 Up| | | | |]; subst.
    eexists; split; [reflexivity|]. do 3 (split; auto). exists t'. split; auto.
    destruct Up as [U1 U2]. intros p i.
    destruct (list_eq_dec bool_dec p (pbits (k_data k) (k_plen k))) as [->|D].
    + rewrite U2. split.
      * intros X. injection X as <-. exists k. split; auto. apply in_put; auto.
      * intros (k' & I & X). apply in_put in I; auto. destruct I as [[-> ->]|I]; auto.
        exfalso. eapply (Nk i k'); eauto. symmetry. exact X.
    + rewrite U1, Mt by auto. split.
      * intros (k' & I & X). exists k'. split; auto. apply in_put; auto.
      * intros (k' & I & X). apply in_put in I; auto. destruct I as [[-> ->]|I]; [|eauto]. contradiction.
  - destruct (el_add_ok (list_cmp _ nbytes) (key_eqb KTernary) _ _ _ _ k h M Hs) as (l' & E & R'); auto. rewrite E.
    eexists; split; [reflexivity|]. do 3 (split; auto).
  - destruct (el_add_ok (list_cmp _ nbytes) (key_eqb KTernary) _ _ _ _ k h M Hs) as (l' & E & R'); auto. rewrite E.
    eexists; split; [reflexivity|]. do 3 (split; auto).
Qed.

Lemma ls_delete_ok kd nbytes size cache ls a k h : LSR kd nbytes size cache ls a -> In (h, k) a ->
  exists ls', ls_delete kd ls k = Some ls' /\ LSR kd nbytes size cache ls' (smap_del Nat.ltb h a).
Proof.
  intros L Ik. pose proof L as (So & Wf & Un & M).
  assert (C : csorted (smap_del Nat.ltb h a) /\
     (forall h0 k0, In (h0, k0) (smap_del Nat.ltb h a) -> wf_key kd nbytes k0) /\
     uniq kd (smap_del Nat.ltb h a)).
  { split; [apply smap_del_ok; auto|]. split.
    - intros i x I. apply in_del in I; auto. destruct I; eauto.
    - intros i x j y I J Sk. apply in_del in I; auto. apply in_del in J; auto. eapply Un; intuition eauto. }
  destruct C as (C1 & C2 & C3).
  assert (Fun : forall k', In (h, k') a -> k' = k).
  { intros k' I. apply (nm_In_find h k' a So) in I. apply (nm_In_find h k a So) in Ik. congruence. }
  assert (Lst : kd = KTernary \/ kd = KRange -> forall l, elR (list_cmp kd nbytes) size cache l a ->
    exists l', el_delete (key_eqb kd) l k = Some l' /\ elR (list_cmp kd nbytes) size cache l' (smap_del Nat.ltb h a)).
  { intros K l E. apply el_delete_ok; auto.
    - intros h' k' I P Q. eapply Un; eauto. apply key_eqb_same; auto.
    - apply key_eqb_same; auto. apply same_key_refl. }
  destruct kd; destruct ls as [m|t|l]; try contradiction; cbn [ls_delete].
  - eexists; split; [reflexivity|]. do 3 (split; auto). intros key i. rewrite em_find_remove.
    destruct (bytes_eqb (k_data k) key) eqn:E.
    + apply bytes_eqb_eq in E. subst key. split; [discriminate|].
      intros (k' & I & E). apply in_del in I; auto. destruct I as [N I]. exfalso. apply N. eapply Un; eauto.
    + rewrite M. split.
      * intros (k' & I & X). exists k'. split; auto. apply in_del; auto. split; auto. intros ->.
        rewrite (Fun k' I) in X. subst key.
        assert (bytes_eqb (k_data k) (k_data k) = true) by (apply bytes_eqb_eq; auto). congruence.
      * intros (k' & I & X). apply in_del in I; auto. destruct I. eauto.
  - destruct M as (tab & Rt & Mt). pose proof (vp_of_wf _ _ (Wf _ _ Ik)) as Vp.
    destruct (lpm_step_ok nbytes t tab (LDelete (k_data k) (k_plen k)) Rt) as (n' & x & t' & E & Sp & R').
    { exact Vp. }
    cbn [lpm_step] in E.
    assert (Hin : In (pbits (k_data k) (k_plen k), h) tab) by (apply Mt; eauto).
    destruct (trie_delete t (k_data k) (k_plen k)) as [[t2|]|]; [| |discriminate];
      injection E as <- <-; inversion Sp as [|t0 p0 l0 v0 t1 Iv Up|t0 p0 l0 Hno| | |]; subst.
    + eexists; split; [reflexivity|]. do 3 (split; auto). exists t'. split; auto.
      destruct Up as [U1 U2]. intros p i.
      destruct (list_eq_dec bool_dec p (pbits (k_data k) (k_plen k))) as [->|D].
      * rewrite U2. split; [discriminate|]. intros (k' & I & X). apply in_del in I; auto.
        destruct I as [N I]. exfalso. apply N. eapply Un; eauto. symmetry. exact X.
      * rewrite U1, Mt by auto. split.
        -- intros (k' & I & X). exists k'. split; auto. apply in_del; auto. split; auto. intros ->.
           rewrite (Fun k' I) in X. contradiction.
        -- intros (k' & I & X). apply in_del in I; auto. destruct I. eauto.
    + exfalso. eapply Hno; eauto.
  - destruct (Lst (or_introl eq_refl) l M) as (l' & E & R'). rewrite E.
    eexists; split; [reflexivity|]. do 3 (split; auto).
  - destruct (Lst (or_intror eq_refl) l M) as (l' & E & R'). rewrite E.
    eexists; split; [reflexivity|]. do 3 (split; auto).
Qed.

Lemma ls_clear_ok kd nbytes size cache ls a : LSR kd nbytes size cache ls a ->
  LSR kd nbytes size cache (ls_clear ls) [].
Proof.
  intros (So & Wf & Un & M). split; [constructor|]. split; [intros h k []|]. split; [intros h k h' k' []|].
  destruct kd; destruct ls as [m|t|l]; try contradiction; cbn [ls_clear].
  - intros key h. cbn. split; [discriminate|]. intros (k & [] & _).
  - exists []. split; [apply Rl_empty|]. intros p h. split; [intros []|]. intros (k & [] & _).
  - eapply el_clear_ok; eauto.
  - eapply el_clear_ok; eauto.
Qed.

(** ** The match unit *)
Section Unit.
Context {V : Type}.
Variables (kd : mkind) (nbytes size : nat) (cache : bool).
Hypothesis size_ok : (N.of_nat size <= 2 ^ 24)%N.

Record MR (last : N) (u : munit V) (t : stab V) : Prop := {
  mr_size : mu_size u = size;
  mr_hm : exists asp, R (mu_hm u) asp /\ mu_num u = length (live asp) /\
            forall i, In i (live asp) <-> slot_of t i <> None;
  mr_lt : forall i, slot_of t i <> None -> i < size;
  mr_elen : length (mu_ents u) = size;
  mr_mlen : length (mu_meta u) = size;
  mr_ents : forall i e, nth_error (mu_ents u) i = Some e ->
      e_ver e = ver_of (gen t i) /\
      forall s, slot_of t i = Some s -> e_key e = s_key s /\ e_val e = Some (s_val s);
  mr_meta : forall i m, nth_error (mu_meta u) i = Some m ->
      m_ttl m = ttl t i /\
      forall s, slot_of t i = Some s ->
        m_ts m = s_ts s /\ m_bytes m = s_bytes s /\ m_pkts m = s_pkts s /\ m_ver m = ver_of (gen t i);
  mr_last : forall i s, slot_of t i = Some s -> (s_ts s <= last)%N;
  mr_ls : exists a, LSR kd nbytes size cache (mu_ls u) a /\
      forall i k, In (i, k) a <-> exists s, slot_of t i = Some s /\ s_key s = k }.

Lemma nth_error_ex {A} (l : list A) i n : length l = n -> i < n -> exists x, nth_error l i = Some x.
Proof. intros <- H. destruct (nth_error l i) eqn:E; eauto. apply nth_error_None in E. lia. Qed.

Lemma slot_lt24 i : i < size -> (N.of_nat i < 2 ^ 24)%N.
Proof. lia. Qed.

Lemma handle_of_eq t i : i < size -> handle_set (ver_of (gen t i)) i = @handle_of V t i.
Proof.
  intros H. rewrite handle_set_eq by (apply slot_lt24; auto).
  rewrite N.mod_small by apply ver_of_lt. reflexivity.
Qed.

Lemma MR_new : MR 0 (mu_new kd size cache) tab_empty.
Proof.
  split; cbn; auto.
  - exists a_empty. split; [apply R_empty|]. split; auto. cbn. intros i. split; [intros []|congruence].
  - congruence.
  - apply repeat_length.
  - apply repeat_length.
  - intros i e H. apply nth_error_In, repeat_spec in H. subst e. split; [reflexivity|discriminate].
  - intros i e H. apply nth_error_In, repeat_spec in H. subst e. split; [reflexivity|discriminate].
  - discriminate.
  - exists []. split; [apply LSR_new|]. intros i k. split; [intros []|]. intros (s & H & _). discriminate.
Qed.

Lemma mr_valid last u t i : MR last u t ->
  exists b, hm_valid_handle (mu_hm u) i = Some b /\ (b = true <-> slot_of t i <> None).
Proof.
  intros H. destruct (mr_hm _ _ _ H) as (asp & Rr & _ & Lv).
  exists (wbit (words (handles (mu_hm u))) i). split; [eapply valid_ok; eauto|].
  rewrite (R_live _ _ Rr). apply Lv.
Qed.

Lemma resolve_ok last u t h : MR last u t -> (h < 2 ^ 32)%N ->
  exists r, mu_resolve u h = Some r /\
  match r with
  | RErr c => resolves t h (inl c)
  | ROk i e => exists s, resolves t h (inr (i, s)) /\ i < size /\ slot_of t i = Some s /\
                nth_error (mu_ents u) i = Some e
  end.
Proof.
  intros H Hh. unfold mu_resolve. rewrite handle_internal_slot, handle_version_gen.
  destruct (mr_valid _ _ _ (h_slot h) H) as (b & E & B). rewrite E.
  destruct (slot_of t (h_slot h)) as [s|] eqn:Es.
  - destruct b; [|exfalso; assert (false = true) by (apply B; congruence); discriminate].
    assert (L : h_slot h < size) by (apply (mr_lt _ _ _ H); congruence).
    destruct (nth_error_ex (mu_ents u) (h_slot h) size (mr_elen _ _ _ H) L) as (e & Ee). rewrite Ee.
    destruct (mr_ents _ _ _ H _ _ Ee) as [Ev _]. rewrite Ev.
    destruct (N.eqb_spec (h_gen h) (ver_of (gen t (h_slot h)))) as [G|G].
    + eexists; split; [reflexivity|]. exists s. split; [apply rs_ok; auto|auto].
    + eexists; split; [reflexivity|]. eapply rs_expired; eauto.
  - destruct b; [exfalso; apply B; auto|]. eexists; split; [reflexivity|]. apply rs_invalid; auto.
Qed.

Lemma enumerates_ok last u t : MR last u t -> exists l, hm_iterate (mu_hm u) = Some l /\ enumerates t l /\
  length l = mu_num u.
Proof.
  intros H. destruct (mr_hm _ _ _ H) as (asp & Rr & Nm & Lv).
  destruct (iterate_ok _ _ Rr) as (l & E & So & I). exists l. split; auto. split.
  - split; auto. intros i. rewrite I. apply Lv.
  - rewrite Nm. 
    assert (ND : NoDup l) by (apply sorted_lt_NoDup; auto).
    apply Nat.le_antisymm; apply NoDup_incl_length; auto.
    + intros x J. apply I; auto.
    + apply (R_nodup _ _ Rr).
    + intros x J. apply I; auto.
Qed.

(** Updating a live slot's statistics or value, keeping its key. *)
Lemma LSR_content_map (t t' : stab V) a :
  (forall i k, In (i, k) a <-> exists s, slot_of t i = Some s /\ s_key s = k) ->
  (forall i k, (exists s, slot_of t i = Some s /\ s_key s = k) <-> (exists s, slot_of t' i = Some s /\ s_key s = k)) ->
  (forall i k, In (i, k) a <-> exists s, slot_of t' i = Some s /\ s_key s = k).
Proof. intros A B i k. rewrite A. apply B. Qed.

Lemma set_slot_eq {X} (f : nat -> option (sent X)) i o : set_slot f i o i = o.
Proof. unfold set_slot. rewrite Nat.eqb_refl. auto. Qed.
Lemma set_slot_neq {X} (f : nat -> option (sent X)) i o j : j <> i -> set_slot f i o j = f j.
Proof. unfold set_slot. intros H. destruct (Nat.eqb_spec j i); congruence. Qed.
Lemma set_slot_live (t : stab V) i s s' j : slot_of t i = Some s ->
  (set_slot (slot_of t) i (Some s') j <> None <-> slot_of t j <> None).
Proof.
  intros H. unfold set_slot. destruct (Nat.eqb_spec j i) as [->|]; [|tauto]. rewrite H. split; congruence.
Qed.

Lemma update_keep_key last u t i s s' u' ttl' :
  MR last u t -> slot_of t i = Some s -> s_key s' = s_key s -> (s_ts s' <= last)%N ->
  mu_size u' = mu_size u -> mu_num u' = mu_num u -> mu_hm u' = mu_hm u ->
  (forall a, LSR kd nbytes size cache (mu_ls u) a -> LSR kd nbytes size cache (mu_ls u') a) ->
  length (mu_ents u') = size -> length (mu_meta u') = size ->
  (forall j e, nth_error (mu_ents u') j = Some e ->
     if j =? i then e_ver e = ver_of (gen t i) /\ e_key e = s_key s /\ e_val e = Some (s_val s')
     else nth_error (mu_ents u) j = Some e) ->
  (forall j m, nth_error (mu_meta u') j = Some m ->
     if j =? i then m_ttl m = ttl' i /\ m_ts m = s_ts s' /\ m_bytes m = s_bytes s' /\ m_pkts m = s_pkts s' /\
                    m_ver m = ver_of (gen t i)
     else nth_error (mu_meta u) j = Some m) ->
  (forall j, j <> i -> ttl' j = ttl t j) ->
  MR last u' (mkTab (set_slot (slot_of t) i (Some s')) (gen t) ttl').
Proof.
  intros H Hs Hk Ht E1 E2 E3 Els L1 L2 He Hm Httl.
  split; cbn [slot_of gen ttl]; try rewrite E1; try rewrite E2; try rewrite E3; auto.
  - apply H.
  - destruct (mr_hm _ _ _ H) as (asp & Rr & Nm & Lv). exists asp. split; auto. split; auto.
    intros j. rewrite (set_slot_live t i s) by auto. apply Lv.
  - intros j. rewrite (set_slot_live t i s) by auto. apply H.
  - intros j e Ej. specialize (He j e Ej). destruct (Nat.eqb_spec j i) as [->|N].
    + destruct He as (A & B & C). split; auto. rewrite set_slot_eq. intros s0 X. injection X as <-.
      split; congruence.
    + rewrite set_slot_neq by auto. apply (mr_ents _ _ _ H); auto.
  - intros j m Ej. specialize (Hm j m Ej). destruct (Nat.eqb_spec j i) as [->|N].
    + destruct Hm as (A & B & C & D & F). split; auto. rewrite set_slot_eq. intros s0 X. injection X as <-. auto.
    + rewrite set_slot_neq, Httl by auto. apply (mr_meta _ _ _ H); auto.
  - intros j s0. unfold set_slot. destruct (Nat.eqb_spec j i); [intros X; injection X as <-; auto|apply (mr_last _ _ _ H)].
  - destruct (mr_ls _ _ _ H) as (a & La & Ca). exists a. split; auto.
    intros j k. rewrite Ca. unfold set_slot. destruct (Nat.eqb_spec j i) as [->|N]; [|tauto].
    rewrite Hs. split; intros (s0 & X & Y); injection X as <-; eexists; split; eauto; congruence.
Qed.

Lemma MR_last last last' u t : MR last u t -> (last <= last')%N -> MR last' u t.
Proof. intros H L. destruct H. split; auto. intros i s X. specialize (mr_last0 i s X). lia. Qed.

Lemma nth_set {A} (l : list A) i x j y : nth_error (list_set l i x) j = Some y ->
  if j =? i then y = x else nth_error l j = Some y.
Proof.
  destruct (Nat.eqb_spec j i) as [->|N].
  - intros H. destruct (Nat.lt_ge_cases i (length l)).
    + rewrite nth_error_list_set_eq in H by auto. congruence.
    + assert (X : nth_error (list_set l i x) i <> None) by congruence. apply nth_error_Some in X.
      rewrite list_set_length in X. lia.
  - rewrite nth_error_list_set_neq; auto.
Qed.

Lemma map_handles_ok last u t l : MR last u t -> (forall i, In i l -> slot_of t i <> None) ->
  map_handles (mu_meta u) l = Some (map (handle_of t) l).
Proof.
  intros H. induction l as [|i l IH]; intros Hl; cbn [map_handles map]; auto.
  assert (Hi : slot_of t i <> None) by (apply Hl; left; auto).
  assert (L : i < size) by (apply (mr_lt _ _ _ H); auto).
  destruct (nth_error_ex (mu_meta u) i size (mr_mlen _ _ _ H) L) as (m & E). rewrite E.
  rewrite IH by (intros; apply Hl; right; auto).
  destruct (mr_meta _ _ _ H _ _ E) as [_ X]. destruct (slot_of t i) as [s|]; [|congruence].
  destruct (X s eq_refl) as (_ & _ & _ & ->). rewrite handle_of_eq by auto. auto.
Qed.

Lemma sweep_ok last u t now l : MR last u t -> (last <= now)%N -> StronglySorted lt l ->
  (forall i, In i l -> slot_of t i <> None) ->
  exists l', sweep (mu_meta u) now l = Some (map (handle_of t) l') /\ StronglySorted lt l' /\
    (forall i, In i l' <-> In i l /\ aged t now i).
Proof.
  intros H Hn. induction l as [|i l IH]; intros So Hl; cbn [sweep].
  - exists []. split; [reflexivity|]. split; [constructor|]. intros i. cbn. tauto.
  - apply StronglySorted_inv in So. destruct So as [So F].
    destruct (IH So) as (l' & E' & So' & I'). { intros; apply Hl; right; auto. }
    assert (Hi : slot_of t i <> None) by (apply Hl; left; auto).
    assert (L : i < size) by (apply (mr_lt _ _ _ H); auto).
    destruct (nth_error_ex (mu_meta u) i size (mr_mlen _ _ _ H) L) as (m & E). rewrite E, E'.
    destruct (mr_meta _ _ _ H _ _ E) as [Tt X]. destruct (slot_of t i) as [s|] eqn:Es; [|congruence].
    destruct (X s eq_refl) as (Ts & _ & _ & Vr). pose proof (mr_last _ _ _ H _ _ Es) as Le.
    destruct (N.leb_spec (m_ts m) now); [|lia].
    assert (Ag : aged t now i <-> ((0 <? m_ttl m) && (m_ttl m <=? now - m_ts m) = true)%N).
    { rewrite andb_true_iff, N.ltb_lt, N.leb_le, Tt, Ts. unfold aged. split.
      - intros (s0 & E0 & A & B). rewrite Es in E0. injection E0 as <-. lia.
      - intros [A B]. exists s. split; auto. lia. }
    destruct ((0 <? m_ttl m)%N && (m_ttl m <=? now - m_ts m)%N) eqn:B.
    + exists (i :: l'). split. { rewrite Vr, handle_of_eq by auto. reflexivity. }
      split. { constructor; auto. apply Forall_forall. intros x Hx. apply I' in Hx. destruct Hx as [Hx _].
               rewrite Forall_forall in F. auto. }
      intros j. cbn. rewrite I'. split; [intros [->|[A C]]; split; auto; apply Ag; auto|].
      intros [[->|A] C]; auto.
    + exists l'. split; auto. split; auto. intros j. rewrite I'. cbn. split; [tauto|].
      intros [[->|A] C]; auto. apply Ag in C. discriminate.
Qed.

Definition answer (a : list (nat * mkey)) (key : list N) (r : option nat) : Prop :=
  match r with
  | None => forall h k, In (h, k) a -> ~ key_matches kd nbytes k key
  | Some h => exists k, In (h, k) a /\ key_matches kd nbytes k key /\
      forall h' k', In (h', k') a -> key_matches kd nbytes k' key -> kpref kd h k h' k'
  end.

Lemma MR_with_ls last u t ls' a : MR last u t -> LSR kd nbytes size cache ls' a ->
  (forall i k, In (i, k) a <-> exists s, slot_of t i = Some s /\ s_key s = k) ->
  MR last (with_ls u ls') t.
Proof. intros H L C. destruct H. split; auto. cbn [mu_ls with_ls]. eauto. Qed.

Lemma hit_ok last last' u t ls' a ts len key r : MR last u t -> (last <= last')%N -> (ts <= last')%N ->
  LSR kd nbytes size cache ls' a ->
  (forall i k, In (i, k) a <-> exists s, slot_of t i = Some s /\ s_key s = k) ->
  answer a key r ->
  exists u' x t', mu_hit (with_ls u ls') ts len r = Some (u', x) /\
    mspec_step kd nbytes size t (MLookup ts len key) x t' /\ MR last' u' t'.
Proof.
  intros H Hl1 Hl2 La Ca B. pose proof (MR_with_ls _ _ _ _ _ (MR_last _ _ _ _ H Hl1) La Ca) as Hw.
  unfold mu_hit. destruct r as [i|].
  + destruct B as (k & I & Mk & Pf). apply Ca in I. destruct I as (s & E & <-).
    assert (Hi : i < size) by (apply (mr_lt _ _ _ H); congruence).
    cbn [mu_ents mu_meta with_ls].
    destruct (nth_error_ex (mu_ents u) i size (mr_elen _ _ _ H) Hi) as (e & Ee). rewrite Ee.
    destruct (mr_ents _ _ _ H _ _ Ee) as [Ev Ek]. destruct (Ek s E) as [Ek1 Ek2].
    rewrite Ev, handle_set_slot by (apply slot_lt24; auto).
    destruct (nth_error_ex (mu_meta u) i size (mr_mlen _ _ _ H) Hi) as (m & Em). rewrite Em.
    destruct (mr_meta _ _ _ H _ _ Em) as [Tt X]. destruct (X s E) as (_ & Xb & Xp & Xv).
    rewrite Ek2, handle_of_eq by auto.
    do 3 eexists; split; [reflexivity|]. split.
    { apply ms_hit. split; auto. split; auto. intros i' e' E' M'.
      assert (I' : In (i', s_key e') a) by (apply Ca; eauto).
      specialize (Pf _ _ I' M'). destruct kd; auto. }
    eapply (update_keep_key _ (with_ls u ls') t i s); eauto;
      cbn [mu_size mu_num mu_hm mu_meta mu_ents mu_ls set_meta with_ls]; auto.
    * apply H.
    * rewrite list_set_length. apply H.
    * intros j e0 Y. destruct (Nat.eqb_spec j i) as [->|N]; auto. rewrite Ee in Y. injection Y as <-. auto.
    * intros j m0 Y. apply nth_set in Y. destruct (Nat.eqb_spec j i) as [->|N]; auto. subst m0. cbn.
      rewrite Xb, Xp. auto.
  + do 3 eexists; split; [reflexivity|]. split; [|exact Hw].
    apply ms_miss. intros i e E M'. apply (B i (s_key e)); auto. apply Ca. eauto.
Qed.

Lemma step_ok last u t o rest : MR last u t -> ops_ok kd nbytes last (o :: rest) ->
  exists u' x t', mu_step kd nbytes u o = Some (u', x) /\ mspec_step kd nbytes size t o x t' /\
    MR (N.max last (op_time o)) u' t'.
Proof.
  intros H [Hop _].
  assert (KO : forall k, key_ok kd nbytes k -> wf_key kd nbytes k).
  { intros k (A & B & C). split; auto. split; auto. 
    destruct kd; auto.
    destruct C as (C1 & C2 & C3). split; auto. split; auto. intros i Hi. apply C3. lia. }
  assert (ML : MR (N.max last (op_time o)) u t) by (eapply MR_last; eauto; lia).
  destruct o; cbn [mu_step op_time] in *; rewrite ?N.max_0_r in *.
  - (* MAdd *)
    unfold mu_add. destruct (mr_ls _ _ _ H) as (a & La & Ca).
    destruct (ls_retrieve_ok _ _ _ _ _ _ k La (KO _ Hop)) as (r & Er & B). rewrite Er.
    destruct r as [i|].
    { destruct B as (k' & I & Sk). apply Ca in I. destruct I as (s & E & <-).
      do 3 eexists; split; [reflexivity|]. split; [|exact ML]. eapply ms_add_dup; eauto. }
    assert (Nk : forall i e, slot_of t i = Some e -> ~ same_key kd (s_key e) k).
    { intros i e E. apply (B i). apply Ca. eauto. }
    rewrite (mr_size _ _ _ H).
    destruct (enumerates_ok _ _ _ H) as (l & _ & El & Ll).
    assert (Lsz : length l <= size).
    { rewrite <- (seq_length size 0). apply NoDup_incl_length.
      - apply sorted_lt_NoDup, El.
      - intros x J. apply in_seq. destruct El as [_ El]. apply El in J. apply (mr_lt _ _ _ H) in J. lia. }
    destruct (Nat.leb_spec size (mu_num u)) as [Full|Free].
    { do 3 eexists; split; [reflexivity|]. split; [|exact ML]. eapply ms_add_full; eauto. lia. }
    destruct (mr_hm _ _ _ H) as (asp & Rr & Nm & Lv).
    destruct (get_ok _ _ Rr) as (hm' & i & Eg & Fr & Lo & R'). rewrite Eg.
    assert (Si : slot_of t i = None).
    { destruct (slot_of t i) eqn:E; auto. exfalso. apply Fr, Lv. congruence. }
    assert (Lo' : forall j, j < i -> slot_of t j <> None) by (intros j Hj; apply Lv, Lo; auto).
    assert (Hi : i < size).
    { destruct (Nat.lt_ge_cases i size); auto. exfalso.
      assert (size <= length l); [|lia]. rewrite <- (seq_length size 0). apply NoDup_incl_length.
      - apply seq_NoDup.
      - intros x J. apply in_seq in J. destruct El as [_ El]. apply El. apply Lo'. lia. }
    destruct (nth_error_ex (mu_ents u) i size (mr_elen _ _ _ H) Hi) as (e & Ee). rewrite Ee.
    destruct (mr_ents _ _ _ H _ _ Ee) as [Ev _].
    rewrite Ev, handle_set_slot, handle_set_ver by (apply slot_lt24; auto).
    rewrite N.mod_small by apply ver_of_lt.
    assert (Fm : forall j, In j (map fst a) <-> slot_of t j <> None).
    { intros j. rewrite in_map_iff. split.
      - intros ([j' k'] & <- & I). apply Ca in I. destruct I as (s & E & _). cbn. congruence.
      - intros E. destruct (slot_of t j) as [s|] eqn:Es; [|congruence]. exists (j, s_key s). split; auto.
        apply Ca. eauto. }
    destruct (ls_add_ok _ _ _ _ _ _ k i La (KO _ Hop) B Hi) as (ls' & El' & L').
    { intros _ j Hj. apply Fm, Lo'. auto. }
    { rewrite Fm. congruence. }
    rewrite El'.
    destruct (nth_error_ex (mu_meta u) i size (mr_mlen _ _ _ H) Hi) as (m & Em). rewrite Em.
    do 3 eexists; split; [reflexivity|]. split.
    { rewrite handle_of_eq by auto. apply ms_add; auto. }
    split; cbn [mu_size mu_num mu_hm mu_meta mu_ents mu_ls slot_of gen ttl].
    + reflexivity.
    + eexists. split; [apply R'|]. cbn [live length]. split; [lia|].
      intros j. unfold set_slot. destruct (Nat.eqb_spec j i) as [->|N].
      * split; [congruence|]. left; auto.
      * cbn. rewrite Lv. split; [intros [X|X]; congruence|auto].
    + intros j. unfold set_slot. destruct (Nat.eqb_spec j i) as [->|N]; auto. apply H.
    + rewrite list_set_length. apply H.
    + rewrite list_set_length. apply H.
    + intros j e0 X. apply nth_set in X. unfold set_slot. destruct (Nat.eqb_spec j i) as [->|N].
      * subst e0. split; auto. intros s E. injection E as <-. auto.
      * apply (mr_ents _ _ _ H); auto.
    + intros j m0 X. apply nth_set in X. unfold set_slot. destruct (Nat.eqb_spec j i) as [->|N].
      * subst m0. split; [apply (mr_meta _ _ _ H _ _ Em)|]. intros s E. injection E as <-. auto.
      * apply (mr_meta _ _ _ H); auto.
    + intros j s. unfold set_slot. destruct (Nat.eqb_spec j i) as [->|N].
      * intros E. injection E as <-. cbn. lia.
      * intros E. apply (mr_last _ _ _ H) in E. lia.
    + exists (smap_put Nat.ltb i k a). split; auto. intros j k0.
      rewrite in_put; [|apply La|rewrite Fm; congruence]. unfold set_slot.
      destruct (Nat.eqb_spec j i) as [->|N].
      * split.
        -- intros [[_ ->]|X]; [eexists; split; eauto|]. apply Ca in X. destruct X as (s & E & _). congruence.
        -- intros (s & E & <-). injection E as <-. auto.
      * rewrite Ca. split; [intros [[X _]|X]; [congruence|auto]|auto].
  - (* MDel *)
    unfold mu_delete. destruct (resolve_ok _ _ _ h H Hop) as (r & Er & B). rewrite Er.
    destruct r as [c|i e].
    { do 3 eexists; split; [reflexivity|]. split; [constructor; auto|exact ML]. }
    destruct B as (s & Rs & Hi & Es & Ee).
    destruct (mr_ents _ _ _ H _ _ Ee) as [Ev Ek]. destruct (Ek s Es) as [Ek' _]. rewrite Ek'.
    destruct (mr_ls _ _ _ H) as (a & La & Ca).
    assert (Ia : In (i, s_key s) a) by (apply Ca; eauto).
    destruct (ls_delete_ok _ _ _ _ _ _ _ _ La Ia) as (ls' & El & L'). rewrite El.
    destruct (mr_hm _ _ _ H) as (asp & Rr & Nm & Lv).
    assert (Il : In i (live asp)) by (apply Lv; congruence).
    destruct (rel_ok _ _ i Rr) as [(_ & hm' & Eh & R')|(N & _)]; [|contradiction]. rewrite Eh.
    do 3 eexists; split; [reflexivity|]. split; [eapply ms_del; eauto|].
    rewrite Ev. rewrite handle_version_gen, handle_set64_eq by (apply slot_lt24; auto).
    unfold h_gen. rewrite div24, ver_of_S by (apply slot_lt24; auto).
    split; cbn [mu_size mu_num mu_hm mu_meta mu_ents mu_ls slot_of gen ttl].
    + apply H.
    + eexists. split; [apply R'|]. cbn [live]. split.
      * pose proof (remove_h_length i (live asp) (R_nodup _ _ Rr) Il). lia.
      * intros j. unfold remove_h, set_slot. destruct (Nat.eqb_spec j i) as [->|N].
        -- split; [intros X; exfalso; eapply remove_In; eauto|congruence].
        -- rewrite <- Lv. split; [intros X; apply in_remove in X; tauto|]. intros X. apply in_in_remove; auto.
    + intros j. unfold set_slot. destruct (Nat.eqb_spec j i) as [->|N]; auto. apply H.
    + rewrite list_set_length. apply H.
    + apply H.
    + intros j e0 X. apply nth_set in X. unfold set_slot. destruct (Nat.eqb_spec j i) as [->|N].
      * subst e0. split; auto. discriminate.
      * apply (mr_ents _ _ _ H); auto.
    + intros j m0 X. destruct (mr_meta _ _ _ H _ _ X) as [A B]. split; auto.
      unfold set_slot. destruct (Nat.eqb_spec j i) as [->|N]; [discriminate|auto].
    + intros j s0. unfold set_slot. destruct (Nat.eqb_spec j i); [discriminate|]. apply (mr_last _ _ _ H).
    + exists (smap_del Nat.ltb i a). split; auto. intros j k0. rewrite in_del by apply La.
      unfold set_slot. destruct (Nat.eqb_spec j i) as [->|N].
      * split; [tauto|]. intros (s0 & E & _). discriminate.
      * rewrite Ca. tauto.
  - (* MMod *)
    unfold mu_modify. destruct (resolve_ok _ _ _ h H Hop) as (r & Er & B). rewrite Er.
    destruct r as [c|i e].
    { do 3 eexists; split; [reflexivity|]. split; [constructor; auto|exact ML]. }
    destruct B as (s & Rs & Hi & Es & Ee).
    destruct (mr_ents _ _ _ H _ _ Ee) as [Ev Ek]. destruct (Ek s Es) as [Ek' _].
    do 3 eexists; split; [reflexivity|]. split; [eapply ms_mod; eauto|].
    eapply update_keep_key; eauto; cbn [mu_size mu_num mu_hm mu_meta mu_ents mu_ls]; auto.
    + cbn. apply (mr_last _ _ _ H _ _ Es).
    + rewrite list_set_length. apply H.
    + apply H.
    + intros j e0 X. apply nth_set in X. destruct (j =? i); auto. subst e0. cbn. auto.
    + intros j m X. destruct (Nat.eqb_spec j i) as [->|N]; auto.
      destruct (mr_meta _ _ _ H _ _ X) as [A B]. split; auto. cbn. apply B; auto.
  - (* MGet *)
    unfold mu_get_value. destruct (resolve_ok _ _ _ h H Hop) as (r & Er & B). rewrite Er.
    destruct r as [c|i e].
    { do 3 eexists; split; [reflexivity|]. split; [constructor; auto|exact ML]. }
    destruct B as (s & Rs & Hi & Es & Ee).
    destruct (mr_ents _ _ _ H _ _ Ee) as [Ev Ek]. destruct (Ek s Es) as [_ Ek']. rewrite Ek'.
    do 3 eexists; split; [reflexivity|]. split; [eapply ms_get; eauto|exact ML].
  - (* MGetEntry *)
    unfold mu_get_entry. destruct (resolve_ok _ _ _ h H Hop) as (r & Er & B). rewrite Er.
    destruct r as [c|i e].
    { do 3 eexists; split; [reflexivity|]. split; [constructor; auto|exact ML]. }
    destruct B as (s & Rs & Hi & Es & Ee).
    destruct (mr_ents _ _ _ H _ _ Ee) as [Ev Ek]. destruct (Ek s Es) as [-> ->].
    do 3 eexists; split; [reflexivity|]. split; [eapply ms_gete; eauto|exact ML].
  - (* MRetr *)
    unfold mu_retrieve. destruct (mr_ls _ _ _ H) as (a & La & Ca).
    destruct (ls_retrieve_ok _ _ _ _ _ _ k La (KO _ Hop)) as (r & Er & B). rewrite Er.
    destruct r as [i|].
    + destruct B as (k' & I & Sk). apply Ca in I. destruct I as (s & E & <-).
      assert (Hi : i < size) by (apply (mr_lt _ _ _ H); congruence).
      destruct (nth_error_ex (mu_ents u) i size (mr_elen _ _ _ H) Hi) as (e & Ee). rewrite Ee.
      destruct (mr_ents _ _ _ H _ _ Ee) as [-> _]. rewrite handle_of_eq by auto.
      do 3 eexists; split; [reflexivity|]. split; [|exact ML]. eapply ms_retr; eauto.
    + do 3 eexists; split; [reflexivity|]. split; [|exact ML]. apply ms_retr_no.
      intros i e E. apply (B i). apply Ca. eauto.
  - (* MLookup *)
    unfold mu_lookup. destruct (mr_ls _ _ _ H) as (a & La & Ca). destruct Hop as [Hb Hl].
    destruct (ls_lookup_ok _ _ _ _ _ _ key La Hb Hl) as (ls' & r & Er & L' & B). rewrite Er.
    apply (hit_ok last (N.max last ts) u t ls' a ts len key r); auto; lia.
  - (* MTtl *)
    unfold mu_set_ttl, mu_on_meta. rewrite handle_internal_slot.
    destruct (mr_valid _ _ _ (h_slot h) H) as (b & E & B). rewrite E.
    destruct (slot_of t (h_slot h)) as [s|] eqn:Es.
    + destruct b; [|exfalso; assert (false = true) by (apply B; congruence); discriminate].
      assert (L : h_slot h < size) by (apply (mr_lt _ _ _ H); congruence).
      destruct (nth_error_ex (mu_meta u) (h_slot h) size (mr_mlen _ _ _ H) L) as (m & Em). rewrite Em.
      destruct (mr_meta _ _ _ H _ _ Em) as [Tt X]. destruct (X s Es) as (_ & Xb & Xp & Xv).
      do 3 eexists; split; [reflexivity|]. split; [eapply ms_ttl; eauto|].
      eapply (update_keep_key _ u t (h_slot h) s); eauto; cbn [mu_size mu_num mu_hm mu_meta mu_ents mu_ls set_meta fst snd]; auto.
      * cbn. lia.
      * apply H.
      * rewrite list_set_length. apply H.
      * intros j e0 Y. destruct (Nat.eqb_spec j (h_slot h)) as [->|N]; auto.
        destruct (mr_ents _ _ _ H _ _ Y) as [A C]. destruct (C s Es). cbn. auto.
      * intros j m0 Y. apply nth_set in Y. destruct (Nat.eqb_spec j (h_slot h)) as [->|N]; auto. subst m0. cbn.
        rewrite Nat.eqb_refl. auto.
      * intros j N. destruct (Nat.eqb_spec j (h_slot h)); congruence.
    + destruct b; [exfalso; apply B; auto|].
      do 3 eexists; split; [reflexivity|]. split; [apply ms_ttl_err; auto|exact ML].
  - (* MSweep *)
    unfold mu_sweep. destruct (enumerates_ok _ _ _ H) as (l & El & [En1 En2] & Ll). rewrite El.
    destruct (sweep_ok _ _ _ now l H Hop En1) as (l' & E & So & I). { intros i J. apply En2; auto. }
    rewrite E. do 3 eexists; split; [reflexivity|]. split; [|exact ML].
    apply ms_sweep with l; auto. { split; auto. }
    intros i. rewrite I. split; [tauto|]. intros A. split; auto. apply En2.
    destruct A as (s & A & _). congruence.
  - (* MQuery *)
    unfold mu_query, mu_on_meta. rewrite handle_internal_slot.
    destruct (mr_valid _ _ _ (h_slot h) H) as (b & E & B). rewrite E.
    destruct (slot_of t (h_slot h)) as [s|] eqn:Es.
    + destruct b; [|exfalso; assert (false = true) by (apply B; congruence); discriminate].
      assert (L : h_slot h < size) by (apply (mr_lt _ _ _ H); congruence).
      destruct (nth_error_ex (mu_meta u) (h_slot h) size (mr_mlen _ _ _ H) L) as (m & Em). rewrite Em.
      destruct (mr_meta _ _ _ H _ _ Em) as [Tt X]. destruct (X s Es) as (_ & Xb & Xp & Xv).
      cbn [fst snd]. rewrite Xb, Xp.
      do 3 eexists; split; [reflexivity|]. split; [eapply ms_query; eauto|].
      replace (set_meta u (h_slot h) m) with u; auto.
      unfold set_meta. destruct u; cbn in *. f_equal.
      apply nth_error_ext. intros j. destruct (Nat.eq_dec j (h_slot h)) as [->|N].
      * rewrite nth_error_list_set_eq; auto. pose proof (mr_mlen _ _ _ H) as Q. cbn in Q. lia.
      * rewrite nth_error_list_set_neq; auto.
    + destruct b; [exfalso; apply B; auto|].
      do 3 eexists; split; [reflexivity|]. split; [apply ms_query_err; auto|exact ML].
  - (* MWrite *)
    unfold mu_write, mu_on_meta. rewrite handle_internal_slot.
    destruct (mr_valid _ _ _ (h_slot h) H) as (b0 & E & B). rewrite E.
    destruct (slot_of t (h_slot h)) as [s|] eqn:Es.
    + destruct b0; [|exfalso; assert (false = true) by (apply B; congruence); discriminate].
      assert (L : h_slot h < size) by (apply (mr_lt _ _ _ H); congruence).
      destruct (nth_error_ex (mu_meta u) (h_slot h) size (mr_mlen _ _ _ H) L) as (m & Em). rewrite Em.
      destruct (mr_meta _ _ _ H _ _ Em) as [Tt X]. destruct (X s Es) as (Xt & Xb & Xp & Xv).
      do 3 eexists; split; [reflexivity|]. split; [eapply ms_write; eauto|].
      eapply (update_keep_key _ u t (h_slot h) s); eauto; cbn [mu_size mu_num mu_hm mu_meta mu_ents mu_ls set_meta fst snd]; auto.
      * cbn. apply (mr_last _ _ _ H _ _ Es).
      * apply H.
      * rewrite list_set_length. apply H.
      * intros j e0 Y. destruct (Nat.eqb_spec j (h_slot h)) as [->|N]; auto.
        destruct (mr_ents _ _ _ H _ _ Y) as [A C]. destruct (C s Es). cbn. auto.
      * intros j m0 Y. apply nth_set in Y. destruct (Nat.eqb_spec j (h_slot h)) as [->|N]; auto. subst m0. cbn.
        auto.
    + destruct b0; [exfalso; apply B; auto|].
      do 3 eexists; split; [reflexivity|]. split; [apply ms_write_err; auto|exact ML].
  - (* MResetC *)
    do 3 eexists; split; [reflexivity|]. split; [apply ms_resetc|].
    unfold mu_reset_counters.
    split; cbn [mu_size mu_num mu_hm mu_meta mu_ents mu_ls slot_of gen ttl].
    + apply H.
    + destruct (mr_hm _ _ _ H) as (asp & Rr & Nm & Lv). exists asp. split; auto. split; auto.
      intros i. rewrite Lv. destruct (slot_of t i); split; congruence.
    + intros i X. apply (mr_lt _ _ _ H). destruct (slot_of t i); congruence.
    + apply H.
    + rewrite map_length. apply H.
    + intros i e X. destruct (mr_ents _ _ _ H _ _ X) as [A B]. split; auto.
      intros s. destruct (slot_of t i) as [s0|]; [|discriminate]. intros E. injection E as <-. cbn. auto.
    + intros i m X. rewrite nth_error_map in X. destruct (nth_error (mu_meta u) i) as [m0|] eqn:Em; [|discriminate].
      injection X as <-. destruct (mr_meta _ _ _ H _ _ Em) as [A B]. split; auto.
      intros s. destruct (slot_of t i) as [s0|]; [|discriminate]. intros E. injection E as <-. cbn.
      destruct (B s0 eq_refl) as (B1 & B2 & B3 & B4). auto.
    + intros i s. destruct (slot_of t i) as [s0|] eqn:E0; [|discriminate]. intros E. injection E as <-. cbn.
      apply (mr_last _ _ _ H _ _ E0).
    + destruct (mr_ls _ _ _ H) as (a & La & Ca). exists a. split; auto. intros i k. rewrite Ca.
      destruct (slot_of t i) as [s0|]; [|split; intros (s & X & _); discriminate].
      split; intros (s & X & <-); injection X as <-; eexists; split; eauto.
  - (* MIter *)
    unfold mu_iter. destruct (enumerates_ok _ _ _ H) as (l & El & En & Ll). rewrite El.
    rewrite (map_handles_ok _ _ _ l H) by (intros i J; apply En; auto).
    do 3 eexists; split; [reflexivity|]. split; [apply ms_iter; auto|exact ML].
  - (* MCount *)
    destruct (enumerates_ok _ _ _ H) as (l & El & En & Ll). rewrite <- Ll.
    do 3 eexists; split; [reflexivity|]. split; [apply ms_count; auto|exact ML].
  - (* MValid *)
    rewrite handle_internal_slot.
    destruct (mr_valid _ _ _ (h_slot h) H) as (b & E & B). rewrite E.
    do 3 eexists; split; [reflexivity|]. split; [|eauto].
    destruct b; [apply ms_valid_y; apply B; auto|].
    apply ms_valid_n. destruct (slot_of t (h_slot h)); auto. exfalso.
    assert (false = true) by (apply B; congruence). discriminate.
  - (* MReset *)
    do 3 eexists; split; [reflexivity|]. split; [apply ms_reset|].
    unfold mu_reset. rewrite (mr_size _ _ _ H).
    split; cbn; auto.
    + exists a_empty. split; [apply R_empty|]. split; auto. cbn. intros i. split; [intros []|congruence].
    + congruence.
    + apply repeat_length.
    + apply repeat_length.
    + intros i e X. apply nth_error_In, repeat_spec in X. subst e. split; [reflexivity|discriminate].
    + intros i e X. apply nth_error_In, repeat_spec in X. subst e. split; [reflexivity|discriminate].
    + discriminate.
    + destruct (mr_ls _ _ _ H) as (a & La & Ca). exists []. split; [eapply ls_clear_ok; eauto|].
      intros i k. split; [intros []|]. intros (s & X & _). discriminate.
Qed.

Lemma run_ok : forall (ops : list (mop V)) last (u : munit V) (t : stab V), MR last u t -> ops_ok kd nbytes last ops ->
  exists u' outs t' last', mu_run kd nbytes u ops = Some (u', outs) /\
    mspec_run kd nbytes size t ops outs t' /\ MR last' u' t'.
Proof.
  induction ops as [|o ops IH]; intros last u t H Ho; cbn [mu_run].
  - do 4 eexists; split; [reflexivity|]. split; [constructor|eauto].
  - destruct (step_ok _ _ _ _ _ H Ho) as (u' & x & t' & E & Sp & H').
    destruct Ho as [_ Ho]. destruct (IH _ _ _ H' Ho) as (u'' & xs & t'' & l' & E2 & Sp2 & H''). rewrite E, E2.
    do 4 eexists; split; [reflexivity|]. split; [econstructor; eauto|eauto].
Qed.

Lemma run_new (ops : list (mop V)) : ops_ok kd nbytes 0 ops ->
  exists u outs t, mu_run kd nbytes (mu_new kd size cache) ops = Some (u, outs) /\
    mspec_run kd nbytes size tab_empty ops outs t.
Proof.
  intros Ho. destruct (run_ok ops _ _ _ MR_new Ho) as (u & outs & t & l & E & Sp & _). eauto.
Qed.

(** ** Concurrent lookups *)
Lemma ls_probe_ok ls a key ls' r : LSR kd nbytes size cache ls a -> bytes_ok key -> length key = nbytes ->
  ls_probe ls key = (ls', r) ->
  LSR kd nbytes size cache ls' a /\ match r with Some h => answer a key (Some h) | None => True end.
Proof.
  intros L Hb Hl E. pose proof L as (So & Wf & Un & M).
  assert (Lst : kd = KTernary \/ kd = KRange -> forall l, elR (list_cmp kd nbytes) size cache l a ->
    forall l' r, el_probe l key = (l', r) -> elR (list_cmp kd nbytes) size cache l' a /\
     match r with
     | None => True
     | Some h => exists k, In (h, k) a /\ key_matches kd nbytes k key /\
      forall h' k', In (h', k') a -> key_matches kd nbytes k' key ->
        (k_prio k < k_prio k')%Z \/ (k_prio k = k_prio k' /\ h <= h')
     end).
  { intros K l El l' r' Ep. destruct (el_probe_ok _ _ _ _ _ _ _ _ El Ep) as [R' B]. split; auto.
    assert (Q : forall h k, In (h, k) a -> (list_cmp kd nbytes key k = true <-> key_matches kd nbytes k key))
      by (intros; apply list_cmp_ok; eauto).
    destruct r' as [h|]; auto. cbn in B; unfold cmatch in B.
    destruct B as (k & I & P & Mn). exists k. split; auto. split; [apply (Q h k); auto|].
    intros h' k' I' P'. apply Mn; auto. apply (Q h' k'); auto. }
  destruct ls as [m|t|l]; cbn [ls_probe] in E.
  - injection E as <- <-. auto.
  - injection E as <- <-. auto.
  - destruct (el_probe l key) as [l' r'] eqn:Ep. injection E as <- <-. unfold LSR, answer.
    destruct kd; try contradiction.
    + destruct (Lst (or_introl eq_refl) l M _ _ Ep) as [A B]. split; [auto|]. destruct r'; auto.
    + destruct (Lst (or_intror eq_refl) l M _ _ Ep) as [A B]. split; [auto|]. destruct r'; auto.
Qed.

Lemma ls_finish_ok ls a key : LSR kd nbytes size cache ls a -> bytes_ok key -> length key = nbytes ->
  exists ls' r, ls_finish kd nbytes ls key = Some (ls', r) /\ LSR kd nbytes size cache ls' a /\ answer a key r.
Proof.
  intros L Hb Hl. destruct ls as [m|t|l]; [exact (ls_lookup_ok _ _ _ _ _ _ _ L Hb Hl)..|].
  pose proof L as (So & Wf & Un & M).
  assert (Lst : kd = KTernary \/ kd = KRange -> elR (list_cmp kd nbytes) size cache l a ->
    exists l' r, el_finish (list_cmp kd nbytes) l key = Some (l', r) /\ elR (list_cmp kd nbytes) size cache l' a /\
    match r with
    | None => forall h k, In (h, k) a -> ~ key_matches kd nbytes k key
    | Some h => exists k, In (h, k) a /\ key_matches kd nbytes k key /\
      forall h' k', In (h', k') a -> key_matches kd nbytes k' key ->
        (k_prio k < k_prio k')%Z \/ (k_prio k = k_prio k' /\ h <= h')
    end).
  { intros K E. destruct (el_finish_ok _ _ _ _ _ key E) as (l' & r & El & R' & B).
    exists l', r. split; auto. split; auto.
    assert (Q : forall h k, In (h, k) a -> (list_cmp kd nbytes key k = true <-> key_matches kd nbytes k key))
      by (intros; apply list_cmp_ok; eauto).
    destruct r as [h|]; cbn in B; unfold cmatch in B.
    - destruct B as (k & I & P & Mn). exists k. split; auto. split; [apply (Q h k); auto|].
      intros h' k' I' P'. apply Mn; auto. apply (Q h' k'); auto.
    - intros h k I P. apply (B h k I). apply (Q h k); auto. }
  cbn [ls_finish]. unfold LSR, answer. destruct kd; try contradiction.
  - destruct (Lst (or_introl eq_refl) M) as (l' & r & E & R' & B). rewrite E. exists (LSList l'), r. auto 10.
  - destruct (Lst (or_intror eq_refl) M) as (l' & r & E & R' & B). rewrite E. exists (LSList l'), r. auto 10.
Qed.

Definition pend_ok (last : N) (l : list (nat * (N * N * list N))) : Prop :=
  forall tid ts len key, In (tid, (ts, len, key)) l -> (ts <= last)%N /\ bytes_ok key /\ length key = nbytes.

Lemma pend_find_In l tid x : pend_find l tid = Some x -> In (tid, x) l.
Proof.
  induction l as [|[t y] l IH]; cbn; [discriminate|]. destruct (Nat.eqb_spec t tid) as [->|].
  - intros E; injection E as <-; auto.
  - auto.
Qed.
Lemma pend_remove_In l tid y : In y (pend_remove l tid) -> In y l.
Proof.
  induction l as [|[t x] l IH]; cbn; auto. destruct (t =? tid); cbn; tauto.
Qed.
Lemma pend_ok_mono last last' l : pend_ok last l -> (last <= last')%N -> pend_ok last' l.
Proof. intros H L tid ts len key I. specialize (H _ _ _ _ I). intuition lia. Qed.

Lemma c_run_ok : forall (es : list (cev V)) last (u : munit V) pend (t : stab V),
  MR last u t -> pend_ok last pend -> evs_ok kd nbytes last es ->
  exists c' done t', c_run kd nbytes (mkC u pend) es = Some (c', done) /\
    mspec_run kd nbytes size t (map fst done) (map snd done) t'.
Proof.
  induction es as [|e es IH]; intros last u pend t H Hp Ho; cbn [c_run].
  - do 3 eexists; split; [reflexivity|]. constructor.
  - assert (Skip : forall last', (last <= last')%N -> evs_ok kd nbytes last' es ->
      exists c' done t', c_run kd nbytes (mkC u pend) es = Some (c', done) /\
       mspec_run kd nbytes size t (map fst done) (map snd done) t').
    { intros last' L E. eapply (IH last'); eauto using MR_last, pend_ok_mono. }
    destruct e as [o|tid ts len key|tid]; cbn [c_step c_unit c_pend evs_ok] in *.
    + destruct Ho as [Ho Hr].
      destruct (is_lookup o) eqn:Il.
      { destruct (Skip _ (N.le_max_l _ _) Hr) as (c' & d & t' & E & Sp). rewrite E. eauto. }
      destruct (negb (read_only o) && negb (length pend =? 0)).
      { destruct (Skip _ (N.le_max_l _ _) Hr) as (c' & d & t' & E & Sp). rewrite E. eauto. }
      destruct (step_ok _ _ _ _ _ H Ho) as (u' & x & t' & E & Sp & H'). rewrite E.
      destruct (IH _ _ pend _ H') as (c' & d & t'' & E2 & Sp2); auto.
      { eapply pend_ok_mono; eauto. lia. }
      rewrite E2. exists c', ((o, x) :: d), t''. split; auto. cbn. econstructor; eauto.
    + destruct Ho as [[Hb Hl] Hr].
      destruct (pend_find pend tid).
      { destruct (Skip _ (N.le_max_l _ _) Hr) as (c' & d & t' & E & Sp). rewrite E. eauto. }
      destruct (ls_probe (mu_ls u) key) as [ls' r] eqn:Ep.
      destruct (mr_ls _ _ _ H) as (a & La & Ca).
      destruct (ls_probe_ok _ _ _ _ _ La Hb Hl Ep) as [L' B].
      destruct r as [i|].
      * destruct (hit_ok last (N.max last ts) u t ls' a ts len key (Some i) H) as (u' & x & t' & E & Sp & H'); auto; try lia.
        rewrite E. destruct (IH _ _ pend _ H') as (c' & d & t'' & E2 & Sp2); auto.
        { eapply pend_ok_mono; eauto. lia. }
        rewrite E2. eexists c', (_ :: d), t''. split; [reflexivity|]. cbn. econstructor; eauto.
      * destruct (IH (N.max last ts) (with_ls u ls') ((tid, (ts, len, key)) :: pend) t) as (c' & d & t'' & E2 & Sp2); auto.
        { eapply MR_with_ls; eauto. eapply MR_last; eauto. lia. }
        { intros tid' ts' len' key' [E|I].
          - injection E as <- <- <- <-. split; [lia|auto].
          - specialize (Hp _ _ _ _ I). intuition lia. }
        rewrite E2. eauto.
    + destruct (pend_find pend tid) as [[[ts len] key]|] eqn:Ef.
      2: { destruct (Skip _ (N.le_refl _) Ho) as (c' & d & t' & E & Sp). rewrite E. eauto. }
      apply pend_find_In in Ef. destruct (Hp _ _ _ _ Ef) as (Ht & Hb & Hl).
      destruct (mr_ls _ _ _ H) as (a & La & Ca).
      destruct (ls_finish_ok _ _ _ La Hb Hl) as (ls' & r & Er & L' & B). rewrite Er.
      destruct (hit_ok last last u t ls' a ts len key r H) as (u' & x & t' & E & Sp & H'); auto; try lia.
      rewrite E. destruct (IH _ _ (pend_remove pend tid) _ H') as (c' & d & t'' & E2 & Sp2); auto.
      { intros tid' ts' len' key' I. apply pend_remove_In in I. eapply Hp; eauto. }
      rewrite E2. eexists c', (_ :: d), t''. split; [reflexivity|]. cbn. econstructor; eauto.
Qed.
End Unit.
