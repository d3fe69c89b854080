(** Histories of PI calls on a table. *)
From Coq Require Import List Arith NArith ZArith Bool Lia Sorted.
From Verif Require Import Base Bits Bytes EntryListModel EntryListSpec MatchUnitModel MatchUnitSpec
  MatchUnitProofs MatchUnitConseq
  KeyBuilderModel KeyBuilderSpec KeyBuilderProofs KeyBuilderProofs2 KeyBuilderProofs3 KeyBuilderProps
  PiTblModel PiTblSpec PiTblProofs PiTblProofs2 PiTblProofs3.
Import ListNotations.

Section H.
Context {V : Type}.
Variables (kd : mkind) (fs : list pif) (ks : list kfield) (size : nat) (cache : bool).
Hypothesis AG : agree kd fs ks.
Hypothesis SZ : (N.of_nat size <= 2 ^ 24)%N.
Let nb := kb_nbytes (kb_build ks).

Lemma nb_eq : nb = key_bytes ks. Proof. apply build_nb. Qed.

Definition ent_ok (e : pentry V) : Prop :=
  Forall2 fits fs (pe_ms e) /\ Forall2 sensible fs (pe_ms e) /\ (pe_prio e <= prio_limit)%N.
Definition slot_rel (s : option (sent V)) (e : option (pentry V)) : Prop :=
  match s, e with
  | None, None => True
  | Some s, Some e => ent_ok e /\ s_key s = key_of kd fs ks (pe_ms e) (pe_prio e) /\ s_val s = pe_val e
  | _, _ => False
  end.

(** The table by handle, seen through the slots. *)
Definition SR (t : stab V) (T : tbl V) : Prop :=
  exists g : nat -> option (pentry V),
    (forall i, slot_rel (slot_of t i) (g i)) /\
    (forall h, T h = if (h =? handle_of t (h_slot h))%N then g (h_slot h) else None).

Definition XR (u : munit V) (T : tbl V) : Prop :=
  exists t last, MR kd nb size cache last u t /\ inv kd nb size t /\ SR t T.
Implicit Type t : stab V.

Lemma hslot t i : inv kd nb size t -> slot_of t i <> None -> h_slot (handle_of t i) = i.
Proof. intros I S. apply (handle_of_slot kd nb size t i I SZ S). Qed.
Lemma hslot_lt (t : stab V) i : i < size -> h_slot (handle_of t i) = i /\ (handle_of t i < 2 ^ 32)%N.
Proof.
  intros L. unfold h_slot, handle_of. change (2 ^ 24)%N with 16777216%N in *. change (2 ^ 32)%N with 4294967296%N.
  assert (G : gen t i mod 256 < 256) by (apply Nat.mod_upper_bound; lia). set (q := gen t i mod 256) in *. clearbody q.
  rewrite N.add_comm, N.mod_add by lia. rewrite N.mod_small by lia. split; lia.
Qed.

Lemma T_slot t T h e : SR t T -> T h = Some e ->
  exists s, slot_of t (h_slot h) = Some s /\ h = handle_of t (h_slot h) /\ ent_ok e /\
    s_key s = key_of kd fs ks (pe_ms e) (pe_prio e) /\ s_val s = pe_val e.
Proof.
  intros (g & G1 & G2) E. rewrite G2 in E. destruct (N.eqb_spec h (handle_of t (h_slot h))) as [Q|Q]; [|discriminate].
  specialize (G1 (h_slot h)). rewrite E in G1. destruct (slot_of t (h_slot h)) as [s|]; [|contradiction].
  exists s. cbn in G1. tauto.
Qed.
Lemma slot_T t T i s : inv kd nb size t -> SR t T -> slot_of t i = Some s ->
  exists e, T (handle_of t i) = Some e /\ ent_ok e /\
    s_key s = key_of kd fs ks (pe_ms e) (pe_prio e) /\ s_val s = pe_val e.
Proof.
  intros I (g & G1 & G2) E. assert (HS := hslot t i I ltac:(congruence)).
  rewrite G2, HS, N.eqb_refl. specialize (G1 i). rewrite E in G1. destruct (g i) as [e|]; [|contradiction].
  exists e. cbn in G1. tauto.
Qed.

Lemma handle_gen (t : stab V) h : (h < 2 ^ 32)%N -> h_gen h = N.of_nat (gen t (h_slot h) mod 256) -> h = handle_of t (h_slot h).
Proof.
  intros L E. unfold handle_of. rewrite <- E. unfold h_gen, h_slot. rewrite N2Nat.id.
  pose proof (N.div_mod' h (2 ^ 24)). lia.
Qed.
Lemma gen_handle t h : inv kd nb size t -> slot_of t (h_slot h) <> None ->
  h = handle_of t (h_slot h) -> h_gen h = N.of_nat (gen t (h_slot h) mod 256).
Proof.
  intros I S E. rewrite E at 1. apply (handle_of_slot kd nb size t (h_slot h) I SZ S).
Qed.

Lemma res_none t T h c : (h < 2 ^ 32)%N -> inv kd nb size t -> SR t T -> resolves t h (inl c) -> T h = None /\ gone c.
Proof.
  intros L I S R. destruct (T h) as [e|] eqn:E.
  - destruct (T_slot _ _ _ _ S E) as (s & E1 & E2 & _).
    assert (GH := gen_handle t h I ltac:(congruence) E2). inversion R; subst; congruence.
  - split; auto. unfold gone. inversion R; auto.
Qed.
Lemma res_some t T h i s : (h < 2 ^ 32)%N -> SR t T -> resolves t h (inr (i, s)) ->
  i = h_slot h /\ slot_of t i = Some s /\ h = handle_of t i /\
  exists e, T h = Some e /\ ent_ok e /\ s_key s = key_of kd fs ks (pe_ms e) (pe_prio e) /\ s_val s = pe_val e.
Proof.
  intros L (g & G1 & G2) R. destruct (resolves_slot _ _ _ _ R) as (E1 & -> & E3).
  assert (HG := handle_gen t h L E3). split; auto. split; auto. split; auto.
  rewrite G2, <- HG, N.eqb_refl. specialize (G1 (h_slot h)). rewrite E1 in G1.
  destruct (g (h_slot h)) as [e|]; [|contradiction]. exists e. cbn in G1. tauto.
Qed.

(** Writing one slot whose generation does not change. *)
Lemma SR_set t T i (s : sent V) e tt : i < size -> SR t T -> slot_rel (Some s) (Some e) ->
  SR (mkTab (set_slot (slot_of t) i (Some s)) (gen t) tt) (t_set T (handle_of t i) (Some e)).
Proof.
  intros L (g & G1 & G2) R. exists (fun j => if j =? i then Some e else g j). split.
  - intros j. cbn [slot_of]. unfold set_slot. destruct (Nat.eqb_spec j i); auto.
  - intros h. unfold t_set. change (handle_of (mkTab (set_slot (slot_of t) i (Some s)) (gen t) tt)) with (handle_of t).
    rewrite G2. destruct (hslot_lt t i L) as [HS _].
    destruct (N.eqb_spec h (handle_of t i)) as [->|N].
    + rewrite HS, N.eqb_refl, Nat.eqb_refl. reflexivity.
    + destruct (N.eqb_spec h (handle_of t (h_slot h))) as [Q|Q]; auto.
      destruct (Nat.eqb_spec (h_slot h) i); auto. congruence.
Qed.
Lemma SR_touch t T i (s s' : sent V) tt : SR t T -> slot_of t i = Some s -> s_key s' = s_key s -> s_val s' = s_val s ->
  SR (mkTab (set_slot (slot_of t) i (Some s')) (gen t) tt) T.
Proof.
  intros (g & G1 & G2) E K W. exists g. split; [|exact G2].
  intros j. cbn [slot_of]. unfold set_slot. destruct (Nat.eqb_spec j i) as [->|]; auto.
  specialize (G1 i). rewrite E in G1. destruct (g i); cbn in *; [|contradiction]. rewrite K, W. exact G1.
Qed.
Lemma SR_del t T i : i < size -> SR t T ->
  SR (mkTab (set_slot (slot_of t) i None) (fun j => if j =? i then S (gen t i) else gen t j) (ttl t))
     (t_set T (handle_of t i) None).
Proof.
  intros L (g & G1 & G2). exists (fun j => if j =? i then None else g j). split.
  - intros j. cbn [slot_of]. unfold set_slot. destruct (Nat.eqb_spec j i); cbn; auto.
  - intros h. unfold t_set. rewrite G2.
    destruct (hslot_lt t i L) as [HS _].
    unfold handle_of at 3. cbn [gen].
    destruct (Nat.eqb_spec (h_slot h) i) as [E|N].
    + assert (X : (if (h =? handle_of t i)%N then None else if (h =? handle_of t (h_slot h))%N then g (h_slot h) else None) = @None (pentry V)).
      { rewrite E. destruct (N.eqb_spec h (handle_of t i)); auto. }
      rewrite X. match goal with |- _ = (if ?b then _ else _) => destruct b; reflexivity end.
    + destruct (N.eqb_spec h (handle_of t i)) as [Q|Q]; [exfalso; apply N; rewrite Q; exact HS|].
      reflexivity.
Qed.

Lemma SR_ext t T T' : (forall h, T h = T' h) -> SR t T -> SR t T'.
Proof. intros E (g & G1 & G2). exists g. split; auto. intros h. rewrite <- E. auto. Qed.

Lemma full_iff t T l : inv kd nb size t -> SR t T -> enumerates t l -> length l = size -> full size T.
Proof.
  intros I S [ES EI] EL. exists (map (handle_of t) l). split; [|split].
  - assert (ND : NoDup l).
    { clear -ES. induction ES as [|x l _ IH A]; constructor; auto. intros X. rewrite Forall_forall in A. specialize (A x X). lia. }
    clear EL. assert (AL : forall i, In i l -> h_slot (handle_of t i) = i) by (intros i Hi; apply hslot; auto; apply EI; auto).
    clear EI ES. induction l as [|x l IH]; cbn [map]; constructor.
    + inversion ND; subst. intros X. apply in_map_iff in X as (y & E & Y). apply (f_equal h_slot) in E.
      rewrite AL in E by (right; auto). rewrite AL in E by (left; auto). subst. auto.
    + inversion ND; subst. apply IH; auto. intros i Hi. apply AL. right; auto.
  - rewrite map_length. auto.
  - intros h. split.
    + intros X. apply in_map_iff in X as (i & <- & Hi). apply EI in Hi. destruct (slot_of t i) as [s|] eqn:E; [|congruence].
      destruct (slot_T _ _ _ _ I S E) as (e & -> & _). discriminate.
    + intros X. destruct (T h) as [e|] eqn:E; [|congruence].
      destruct (T_slot _ _ _ _ S E) as (s & E1 & E2 & _). rewrite E2. apply in_map. apply EI. congruence.
Qed.
Lemma not_full t T i : inv kd nb size t -> SR t T -> i < size -> slot_of t i = None -> ~ full size T.
Proof.
  intros I S L E (l & ND & LL & IN).
  assert (X : incl (map h_slot l) (filter (fun j => negb (j =? i)) (seq 0 size))).
  { intros j Hj. apply in_map_iff in Hj as (h & <- & Hh). apply IN in Hh. destruct (T h) as [e|] eqn:E'; [|congruence].
    destruct (T_slot _ _ _ _ S E') as (s & E1 & _). apply filter_In. split.
    - apply in_seq. pose proof (iv_lt _ _ _ _ I (h_slot h) ltac:(congruence)). lia.
    - destruct (Nat.eqb_spec (h_slot h) i); auto. congruence. }
  assert (ND' : NoDup (map h_slot l)).
  { assert (AL : forall h, In h l -> h = handle_of t (h_slot h)).
    { intros h Hh. apply IN in Hh. destruct (T h) as [e|] eqn:E'; [|congruence]. destruct (T_slot _ _ _ _ S E') as (s & _ & E2 & _). auto. }
    clear -ND AL. induction l as [|x l IH]; cbn [map]; constructor.
    - inversion ND; subst. intros X. apply in_map_iff in X as (y & Ey & Y).
      assert (x = y) by (rewrite (AL x (or_introl eq_refl)), (AL y (or_intror Y)), Ey; reflexivity). subst. auto.
    - inversion ND; subst. apply IH; auto. intros h Hh. apply AL. right; auto. }
  pose proof (NoDup_incl_length ND' X) as Q. rewrite map_length in Q.
  assert (Y : length (filter (fun j => negb (j =? i)) (seq 0 size)) < size).
  { clear -L. assert (G : forall a n, a <= i < a + n -> length (filter (fun j => negb (j =? i)) (seq a n)) < n).
    { intros a n; revert a; induction n as [|n IH]; intros a H; [lia|]. cbn [seq filter].
      destruct (Nat.eqb_spec a i); cbn [negb length].
      - assert (length (filter (fun j => negb (j =? i)) (seq (S a) n)) <= n).
        { clear. generalize (S a). induction n as [|n IHn]; intros b; cbn [seq filter]; [apply Nat.le_refl|].
          specialize (IHn (S b)). destruct (negb (b =? i)); cbn [length]; lia. }
        lia.
      - specialize (IH (S a) ltac:(lia)). lia. }
    apply G. lia. }
  lia.
Qed.

Lemma same_in t T i s ms prio : inv kd nb size t -> SR t T -> slot_of t i = Some s ->
  Forall2 fits fs ms -> Forall2 sensible fs ms -> (prio <= prio_limit)%N ->
  same_key kd (s_key s) (key_of kd fs ks ms prio) ->
  exists e, T (handle_of t i) = Some e /\ same_entry kd fs e ms prio.
Proof.
  intros I S E F SE P K. destruct (slot_T _ _ _ _ I S E) as (e & E1 & (O1 & O2 & O3) & E2 & _).
  exists e. split; auto. rewrite E2 in K. apply (same_of_keys kd fs ks AG) in K; auto.
Qed.
Lemma same_none t T ms prio : inv kd nb size t -> SR t T ->
  Forall2 fits fs ms -> Forall2 sensible fs ms -> (prio <= prio_limit)%N ->
  (forall i s, slot_of t i = Some s -> ~ same_key kd (s_key s) (key_of kd fs ks ms prio)) ->
  forall h e, T h = Some e -> ~ same_entry kd fs e ms prio.
Proof.
  intros I S F SE P K h e E X. destruct (T_slot _ _ _ _ S E) as (s & E1 & _ & (O1 & O2 & O3) & E2 & _).
  apply (K _ _ E1). rewrite E2. apply (same_of_keys kd fs ks AG); auto.
Qed.

Lemma h32_small h : (h < 2 ^ 32)%N -> h32 h = h.
Proof. intros H. apply N.mod_small. exact H. Qed.

Lemma mstep u t last o : MR kd nb size cache last u t -> inv kd nb size t -> ops_ok kd nb last [o] ->
  exists u' x t', mu_step kd nb u o = Some (u', x) /\ mspec_step kd nb size t o x t' /\
    inv kd nb size t' /\ (forall T', SR t' T' -> XR u' T') /\ exists last', MR kd nb size cache last' u' t'.
Proof.
  intros M I O. destruct (step_ok kd nb size cache SZ _ _ _ o [] M O) as (u' & x & t' & E & S & M').
  assert (I' := step_inv kd nb size _ _ _ _ _ _ I O S).
  exists u', x, t'. split; auto. split; auto. split; auto. split; [|eauto]. intros T' S'. exists t', (N.max last (op_time o)). auto.
Qed.

Definition answered (u : munit V) (T : tbl V) (o : xop V) (r : option (munit V * xout V)) : Prop :=
  exists u' x T', r = Some (u', x) /\ x_spec kd fs ks size T o x T' /\ XR u' T'.

Lemma del_ok u t last T h : MR kd nb size cache last u t -> inv kd nb size t -> SR t T -> (h < 2 ^ 32)%N ->
  (T h = None /\ exists u' c, x_del kd ks u h = Some (u', XErr c) /\ gone c /\ XR u' T) \/
  (T h <> None /\ exists u', x_del kd ks u h = Some (u', XOk) /\ XR u' (t_set T h None)).
Proof.
  intros M I S L. unfold x_del. rewrite h32_small by auto. fold nb.
  destruct (mstep u t last (MDel h) M I) as (u' & x & t' & E & SP & I' & RT & _); [split; cbn; auto|].
  rewrite E. inversion SP; subst;
    match goal with Hr : resolves _ _ _ |- _ => rename Hr into HR end.
  - left. destruct (res_none _ _ _ _ L I S HR) as [N G]. split; auto.
    exists u', c. split; auto. destruct G as [-> | ->]; reflexivity.
  - right. destruct (res_some _ _ _ _ _ L S HR) as (-> & E1 & E2 & e0 & E3 & _).
    split; [congruence|]. exists u'. split; auto. apply RT.
    match goal with |- SR _ (t_set T h ?x) =>
      replace (t_set T h x) with (t_set T (handle_of t (h_slot h)) x) by (rewrite <- E2; reflexivity) end.
    apply SR_del; auto. apply (iv_lt _ _ _ _ I). congruence.
Qed.

Lemma mod_ok u t last T h v : MR kd nb size cache last u t -> inv kd nb size t -> SR t T -> (h < 2 ^ 32)%N ->
  (T h = None /\ exists u' c, x_mod kd ks u h v = Some (u', XErr c) /\ gone c /\ XR u' T) \/
  (exists e u', T h = Some e /\ x_mod kd ks u h v = Some (u', XOk) /\
     XR u' (t_set T h (Some (mkPE (pe_ms e) (pe_prio e) v)))).
Proof.
  intros M I S L. unfold x_mod. rewrite h32_small by auto. fold nb.
  destruct (mstep u t last (MMod h v) M I) as (u' & x & t' & E & SP & I' & RT & _); [split; cbn; auto|].
  rewrite E. inversion SP; subst;
    match goal with Hr : resolves _ _ _ |- _ => rename Hr into HR end.
  - left. destruct (res_none _ _ _ _ L I S HR) as [N G]. split; auto.
    exists u', c. split; auto. destruct G as [-> | ->]; reflexivity.
  - right. destruct (res_some _ _ _ _ _ L S HR) as (-> & E1 & E2 & e0 & E3 & O & E4 & _).
    exists e0, u'. split; auto. split; auto. apply RT.
    match goal with |- SR _ (t_set T h ?x) =>
      replace (t_set T h x) with (t_set T (handle_of t (h_slot h)) x) by (rewrite <- E2; reflexivity) end.
    apply SR_set; auto.
    + apply (iv_lt _ _ _ _ I). congruence.
    + cbn. auto.
Qed.

Lemma fetch_ok u t last T h : MR kd nb size cache last u t -> inv kd nb size t -> SR t T -> (h < 2 ^ 32)%N ->
  (T h = None /\ exists u' c, x_fetch kd ks u h = Some (u', XErr c) /\ gone c /\ XR u' T) \/
  (exists e u', T h = Some e /\ x_fetch kd ks u h = Some (u', shown kd fs h e) /\ XR u' T).
Proof.
  intros M I S L. unfold x_fetch. rewrite h32_small by auto. fold nb.
  destruct (mstep u t last (MGetEntry h) M I) as (u' & x & t' & E & SP & I' & RT & _); [split; cbn; auto|].
  rewrite E. inversion SP; subst;
    match goal with Hr : resolves _ _ _ |- _ => rename Hr into HR end.
  - left. destruct (res_none _ _ _ _ L I S HR) as [N G]. split; auto.
    exists u', c. split; auto.
  - right. destruct (res_some _ _ _ _ _ L S HR) as (-> & E1 & E2 & e0 & E3 & (O1 & O2 & O3) & E4 & E5).
    exists e0, u'. split; auto. rewrite E4.
    destruct (read_of kd fs ks AG (pe_ms e0) (pe_prio e0) O1 O2) as (ps & -> & EM).
    rewrite (prio_of kd fs ks AG) by auto. unfold shown. rewrite EM, E5. auto.
Qed.

Lemma retr_ok u t last T key ms prio none f : MR kd nb size cache last u t -> inv kd nb size t -> SR t T ->
  keyed fs key ms -> (prio <= prio_limit)%N ->
  ((Forall2 sensible fs ms -> forall h e, T h = Some e -> ~ same_entry kd fs e ms prio) /\
   exists u', x_with_key kd fs ks u key prio none f = Some (u', none MBadKey) /\ XR u' T) \/
  (Forall2 sensible fs ms /\ exists h e u' t' last', T h = Some e /\ same_entry kd fs e ms prio /\ (h < 2 ^ 32)%N /\
     x_with_key kd fs ks u key prio none f = f u' h /\ MR kd nb size cache last' u' t' /\ inv kd nb size t' /\ SR t' T).
Proof.
  intros M I S [F ->] P. unfold x_with_key.
  destruct (sensible_dec fs ms F) as [SE|SE].
  2:{ left. split; [intros X; contradiction|]. rewrite (build_bad kd fs ks AG) by auto. exists u. split; auto. exists t, last. auto. }
  rewrite (build_ok kd fs ks AG) by auto. fold nb.
  destruct (mstep u t last (MRetr (key_of kd fs ks ms prio)) M I) as (u' & x & t' & E & SP & I' & RT & last' & M').
  { split; [|exact Logic.I]. change (key_ok kd nb (key_of kd fs ks ms prio)). rewrite nb_eq. apply key_ok_of; auto. }
  rewrite E. inversion SP; subst.
  - left. split; [|eauto]. intros _. eapply same_none; eauto.
  - right. split; auto.
    match goal with X : slot_of _ _ = Some _, Y : same_key _ _ _ |- _ => rename X into HA; rename Y into HB end.
    destruct (same_in _ _ _ _ _ _ I S HA F SE P HB) as (e' & E1 & E2).
    exists (handle_of t' i), e', u', t', last'. split; auto. split; auto. split; [|auto].
    apply hslot_lt. apply (iv_lt _ _ _ _ I). congruence.
Qed.

Lemma x_step_ok u T o : XR u T -> xop_ok fs ks o -> answered u T o (x_step kd fs ks u o).
Proof.
  intros (t & last & M & I & S) O. unfold answered.
  assert (TH : forall p, too_high p = true -> (prio_limit < p)%N) by (intros p X; apply N.ltb_lt in X; exact X).
  assert (TL : forall p, too_high p = false -> (p <= prio_limit)%N) by (intros p X; apply N.ltb_ge in X; exact X).
  assert (X0 : XR u T) by (exists t, last; auto).
  destruct o as [now key prio v|h v|h|key prio|key prio v|h|key prio|ts len phv]; unfold x_step.
  - destruct O as [ms [F ->]]. destruct (too_high prio) eqn:TP.
    { do 3 eexists. split; [reflexivity|]. split; [apply xs_add_prio; auto|auto]. }
    apply TL in TP. destruct (sensible_dec fs ms F) as [SE|SE].
    2:{ rewrite (build_bad kd fs ks AG) by auto. do 3 eexists. split; [reflexivity|]. split; [|eauto].
        eapply xs_add_bad; eauto. split; auto. }
    rewrite (build_ok kd fs ks AG) by auto. fold nb.
    destruct (mstep u t last (MAdd now (key_of kd fs ks ms prio) v) M I) as (u' & x & t' & E & SP & I' & RT & last' & M').
    { split; [|exact Logic.I]. change (key_ok kd nb (key_of kd fs ks ms prio)). rewrite nb_eq. apply key_ok_of; auto. }
    rewrite E. inversion SP; subst.
    + match goal with X : slot_of _ _ = Some _, Y : same_key _ _ _ |- _ => rename X into HA; rename Y into HB end.
      destruct (same_in _ _ _ _ _ _ I S HA F SE TP HB) as (e' & E1 & E2).
      do 3 eexists. split; [reflexivity|]. split; [|eauto]. eapply xs_add_dup; eauto. split; auto.
    + do 3 eexists. split; [reflexivity|]. split; [|eauto]. eapply xs_add_full; eauto.
      * split; auto.
      * eapply same_none; eauto.
      * eapply full_iff; eauto.
    + do 3 eexists. split; [reflexivity|]. split.
      * eapply xs_add with (ms := ms); eauto.
        -- split; auto.
        -- apply (same_none t T); auto.
        -- apply (not_full t T i); auto.
        -- destruct S as (g & G1 & G2). rewrite G2. destruct (hslot_lt t i ltac:(assumption)) as [HS _]. rewrite HS, N.eqb_refl.
           specialize (G1 i). match goal with X : slot_of _ _ = None |- _ => rewrite X in G1 end. destruct (g i); [contradiction|reflexivity].
        -- apply hslot_lt; auto.
      * apply RT. apply SR_set; auto. cbn. split; [|auto]. split; auto.
  - destruct (mod_ok u t last T h v M I S O) as [(N & u' & c & E & G & R)|(e & u' & N & E & R)]; rewrite E.
    + do 3 eexists. split; [reflexivity|]. split; [apply xs_mod_no; auto|auto].
    + do 3 eexists. split; [reflexivity|]. split; [apply xs_mod; eauto|auto].
  - destruct (del_ok u t last T h M I S O) as [(N & u' & c & E & G & R)|(N & u' & E & R)]; rewrite E.
    + do 3 eexists. split; [reflexivity|]. split; [apply xs_del_no; auto|auto].
    + do 3 eexists. split; [reflexivity|]. split; [apply xs_del; auto|auto].
  - destruct (too_high prio) eqn:TP.
    { do 3 eexists. split; [reflexivity|]. split; [apply xs_delk_prio; auto|auto]. }
    apply TL in TP. destruct O as [ms O].
    destruct (retr_ok u t last T key ms prio XErr (x_del kd ks) M I S O TP) as [(N & u' & E & R)|(SE & h & e & u' & t' & l' & E1 & E2 & L & E & M' & I' & S')]; rewrite E.
    + do 3 eexists. split; [reflexivity|]. split; [eapply xs_delk_bad; eauto|auto].
    + destruct (del_ok u' t' l' T h M' I' S' L) as [(N & _)|(N & u'' & E' & R)]; [congruence|]. rewrite E'.
      do 3 eexists. split; [reflexivity|]. split; [eapply xs_delk; eauto|auto].
  - destruct (too_high prio) eqn:TP.
    { do 3 eexists. split; [reflexivity|]. split; [apply xs_modk_prio; auto|auto]. }
    apply TL in TP. destruct O as [ms O].
    destruct (retr_ok u t last T key ms prio XErr (fun u h => x_mod kd ks u h v) M I S O TP) as [(N & u' & E & R)|(SE & h & e & u' & t' & l' & E1 & E2 & L & E & M' & I' & S')]; rewrite E.
    + do 3 eexists. split; [reflexivity|]. split; [eapply xs_modk_bad; eauto|auto].
    + destruct (mod_ok u' t' l' T h v M' I' S' L) as [(N & _)|(e' & u'' & N & E' & R)]; [congruence|]. rewrite E'.
      assert (e' = e) by congruence. subst e'.
      do 3 eexists. split; [reflexivity|]. split; [eapply xs_modk; eauto|auto].
  - destruct (fetch_ok u t last T h M I S O) as [(N & u' & c & E & G & R)|(e & u' & N & E & R)]; rewrite E.
    + do 3 eexists. split; [reflexivity|]. split; [apply xs_get_no; auto|auto].
    + do 3 eexists. split; [reflexivity|]. split; [apply xs_get; eauto|auto].
  - destruct O as [[ms O] TP].
    destruct (retr_ok u t last T key ms prio (fun _ => XNoEntry) (x_fetch kd ks) M I S O TP) as [(N & u' & E & R)|(SE & h & e & u' & t' & l' & E1 & E2 & L & E & M' & I' & S')]; rewrite E.
    + do 3 eexists. split; [reflexivity|]. split; [eapply xs_getk_no; eauto|auto].
    + destruct (fetch_ok u' t' l' T h M' I' S' L) as [(N & _)|(e' & u'' & N & E' & R)]; [congruence|]. rewrite E'.
      assert (e' = e) by congruence. subst e'.
      do 3 eexists. split; [reflexivity|]. split; [eapply xs_getk; eauto|auto].
  - cbn in O. fold nb.
    assert (BK : bytes_ok (kb_key (kb_build ks) phv) /\ length (kb_key (kb_build ks) phv) = nb).
    { rewrite nb_eq. apply kb_key_shape; auto. apply (ag_layout kd fs ks AG). }
    destruct (mstep u t last (MLookup ts len (kb_key (kb_build ks) phv)) M I) as (u' & x & t' & E & SP & I' & RT & last' & M').
    { split; [exact BK|exact Logic.I]. }
    rewrite E. inversion SP; subst.
    + do 3 eexists. split; [reflexivity|]. split; [|eauto]. apply xs_miss. intros h e Eh AH.
      destruct (T_slot _ _ _ _ S Eh) as (s & E1 & _ & (O1 & O2 & O3) & E2 & _).
      match goal with X : lookup_answer _ _ _ _ _ |- _ => apply (X _ _ E1) end. rewrite E2, nb_eq. apply (match_of kd fs ks AG); auto.
    + match goal with X : lookup_answer _ _ _ _ _ |- _ => destruct X as (E1 & K1 & B1) end. destruct (slot_T _ _ _ _ I S E1) as (e0 & T0 & (O1 & O2 & O3) & E2 & E3).
      do 3 eexists. split; [reflexivity|]. split.
      * rewrite E3. apply xs_hit; auto.
        -- rewrite E2, nb_eq in K1. apply (match_of kd fs ks AG) in K1; auto.
        -- intros h' e' Th' AH'. destruct (T_slot _ _ _ _ S Th') as (s' & E1' & HH & (O1' & O2' & O3') & E2' & _).
           assert (KM : key_matches kd nb (s_key s') (kb_key (kb_build ks) phv)).
           { rewrite E2', nb_eq. apply (match_of kd fs ks AG); auto. }
           specialize (B1 _ _ E1' KM).
           assert (LS : forall j, slot_of t j <> None -> (handle_of t j mod 2 ^ 24 = N.of_nat j)%N).
           { intros j Hj. pose proof (hslot t j I Hj) as X. unfold h_slot in X. lia. }
           unfold preferred in B1. unfold before. rewrite E2, E2' in B1.
           assert (RKD : ranked kd -> ((Z.of_N bm_max_priority - Z.of_N (pe_prio e0) < Z.of_N bm_max_priority - Z.of_N (pe_prio e'))%Z \/
              ((Z.of_N bm_max_priority - Z.of_N (pe_prio e0) = Z.of_N bm_max_priority - Z.of_N (pe_prio e'))%Z /\ i <= h_slot h')) ->
              (pe_prio e' < pe_prio e0)%N \/ (pe_prio e' = pe_prio e0 /\ (handle_of t i mod 2 ^ 24 <= h' mod 2 ^ 24)%N)).
           { intros RK [X|[X Y]]; [left; unfold bm_max_priority in X; lia|]. right. split; [unfold bm_max_priority in X; lia|].
             rewrite HH, !LS by congruence. lia. }
           assert (KP : ranked kd -> forall ms p, k_prio (key_of kd fs ks ms p) = (Z.of_N bm_max_priority - Z.of_N p)%Z).
           { intros RK ms p. rewrite <- (bm_prio_ranked kd fs ks AG) by auto. unfold key_of, ekey. cbn [k_prio].
             remember kd as k0 eqn:KD in |- *. destruct k0; auto; rewrite <- KD in RK; contradiction. }
           assert (RT' : ranked kd -> (k_prio (key_of kd fs ks (pe_ms e0) (pe_prio e0)) < k_prio (key_of kd fs ks (pe_ms e') (pe_prio e')))%Z \/
              (k_prio (key_of kd fs ks (pe_ms e0) (pe_prio e0)) = k_prio (key_of kd fs ks (pe_ms e') (pe_prio e')) /\ i <= h_slot h') ->
              (pe_prio e' < pe_prio e0)%N \/ (pe_prio e' = pe_prio e0 /\ (handle_of t i mod 2 ^ 24 <= h' mod 2 ^ 24)%N)).
           { intros RK. rewrite !KP by auto. apply RKD; auto. }
           clear E2 E2' KM K1 E KP RKD. remember kd as k0 eqn:KD in B1 at 1 |- *. destruct k0.
           ++ rewrite HH, B1. reflexivity.
           ++ eapply plen_le; [exact AG|symmetry; exact KD| | | | |exact B1]; auto.
           ++ apply RT'; [rewrite <- KD; exact Logic.I|exact B1].
           ++ apply RT'; [rewrite <- KD; exact Logic.I|exact B1].
      * apply RT. eapply SR_touch; eauto.
Qed.

Lemma x_run_ok : forall ops u T, XR u T -> Forall (xop_ok fs ks) ops ->
  exists u' outs T', x_run kd fs ks u ops = (u', outs) /\ x_spec_run kd fs ks size T ops outs T'.
Proof.
  induction ops as [|o ops IH]; intros u T R O; cbn [x_run].
  - do 3 eexists. split; [reflexivity|constructor].
  - inversion O; subst. destruct (x_step_ok u T o R ltac:(auto)) as (u1 & x & T1 & E & SP & R1). rewrite E.
    destruct (IH u1 T1 R1 ltac:(auto)) as (u2 & outs & T2 & E2 & SP2). rewrite E2.
    do 3 eexists. split; [reflexivity|]. econstructor; eauto.
Qed.

Lemma XR_new : XR (mu_new kd size cache) (fun _ => None).
Proof.
  exists tab_empty, 0%N. split; [apply MR_new|]. split; [apply inv_empty|].
  exists (fun _ => None). split; [intros i; exact Logic.I|]. intros h. destruct (N.eqb _ _); reflexivity.
Qed.
End H.
