(** Invariants of the packet header vector model. *)
From Coq Require Import List Arith ZArith Bool Lia.
From Verif Require Import Base PhvModel PhvSpec.
Import ListNotations.

Definition H (s : phv) (h : nat) : option hdr := nth_error (p_h s) h.
Definition wmatch (w : option nat) (f : nat * Z) : Prop := match w with Some w => fst f = w | None => fst f mod 8 = 0 end.
Definition fields_ok (t : hdesc) (x : hdr) : Prop :=
  Forall2 wmatch (hd_fields t) (d_fields x) /\ (8 * d_nb x = Z.of_nat (sum_bits (d_fields x)))%Z.
Record INV (ag : bool) (d : desc) (s : phv) : Prop := {
  i_h : length (p_h s) = length (ds_h d);
  i_u : length (p_u s) = length (ds_u d);
  i_s : length (p_s s) = length (ds_s d);
  i_us : length (p_us s) = length (ds_us d);
  i_un : forall u i h x v c, member d u i h -> H s h = Some x -> nth_error (p_u s) u = Some (v, c) -> d_valid x = v && (i =? c);
  i_ui : forall u m c, nth_error (ds_u d) u = Some m -> nth_error (p_u s) u = Some (true, c) -> c < length m;
  i_f : forall h t x, nth_error (ds_h d) h = Some t -> H s h = Some x -> fields_ok t x;
  i_ns : forall k e n, nth_error (ds_s d) k = Some e -> nth_error (p_s s) k = Some n -> n <= length e;
  i_nus : forall k e n, nth_error (ds_us d) k = Some e -> nth_error (p_us s) k = Some n -> n <= length e;
  i_ag : ag = true -> forall h x, ~ meta d h -> H s h = Some x -> d_vf x = d_valid x }.

(** ** Union membership *)
Lemma idx_of_some l k h i : idx_of l k h = Some i -> k <= i /\ nth_error l (i - k) = Some h.
Proof.
  revert k; induction l as [|x l IH]; intros k; cbn; [discriminate|].
  destruct (idx_of l (S k) h) eqn:E.
  - intros [= ->]. apply IH in E as [A B]. split; [lia|]. replace (i - k) with (S (i - S k)) by lia. auto.
  - destruct (Nat.eqb_spec x h); [|discriminate]. intros [= <-]. subst. rewrite Nat.sub_diag. auto.
Qed.
Lemma idx_of_none l k h : idx_of l k h = None -> ~ In h l.
Proof.
  revert k; induction l as [|x l IH]; intros k; cbn; auto. destruct (idx_of l (S k) h) eqn:E; [discriminate|].
  destruct (Nat.eqb_spec x h); [discriminate|]. intros _ [A|A]; auto. eapply IH; eauto.
Qed.
Lemma um_of_some us k h u i : um_of us k h = Some (u, i) -> k <= u /\ exists m, nth_error us (u - k) = Some m /\ nth_error m i = Some h.
Proof.
  revert k; induction us as [|m us IH]; intros k; cbn; [discriminate|].
  destruct (um_of us (S k) h) as [[u' i']|] eqn:E.
  - intros [= -> ->]. apply IH in E as (A & m' & B & C). split; [lia|]. exists m'. replace (u - k) with (S (u - S k)) by lia. auto.
  - destruct (idx_of m 0 h) eqn:F; [|discriminate]. intros [= <- <-]. apply idx_of_some in F as [_ F]. rewrite Nat.sub_0_r in F. split; auto. exists m. rewrite Nat.sub_diag. auto.
Qed.
Lemma um_of_none us k h : um_of us k h = None -> forall m, In m us -> ~ In h m.
Proof.
  revert k; induction us as [|m us IH]; intros k; cbn; [tauto|].
  destruct (um_of us (S k) h) eqn:E; [discriminate|]. destruct (idx_of m 0 h) eqn:F; [discriminate|]. intros _ m' [<-|Hm].
  - eapply idx_of_none; eauto.
  - eapply IH; eauto.
Qed.
Lemma um_member d h u i : um d h = Some (u, i) -> member d u i h.
Proof. intros E. apply um_of_some in E as (_ & m & A & B). rewrite Nat.sub_0_r in A. exists m. auto. Qed.
Lemma um_none d h : um d h = None -> ~ in_union d h.
Proof. intros E (u & i & m & A & B). eapply um_of_none; [exact E| |]; eapply nth_error_In; eauto. Qed.
Lemma member_um d u i h : wf d -> member d u i h -> um d h = Some (u, i).
Proof.
  intros W M. destruct (um d h) as [[u' i']|] eqn:E.
  - apply um_member in E. destruct (wf_u_disj _ W _ _ _ _ _ E M). subst. auto.
  - exfalso. apply (um_none _ _ E). exists u, i. auto.
Qed.
Lemma not_in_union_um d h : ~ in_union d h -> um d h = None.
Proof. intros N. destruct (um d h) as [[u i]|] eqn:E; auto. exfalso. apply N. exists u, i. apply um_member. auto. Qed.

(** ** Pointwise access *)
Lemma nth_error_some {A} (l : list A) n : n < length l -> exists x, nth_error l n = Some x.
Proof. intros L. destruct (nth_error l n) eqn:E; eauto. apply nth_error_None in E. lia. Qed.
Lemma nth_error_lt {A} (l : list A) n x : nth_error l n = Some x -> n < length l.
Proof. intros E. apply nth_error_Some. congruence. Qed.
Lemma H_set_eq s h x : h < length (p_h s) -> H (set_h s h x) h = Some x.
Proof. intros L. unfold H, set_h. cbn [p_h]. apply nth_error_list_set_eq. auto. Qed.
Lemma H_set_neq s h k x : h <> k -> H (set_h s h x) k = H s k.
Proof. intros L. unfold H, set_h. cbn [p_h]. apply nth_error_list_set_neq. auto. Qed.
Lemma H_get ag d s h : INV ag d s -> h < length (ds_h d) -> exists x, H s h = Some x.
Proof. intros I L. apply nth_error_some. rewrite (i_h _ _ _ I). auto. Qed.

(** Changing one header while keeping its validity flags *)
Lemma INV_set ag d s h x y : INV ag d s -> H s h = Some x -> d_valid y = d_valid x -> (ag = true -> ~ meta d h -> d_vf y = d_vf x) ->
  (forall t, nth_error (ds_h d) h = Some t -> fields_ok t y) -> INV ag d (set_h s h y).
Proof.
  intros I E V VF F. pose proof (nth_error_lt _ _ _ E) as L. constructor.
  - cbn [set_h p_h]. rewrite list_set_length. apply I.
  - apply I.
  - apply I.
  - apply I.
  - intros u i k z v c M Hz U. change (p_u (set_h s h y)) with (p_u s) in U. destruct (Nat.eq_dec h k) as [->|N].
    + rewrite H_set_eq in Hz by auto. injection Hz as <-. rewrite V. eapply i_un; eauto.
    + rewrite H_set_neq in Hz by auto. eapply i_un; eauto.
  - intros u m c M U. eapply i_ui; eauto.
  - intros k t z T Hz. destruct (Nat.eq_dec h k) as [->|N].
    + rewrite H_set_eq in Hz by auto. injection Hz as <-. auto.
    + rewrite H_set_neq in Hz by auto. eapply i_f; eauto.
  - intros; eapply i_ns; eauto.
  - intros; eapply i_nus; eauto.
  - intros A k z M Hz. destruct (Nat.eq_dec h k) as [->|N].
    + rewrite H_set_eq in Hz by auto. injection Hz as <-. rewrite V, VF by auto. eapply i_ag; eauto.
    + rewrite H_set_neq in Hz by auto. eapply i_ag; eauto.
Qed.

(** The parts of the state an operation on headers leaves alone *)
Definition frame (s s' : phv) : Prop := p_s s' = p_s s /\ p_us s' = p_us s /\ length (p_h s') = length (p_h s) /\ length (p_u s') = length (p_u s).
Lemma frame_refl s : frame s s.
Proof. repeat split. Qed.
Lemma frame_trans a b c : frame a b -> frame b c -> frame a c.
Proof. intros (A & B & C & D) (E & F & G & K). repeat split; congruence. Qed.

Lemma with_valid_fields t x b : fields_ok t x -> fields_ok t (with_valid x b).
Proof. auto. Qed.

Lemma mark_invalid_ok ag d s h x : wf d -> INV ag d s -> H s h = Some x ->
  exists s', mark_invalid d s h = Some s' /\ INV ag d s' /\ frame s s' /\ H s' h = Some (with_valid x false) /\ (forall k, k <> h -> H s' k = H s k) /\
    (forall u v c, nth_error (p_u s) u = Some (v, c) -> nth_error (p_u s') u = Some (if d_valid x then match um d h with Some (u', _) => if u =? u' then false else v | None => v end else v, c)).
Proof.
  intros W I E. pose proof (nth_error_lt _ _ _ E) as L. unfold mark_invalid. unfold H in E. rewrite E. cbn [bind]. fold (H s h) in E.
  destruct (um d h) as [[u i]|] eqn:U.
  - pose proof (um_member _ _ _ _ U) as M. pose proof M as (m & Mu & Mi). unfold make_header_invalid.
    change (p_u (set_h s h (with_valid x false))) with (p_u s).
    destruct (nth_error_some (p_u s) u) as ([v c] & Ep); [rewrite (i_u _ _ _ I); eapply nth_error_lt; eauto|]. rewrite Ep. cbn [bind fst snd].
    pose proof (i_un _ _ _ I _ _ _ _ _ _ M E Ep) as VX.
    assert (LU : u < length (p_u s)) by (eapply nth_error_lt; eauto).
    destruct (v && (c =? i)) eqn:VC.
    + (* the union loses its valid header *)
      apply andb_true_iff in VC as [-> VC]. apply Nat.eqb_eq in VC. subst c. rewrite Nat.eqb_refl in VX. cbn in VX.
      eexists. split; [reflexivity|]. split.
      { constructor; unfold set_u, set_h; cbn [p_h p_u p_s p_us].
        - rewrite list_set_length. apply I.
        - rewrite list_set_length. apply I.
        - apply I.
        - apply I.
        - intros u' i' k z v' c' M' Hz U'. unfold H in Hz; cbn [p_h] in Hz. destruct (Nat.eq_dec h k) as [->|N].
          + rewrite nth_error_list_set_eq in Hz by auto. injection Hz as <-. destruct (wf_u_disj _ W _ _ _ _ _ M M') as [-> ->].
            rewrite nth_error_list_set_eq in U' by auto. injection U' as <- <-. auto.
          + rewrite nth_error_list_set_neq in Hz by auto. destruct (Nat.eq_dec u u') as [->|Nu].
            * rewrite nth_error_list_set_eq in U' by auto. injection U' as <- <-. rewrite (i_un _ _ _ I _ _ _ _ _ _ M' Hz Ep).
              destruct (Nat.eqb_spec i' i); auto. subst i'. exfalso. destruct M' as (m' & A & B). congruence.
            * rewrite nth_error_list_set_neq in U' by auto. eapply i_un; eauto.
        - intros u' m' c' M' U'. destruct (Nat.eq_dec u u') as [->|Nu].
          + rewrite nth_error_list_set_eq in U' by auto. discriminate.
          + rewrite nth_error_list_set_neq in U' by auto. eapply i_ui; eauto.
        - intros k t z T Hz. unfold H in Hz; cbn [p_h] in Hz. destruct (Nat.eq_dec h k) as [->|N].
          + rewrite nth_error_list_set_eq in Hz by auto. injection Hz as <-. apply with_valid_fields. eapply i_f; eauto.
          + rewrite nth_error_list_set_neq in Hz by auto. eapply i_f; eauto.
        - intros; eapply i_ns; eauto.
        - intros; eapply i_nus; eauto.
        - intros A k z Nm Hz. unfold H in Hz; cbn [p_h] in Hz. destruct (Nat.eq_dec h k) as [->|N].
          + rewrite nth_error_list_set_eq in Hz by auto. injection Hz as <-. auto.
          + rewrite nth_error_list_set_neq in Hz by auto. eapply i_ag; eauto. }
      split; [repeat split; cbn; rewrite ?list_set_length; auto|]. split; [unfold H; cbn; apply nth_error_list_set_eq; auto|]. split.
      { intros k N. unfold H; cbn. apply nth_error_list_set_neq. auto. }
      intros u' v' c' U'. cbn [set_u p_u]. rewrite VX. destruct (Nat.eqb_spec u' u).
      * subst u'. cbn. rewrite nth_error_list_set_eq by auto. congruence.
      * cbn. rewrite nth_error_list_set_neq by auto. auto.
    + (* it was not the valid header *)
      assert (VF : d_valid x = false) by (rewrite VX; rewrite Nat.eqb_sym; auto).
      eexists. split; [reflexivity|]. split.
      { apply (INV_set ag d s h x); auto.
        - intros A Nm. cbn. rewrite (i_ag _ _ _ I A _ _ Nm E). auto.
        - intros t T. apply with_valid_fields. eapply i_f; eauto. }
      split; [repeat split; cbn; rewrite ?list_set_length; auto|]. split; [apply H_set_eq; auto|]. split; [intros; apply H_set_neq; auto|].
      intros u' v' c' U'. rewrite VF. auto.
  - eexists. split; [reflexivity|]. split.
    { constructor; unfold set_h; cbn [p_h p_u p_s p_us].
      - rewrite list_set_length. apply I.
      - apply I.
      - apply I.
      - apply I.
      - intros u' i' k z v' c' M' Hz U'. unfold H in Hz; cbn [p_h] in Hz. destruct (Nat.eq_dec h k) as [->|N].
        + exfalso. apply (um_none _ _ U). exists u', i'. auto.
        + rewrite nth_error_list_set_neq in Hz by auto. eapply i_un; eauto.
      - intros; eapply i_ui; eauto.
      - intros k t z T Hz. unfold H in Hz; cbn [p_h] in Hz. destruct (Nat.eq_dec h k) as [->|N].
        + rewrite nth_error_list_set_eq in Hz by auto. injection Hz as <-. apply with_valid_fields. eapply i_f; eauto.
        + rewrite nth_error_list_set_neq in Hz by auto. eapply i_f; eauto.
      - intros; eapply i_ns; eauto.
      - intros; eapply i_nus; eauto.
      - intros A k z Nm Hz. unfold H in Hz; cbn [p_h] in Hz. destruct (Nat.eq_dec h k) as [->|N].
        + rewrite nth_error_list_set_eq in Hz by auto. injection Hz as <-. auto.
        + rewrite nth_error_list_set_neq in Hz by auto. eapply i_ag; eauto. }
    split; [repeat split; cbn; rewrite ?list_set_length; auto|]. split; [apply H_set_eq; auto|]. split; [intros; apply H_set_neq; auto|].
    intros u' v' c' U'. destruct (d_valid x); auto.
Qed.

(** What the other headers look like after [h] is made valid: siblings become invalid. *)
Definition after_valid (d : desc) (h k : nat) (y : hdr) : hdr :=
  match um d h, um d k with Some (u, _), Some (u', _) => if (u =? u') && d_valid y then with_valid y false else y | _, _ => y end.
Lemma mark_valid_ok ag d s h x : wf d -> INV ag d s -> H s h = Some x ->
  exists s', mark_valid d s h = Some s' /\ INV ag d s' /\ frame s s' /\ H s' h = Some (with_valid x true) /\
    (forall k y, k <> h -> H s k = Some y -> H s' k = Some (after_valid d h k y)) /\
    (forall u v c, nth_error (p_u s) u = Some (v, c) -> nth_error (p_u s') u = Some (match um d h with Some (u', i) => if u =? u' then (true, i) else (v, c) | None => (v, c) end)).
Proof.
  intros W I E. pose proof (nth_error_lt _ _ _ E) as L. unfold mark_valid. unfold H in E. rewrite E. cbn [bind]. fold (H s h) in E.
  destruct (um d h) as [[u i]|] eqn:U.
  - pose proof (um_member _ _ _ _ U) as M. pose proof M as (m & Mu & Mi). unfold make_header_valid.
    change (p_u (set_h s h (with_valid x true))) with (p_u s).
    destruct (nth_error_some (p_u s) u) as ([v c] & Ep); [rewrite (i_u _ _ _ I); eapply nth_error_lt; eauto|]. rewrite Ep, Mu. cbn [bind fst snd].
    pose proof (i_un _ _ _ I _ _ _ _ _ _ M E Ep) as VX.
    assert (LU : u < length (p_u s)) by (eapply nth_error_lt; eauto).
    (* the intermediate state, described on its own *)
    set (y := fun k : nat => if v && negb (c =? i) then match nth_error m c with Some k' => k' =? k | None => false end else false).
    assert (S1 : exists s1, (if v && negb (c =? i) then (h0 <- nth_error m c ;; mark_invalid d (set_h s h (with_valid x true)) h0) else Some (set_h s h (with_valid x true))) = Some s1 /\
        frame s s1 /\ H s1 h = Some (with_valid x true) /\
        (forall k z, k <> h -> H s k = Some z -> H s1 k = Some (if y k then with_valid z false else z)) /\
        (forall u', u' <> u -> nth_error (p_u s1) u' = nth_error (p_u s) u')).
    { unfold y. destruct (v && negb (c =? i)) eqn:VC.
      - apply andb_true_iff in VC as [-> VC]. apply negb_true_iff, Nat.eqb_neq in VC. pose proof (i_ui _ _ _ I _ _ _ Mu Ep) as LC.
        destruct (nth_error_some m c LC) as (h0 & Eh). rewrite Eh. cbn [bind].
        assert (M0 : member d u c h0) by (exists m; auto).
        assert (N0 : h0 <> h) by (intros ->; destruct (wf_u_disj _ W _ _ _ _ _ M M0); congruence).
        destruct (H_get _ _ _ h0 I) as (x0 & E0); [apply (wf_u_range _ W _ _ _ M0)|].
        unfold mark_invalid. change (nth_error (p_h (set_h s h (with_valid x true))) h0) with (H (set_h s h (with_valid x true)) h0).
        rewrite H_set_neq, E0 by auto. cbn [bind]. rewrite (member_um _ _ _ _ W M0). unfold make_header_invalid.
        change (p_u (set_h (set_h s h (with_valid x true)) h0 (with_valid x0 false))) with (p_u s). rewrite Ep. cbn [bind fst snd andb]. rewrite Nat.eqb_refl.
        eexists. split; [reflexivity|]. split; [repeat split; cbn; rewrite ?list_set_length; auto|].
        split; [unfold H; cbn; rewrite nth_error_list_set_neq by auto; apply nth_error_list_set_eq; auto|]. split.
        + intros k z Nk Ek. unfold H; cbn. destruct (Nat.eqb_spec h0 k).
          * subst k. rewrite nth_error_list_set_eq by (rewrite list_set_length; eapply nth_error_lt; eauto). congruence.
          * rewrite !nth_error_list_set_neq by auto. auto.
        + intros u' Nu. cbn. apply nth_error_list_set_neq. auto.
      - eexists. split; [reflexivity|]. split; [repeat split; cbn; rewrite ?list_set_length; auto|]. split; [apply H_set_eq; auto|]. split.
        + intros k z Nk Ek. rewrite H_set_neq by auto. auto.
        + auto. }
    destruct S1 as (s1 & -> & FR & H1 & HK & HU). cbn [bind]. destruct FR as (F1 & F2 & F3 & F4).
    assert (YS : forall k z, k <> h -> H s k = Some z -> (if y k then with_valid z false else z) = after_valid d h k z).
    { intros k z Nk Ek. unfold after_valid. rewrite U. unfold y. destruct (um d k) as [[u' i']|] eqn:Uk.
      - pose proof (um_member _ _ _ _ Uk) as Mk. destruct (Nat.eqb_spec u u'); cbn.
        + subst u'. rewrite (i_un _ _ _ I _ _ _ _ _ _ Mk Ek Ep). destruct v; cbn; auto. pose proof (i_ui _ _ _ I _ _ _ Mu Ep) as LC.
          destruct (nth_error_some m c LC) as (h0 & Eh). rewrite Eh. assert (M0 : member d u c h0) by (exists m; auto).
          destruct (Nat.eqb_spec c i); cbn.
          * subst c. destruct (Nat.eqb_spec i' i); auto. subst i'. exfalso. apply Nk. destruct Mk as (m' & A & B). congruence.
          * destruct (Nat.eqb_spec h0 k).
            -- subst h0. destruct (wf_u_disj _ W _ _ _ _ _ M0 Mk) as [_ ->]. rewrite Nat.eqb_refl. auto.
            -- destruct (Nat.eqb_spec i' c); auto. subst i'. exfalso. apply n0. destruct Mk as (m' & A & B). congruence.
        + destruct (v && negb (c =? i)) eqn:VC; auto. destruct (nth_error m c) as [h0|] eqn:Eh; auto. destruct (Nat.eqb_spec h0 k); auto.
          subst h0. exfalso. apply n. assert (M0 : member d u c k) by (exists m; auto). apply (wf_u_disj _ W _ _ _ _ _ M0 Mk).
      - destruct (v && negb (c =? i)) eqn:VC; auto. destruct (nth_error m c) as [h0|] eqn:Eh; auto. destruct (Nat.eqb_spec h0 k); auto.
        subst h0. exfalso. apply (um_none _ _ Uk). exists u, c, m. auto. }
    assert (HK' : forall k z, k <> h -> H s k = Some z -> H s1 k = Some (after_valid d h k z)) by (intros; rewrite <- YS by auto; auto).
    assert (KN : forall k, k <> h -> H s k = None -> H s1 k = None).
    { intros k Nk En. unfold H in *. apply nth_error_None. apply nth_error_None in En. lia. }
    assert (LU1 : u < length (p_u s1)) by lia.
    eexists. split; [reflexivity|]. split.
    { constructor; unfold set_u; cbn [p_h p_u p_s p_us].
      - rewrite F3. apply I.
      - rewrite list_set_length, F4. apply I.
      - rewrite F1. apply I.
      - rewrite F2. apply I.
      - intros u' i' k z v' c' M' Hz U'. unfold H in Hz; cbn [p_h] in Hz. fold (H s1 k) in Hz. destruct (Nat.eq_dec k h) as [->|N].
        + rewrite H1 in Hz. injection Hz as <-. destruct (wf_u_disj _ W _ _ _ _ _ M M') as [-> ->]. rewrite nth_error_list_set_eq in U' by auto. injection U' as <- <-. rewrite Nat.eqb_refl. auto.
        + destruct (H s k) as [z0|] eqn:Ek; [|rewrite KN in Hz by auto; discriminate]. rewrite (HK' k z0 N Ek) in Hz. injection Hz as <-.
          unfold after_valid. rewrite U, (member_um _ _ _ _ W M'). destruct (Nat.eq_dec u u') as [->|Nu].
          * rewrite Nat.eqb_refl. rewrite nth_error_list_set_eq in U' by auto. injection U' as <- <-.
            assert (i' <> i) by (intros ->; apply N; destruct M' as (m' & A & B); congruence). apply Nat.eqb_neq in H0. rewrite H0. cbn. destruct (d_valid z0) eqn:Dz; auto.
          * rewrite nth_error_list_set_neq, HU in U' by auto. destruct (Nat.eqb_spec u u'); [congruence|]. cbn. eapply i_un; eauto.
      - intros u' m' c' M' U'. destruct (Nat.eq_dec u u') as [->|Nu].
        + rewrite nth_error_list_set_eq in U' by auto. injection U' as <-. assert (m' = m) by congruence. subst. eapply nth_error_lt; eauto.
        + rewrite nth_error_list_set_neq, HU in U' by auto. eapply i_ui; eauto.
      - intros k t z T Hz. unfold H in Hz; cbn [p_h] in Hz. fold (H s1 k) in Hz. destruct (Nat.eq_dec k h) as [->|N].
        + rewrite H1 in Hz. injection Hz as <-. apply with_valid_fields. eapply i_f; eauto.
        + destruct (H s k) as [z0|] eqn:Ek; [|rewrite KN in Hz by auto; discriminate]. rewrite (HK k z0 N Ek) in Hz. injection Hz as <-.
          pose proof (i_f _ _ _ I _ _ _ T Ek). destruct (y k); auto.
      - intros k e n Ek. rewrite F1. intros; eapply i_ns; eauto.
      - intros k e n Ek. rewrite F2. intros; eapply i_nus; eauto.
      - intros A k z Nm Hz. unfold H in Hz; cbn [p_h] in Hz. fold (H s1 k) in Hz. destruct (Nat.eq_dec k h) as [->|N].
        + rewrite H1 in Hz. injection Hz as <-. auto.
        + destruct (H s k) as [z0|] eqn:Ek; [|rewrite KN in Hz by auto; discriminate]. rewrite (HK k z0 N Ek) in Hz. injection Hz as <-.
          pose proof (i_ag _ _ _ I A _ _ Nm Ek). destruct (y k); auto. }
    split; [repeat split; cbn; rewrite ?list_set_length; auto|]. split; [exact H1|]. split; [exact HK'|].
    intros u' v' c' U'. cbn [set_u p_u]. destruct (Nat.eqb_spec u' u).
    * subst u'. apply nth_error_list_set_eq. auto.
    * rewrite nth_error_list_set_neq, HU by auto. auto.
  - eexists. split; [reflexivity|]. split.
    { constructor; unfold set_h; cbn [p_h p_u p_s p_us].
      - rewrite list_set_length. apply I.
      - apply I.
      - apply I.
      - apply I.
      - intros u' i' k z v' c' M' Hz U'. unfold H in Hz; cbn [p_h] in Hz. destruct (Nat.eq_dec h k) as [->|N].
        + exfalso. apply (um_none _ _ U). exists u', i'. auto.
        + rewrite nth_error_list_set_neq in Hz by auto. eapply i_un; eauto.
      - intros; eapply i_ui; eauto.
      - intros k t z T Hz. unfold H in Hz; cbn [p_h] in Hz. destruct (Nat.eq_dec h k) as [->|N].
        + rewrite nth_error_list_set_eq in Hz by auto. injection Hz as <-. apply with_valid_fields. eapply i_f; eauto.
        + rewrite nth_error_list_set_neq in Hz by auto. eapply i_f; eauto.
      - intros; eapply i_ns; eauto.
      - intros; eapply i_nus; eauto.
      - intros A k z Nm Hz. unfold H in Hz; cbn [p_h] in Hz. destruct (Nat.eq_dec h k) as [->|N].
        + rewrite nth_error_list_set_eq in Hz by auto. injection Hz as <-. auto.
        + rewrite nth_error_list_set_neq in Hz by auto. eapply i_ag; eauto. }
    split; [repeat split; cbn; rewrite ?list_set_length; auto|]. split; [apply H_set_eq; auto|]. split.
    { intros k z N Ek. rewrite H_set_neq by auto. unfold after_valid. rewrite U. auto. }
    intros u' v' c' U'. auto.
Qed.
