(** Element-wise copies; equivalence of header vectors that differ only in invalid headers. *)
From Coq Require Import List Arith ZArith Bool Lia.
From Verif Require Import Base PhvModel PhvSpec PhvProofs PhvProofs2 PhvProofs3 PhvProofs4.
Import ListNotations.

(** ** Element-wise assignment copies *)
Definition copy_of (x y : hdr) : Prop := d_valid x = d_valid y /\ (d_valid y = true -> d_fields x = d_fields y /\ d_nb x = d_nb y).
Definition vld (s : phv) (h : nat) : bool := match H s h with Some x => d_valid x | None => false end.

Lemma after_valid_other d h k y : ~ siblings d h k -> k <> h -> after_valid d h k y = y.
Proof.
  intros NS N. unfold after_valid. destruct (um d h) as [[u i]|] eqn:Uh; auto. destruct (um d k) as [[u' i']|] eqn:Uk; auto. destruct (Nat.eqb_spec u u'); auto. subst u'. exfalso. apply NS.
  apply um_member in Uh, Uk. exists u, i, i'. split; auto. split; auto. intros ->. destruct Uh as (m1 & A1 & A2), Uk as (m2 & B1 & B2). congruence.
Qed.
Lemma after_valid_inv d h k y : d_valid y = false -> after_valid d h k y = y.
Proof. intros V. unfold after_valid. destruct (um d h) as [[u i]|]; auto. destruct (um d k) as [[u' i']|]; auto. rewrite V, andb_false_r. auto. Qed.
Lemma H_none_frame s s' h : frame s s' -> H s h = None -> H s' h = None.
Proof. intros (_ & _ & L & _) E. unfold H in *. apply nth_error_None. apply nth_error_None in E. lia. Qed.
Lemma siblings_sym d a b : siblings d a b -> siblings d b a.
Proof. intros (u & i & i' & A & B & C). exists u, i', i. auto. Qed.

Lemma assign_all_copy ag d : wf d -> forall l m s, INV ag d s -> Forall2 (same_type d) l m -> NoDup l -> (forall x, In x l -> ~ In x m) ->
  (forall y, In y m -> ~ meta d y) -> (forall x y, In x l -> In y m -> ~ siblings d x y) ->
  (forall i j x x' y y', nth_error l i = Some x -> nth_error l j = Some x' -> nth_error m i = Some y -> nth_error m j = Some y' -> siblings d x x' -> vld s y = true -> vld s y' = false) ->
  exists s', assign_all (assign_header d) s l m = Some s' /\ INV ag d s' /\ frame s s' /\
    (forall i a b y, nth_error l i = Some a -> nth_error m i = Some b -> H s b = Some y -> exists x, H s' a = Some x /\ copy_of x y) /\
    (forall h, ~ In h l -> vld s h = false \/ (forall i x y, nth_error l i = Some x -> nth_error m i = Some y -> siblings d x h -> vld s y = false) -> H s' h = H s h).
Proof.
  intros W l m s I F2. revert s I. induction F2 as [|a b l m ST F2 IH]; intros s I ND DJ NM NS SV; cbn [assign_all].
  - exists s. split; auto. split; auto. split; [apply frame_refl|]. split; [intros [|i] ? ? ?; discriminate|]. auto.
  - inversion ND as [|a0 l0 NIa NDl]; subst. destruct (H_get _ _ _ b I) as (yb & Eb); [apply (same_type_range _ _ _ ST)|].
    assert (NSab : ~ siblings d a b) by (apply NS; cbn; auto). assert (Mb : ~ meta d b) by (apply NM; cbn; auto).
    destruct (assign_header_ok ag d s a b yb W I ST) as (ts & s1 & Ts & -> & I1 & FR1 & INVL & VAL); [intros _; split; [auto|intros C; contradiction]|auto|]. cbn [bind].
    assert (IVE : is_valid ts yb = d_valid yb) by (unfold is_valid; destruct (hd_meta ts) eqn:MT; auto; exfalso; apply Mb; eapply meta_intro; eauto). rewrite IVE in INVL, VAL.
    (* the first assignment *)
    assert (FIRST : forall h, h <> a -> vld s h = false \/ (siblings d a h -> d_valid yb = false) -> H s1 h = H s h).
    { intros h Na C. destruct (d_valid yb) eqn:V.
      - destruct (H s h) as [z|] eqn:Ez; [|eapply H_none_frame; eauto]. destruct VAL as [_ VAL]; auto. rewrite (VAL h z Na Ez). f_equal. destruct C as [C|C].
        + apply after_valid_inv. unfold vld in C. rewrite Ez in C. auto.
        + apply after_valid_other; auto. intros SB. specialize (C SB). discriminate.
      - apply INVL; auto. }
    assert (SRC : forall y, In y m -> H s1 y = H s y).
    { intros y Hy. apply FIRST; [intros ->; apply (DJ a); cbn; auto|]. right. intros SB. exfalso. apply (NS a y); cbn; auto. }
    assert (VS : forall y, In y m -> vld s1 y = vld s y) by (intros y Hy; unfold vld; rewrite SRC by auto; auto).
    destruct (IH s1 I1) as (s' & -> & I' & FR' & CP & OT); auto.
    + intros x Hx Hm. apply (DJ x); cbn; auto.
    + intros y Hy. apply NM. cbn; auto.
    + intros x y Hx Hy. apply NS; cbn; auto.
    + intros i j x x' y y' X X' Y Y' SB V. rewrite VS in V |- * by (eapply nth_error_In; eauto). apply (SV (S i) (S j) x x' y y'); auto.
    + assert (E1 : exists x, H s1 a = Some x /\ copy_of x yb).
      { destruct (d_valid yb) eqn:V.
        - destruct VAL as [(vf & VA) _]; auto. eexists. split; [exact VA|]. split; cbn; auto.
        - destruct (H_get _ _ _ a I) as (xa & Ea); [apply (same_type_range _ _ _ ST)|]. destruct INVL as [INVL _]; auto. eexists. split; [apply (INVL _ Ea)|]. split; cbn; [auto|congruence]. }
      assert (VB : vld s b = d_valid yb) by (unfold vld; rewrite Eb; auto).
      exists s'. split; auto. split; auto. split; [eapply frame_trans; eauto|]. split.
      * intros [|i] a' b' y Ea Ebb Ey; cbn in Ea, Ebb.
        -- injection Ea as <-. injection Ebb as <-. rewrite Eb in Ey. injection Ey as <-. destruct E1 as (x & E1 & C1). exists x. split; auto. rewrite OT; auto.
           destruct (d_valid yb) eqn:V.
           ++ right. intros i x' y' X' Y' SB. rewrite VS by (eapply nth_error_In; eauto). apply (SV 0 (S i) a x' b y'); auto. apply siblings_sym. auto.
           ++ left. unfold vld. rewrite E1. destruct C1 as [C1 _]. congruence.
        -- apply (CP i a' b' y Ea Ebb). rewrite SRC; auto. eapply nth_error_In; eauto.
      * intros h Nh C. cbn in Nh. assert (F1 : H s1 h = H s h).
        { apply FIRST; [intuition congruence|]. destruct C as [C|C]; [left; auto|right]. intros SB. rewrite <- VB. apply (C 0 a b); auto. }
        rewrite <- F1. apply OT; [tauto|]. destruct C as [C|C]; [left; unfold vld in *; rewrite F1; auto|right]. intros i x y X Y SB. rewrite VS by (eapply nth_error_In; eauto). apply (C (S i) x y); auto.
Qed.
Lemma union_one_valid ag d s u i j h h' : INV ag d s -> member d u i h -> member d u j h' -> i <> j -> u < length (p_u s) -> vld s h = true -> vld s h' = false.
Proof.
  intros I M M' N L V. unfold vld in *. destruct (H s h) as [x|] eqn:E; [|discriminate]. destruct (H s h') as [x'|] eqn:E'; auto. destruct (nth_error_some (p_u s) u L) as ([v c] & U).
  rewrite (i_un _ _ _ I _ _ _ _ _ _ M E U) in V. rewrite (i_un _ _ _ I _ _ _ _ _ _ M' E' U). apply andb_true_iff in V as [-> V]. apply Nat.eqb_eq in V. subst. cbn. apply Nat.eqb_neq. auto.
Qed.
Lemma assign_union_copy ag d s a b ma mb : wf d -> INV ag d s -> a <> b -> nth_error (ds_u d) a = Some ma -> nth_error (ds_u d) b = Some mb -> Forall2 (same_type d) ma mb ->
  exists s', assign_union d s a b = Some s' /\ INV ag d s' /\ frame s s' /\
    (forall i x y z, nth_error ma i = Some x -> nth_error mb i = Some y -> H s y = Some z -> exists w, H s' x = Some w /\ copy_of w z) /\
    (forall h, ~ In h ma -> H s' h = H s h).
Proof.
  intros W I N A B F2. unfold assign_union. rewrite A, B. cbn [bind].
  destruct (assign_all_copy ag d W ma mb s I F2) as (s' & E & I' & FR & CP & OT).
  - eapply members_nodup; eauto.
  - eapply members_disj; eauto.
  - intros y Hy. apply (members_range _ _ _ _ W B Hy).
  - intros x y Hx Hy. apply In_nth_error in Hx as (i & Hx). apply In_nth_error in Hy as (j & Hy). eapply (not_sib_diff d a b i j); eauto; [exists ma; auto|exists mb; auto|congruence].
  - intros i j x x' y y' X X' Y Y' SB V. assert (i <> j).
    { intros ->. destruct SB as (u & k & k' & M1 & M2 & D). assert (x' = x) by congruence. subst. destruct (wf_u_disj _ W _ _ _ _ _ M1 M2). auto. }
    eapply (union_one_valid ag d s b i j y y'); eauto; [exists mb; auto|exists mb; auto|]. rewrite (i_u _ _ _ I). eapply nth_error_lt; eauto.
  - exists s'. split; auto. split; auto. split; auto. split; auto. intros h Nh. apply OT; auto. right. intros i x y X Y (u & k & k' & M1 & M2 & D). exfalso. apply Nh.
    assert (Mx : member d a i x) by (exists ma; auto). destruct (wf_u_disj _ W _ _ _ _ _ Mx M1) as [<- <-]. destruct M2 as (m2 & M2 & M3). rewrite A in M2. injection M2 as <-. eapply nth_error_In; eauto.
Qed.
Lemma assign_stack_copy ag d s a b e e' : wf d -> INV ag d s -> nth_error (ds_s d) a = Some e -> nth_error (ds_s d) b = Some e' -> Forall2 (same_type d) e e' -> (forall x, In x e -> ~ In x e') ->
  exists s' n, assign_stack d s a b = Some s' /\ INV ag d s' /\ nth_error (p_s s) b = Some n /\ p_s s' = list_set (p_s s) a n /\
    (forall i x y z, nth_error e i = Some x -> nth_error e' i = Some y -> H s y = Some z -> exists w, H s' x = Some w /\ copy_of w z) /\
    (forall h, ~ In h e -> H s' h = H s h).
Proof.
  intros W I A B F2 DJ. unfold assign_stack. rewrite A, B. cbn [bind]. destruct (nth_error_some (p_s s) b) as (n & En); [rewrite (i_s _ _ _ I); eapply nth_error_lt; eauto|]. rewrite En. cbn [bind].
  pose proof (i_ns _ _ _ I _ _ _ B En) as LN. rewrite <- (F2_len _ _ _ F2) in LN. assert (I1 : INV ag d (set_s s a n)) by (eapply INV_set_s; eauto).
  assert (NU : forall x y, In x e -> ~ siblings d x y).
  { intros x y Hx (u & i & i' & M & _). destruct (stack_range _ _ _ _ W A Hx) as (_ & U & _). apply U. exists u, i. auto. }
  destruct (assign_all_copy ag d W e e' (set_s s a n) I1 F2) as (s' & E & I' & FR & CP & OT); auto.
  - eapply wf_s_nodup; eauto.
  - intros y Hy. apply (stack_range _ _ _ _ W B Hy).
  - intros i j x x' y y' X X' Y Y' SB V. exfalso. apply (NU x x'); auto. eapply nth_error_In; eauto.
  - exists s', n. split; auto. split; auto. split; auto. split; [apply FR|]. split; [exact CP|]. intros h Nh. apply OT; auto. right. intros i x y X Y SB. exfalso. apply (NU x h); auto. eapply nth_error_In; eauto.
Qed.
Lemma assign_ustack_copy ag d s a b e e' : wf d -> INV ag d s -> nth_error (ds_us d) a = Some e -> nth_error (ds_us d) b = Some e' -> Forall2 (unions_match d) e e' -> (forall x, In x e -> ~ In x e') ->
  exists s' n, assign_ustack d s a b = Some s' /\ INV ag d s' /\ nth_error (p_us s) b = Some n /\ p_us s' = list_set (p_us s) a n /\
    (forall k u v, nth_error e k = Some u -> nth_error e' k = Some v -> exists mu mv, nth_error (ds_u d) u = Some mu /\ nth_error (ds_u d) v = Some mv /\
       forall i x y z, nth_error mu i = Some x -> nth_error mv i = Some y -> H s y = Some z -> exists w, H s' x = Some w /\ copy_of w z) /\
    (forall h, (forall u i, In u e -> ~ member d u i h) -> H s' h = H s h).
Proof.
  intros W I A B F2 DJ. unfold assign_ustack. rewrite A, B. cbn [bind]. destruct (nth_error_some (p_us s) b) as (n & En); [rewrite (i_us _ _ _ I); eapply nth_error_lt; eauto|]. rewrite En. cbn [bind].
  pose proof (i_nus _ _ _ I _ _ _ B En) as LN. rewrite <- (F2_len _ _ _ F2) in LN. assert (I1 : INV ag d (set_us s a n)) by (eapply INV_set_us; eauto).
  pose proof (wf_us_nodup _ W _ _ A) as ND.
  assert (G : forall s, INV ag d s -> exists s', assign_all (assign_union d) s e e' = Some s' /\ INV ag d s' /\ frame s s' /\
    (forall k u v, nth_error e k = Some u -> nth_error e' k = Some v -> exists mu mv, nth_error (ds_u d) u = Some mu /\ nth_error (ds_u d) v = Some mv /\
       forall i x y z, nth_error mu i = Some x -> nth_error mv i = Some y -> H s y = Some z -> exists w, H s' x = Some w /\ copy_of w z) /\
    (forall h, (forall u i, In u e -> ~ member d u i h) -> H s' h = H s h)).
  { clear - W F2 DJ ND. induction F2 as [|u v e e' UM F2 IH]; intros s I; cbn [assign_all].
    - exists s. split; auto. split; auto. split; [apply frame_refl|]. split; auto. intros [|k] ? ?; discriminate.
    - inversion ND as [|u0 e0 NI NDe]; subst. destruct UM as (mu & mv & Mu & Mv & FT). assert (Nuv : u <> v) by (intros ->; apply (DJ v); cbn; auto).
      destruct (assign_union_copy ag d s u v mu mv W I Nuv Mu Mv FT) as (s1 & -> & I1 & FR1 & CP1 & OT1). cbn [bind].
      destruct (IH) with (s := s1) as (s' & -> & I' & FR' & CP & OT); auto. { intros x Hx Hm. apply (DJ x); cbn; auto. }
      assert (MEM : forall w m' i x, nth_error (ds_u d) w = Some m' -> nth_error m' i = Some x -> w <> u -> ~ In x mu).
      { intros w m' i x Mw X Nw Hi. apply In_nth_error in Hi as (j & Hi). assert (P : member d w i x) by (exists m'; auto). assert (Q : member d u j x) by (exists mu; auto). apply Nw. apply (wf_u_disj _ W _ _ _ _ _ P Q). }
      exists s'. split; auto. split; auto. split; [eapply frame_trans; eauto|]. split.
      + intros [|k] u' v' Eu Ev; cbn in Eu, Ev.
        * injection Eu as <-. injection Ev as <-. exists mu, mv. split; auto. split; auto. intros i x y z X Y Z. destruct (CP1 i x y z X Y Z) as (w & W1 & W2). exists w. split; auto. rewrite OT; auto.
          intros w' j Hw M. apply NI. assert (Q : member d u i x) by (exists mu; auto). destruct (wf_u_disj _ W _ _ _ _ _ M Q) as [-> _]. auto.
        * destruct (CP k u' v' Eu Ev) as (mu' & mv' & P & Q & R). exists mu', mv'. split; auto. split; auto. intros i x y z X Y Z. apply (R i x y z X Y). rewrite OT1; auto.
          apply (MEM v' mv' i y Q Y). intros ->. apply (DJ u); cbn; auto. right. eapply nth_error_In; eauto.
      + intros h Nh. rewrite OT by (intros w i Hw; apply Nh; cbn; auto). apply OT1. intros Hi. apply In_nth_error in Hi as (i & Hi). apply (Nh u i); cbn; auto. exists mu. auto. }
  destruct (G _ I1) as (s' & E & I' & FR & CP & OT). exists s', n. split; auto. split; auto. split; auto. split; [apply FR|]. split; [exact CP|exact OT].
Qed.

