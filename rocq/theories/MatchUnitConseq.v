(** Consequences of the match-unit specification: determinism, handle stability, capacity. *)
From Coq Require Import List Arith NArith ZArith Bool Lia Sorted.
From Verif Require Import Base Bits SMap NMap LpmModel LpmSpec LpmProofs
  EntryListModel EntryListSpec MatchUnitModel MatchUnitSpec MatchUnitProofs.
Import ListNotations.

(** The operations that name an entry by handle and check its version. *)
Definition uses_handle {V} (o : mop V) (h : N) : Prop :=
  match o with
  | MDel h' | MMod h' _ | MGet h' | MGetEntry h' => h' = h
  | _ => False
  end.

(** The value an entry has after [ops], when it started with [v]. *)
Fixpoint last_value {V} (h : N) (v : V) (ops : list (mop V)) : V :=
  match ops with
  | [] => v
  | MMod h' v' :: r => last_value h (if (h' =? h)%N then v' else v) r
  | _ :: r => last_value h v r
  end.

(** Number of delete calls aimed at a slot. *)
Definition deletes_of {V} (i : nat) (ops : list (mop V)) : nat :=
  length (filter (fun o => match o with MDel h => h_slot h =? i | _ => false end) ops).

Section C.
Context {V : Type}.
Variables (kd : mkind) (nbytes size : nat).
Implicit Types t : stab V.
Implicit Types o : mop V.

Notation step := (mspec_step kd nbytes size).
Notation run := (mspec_run kd nbytes size).

Record inv t : Prop := {
  iv_uniq : forall i e i' e', slot_of t i = Some e -> slot_of t i' = Some e' ->
              same_key kd (s_key e) (s_key e') -> i = i';
  iv_key : forall i e, slot_of t i = Some e -> key_ok kd nbytes (s_key e);
  iv_lt : forall i, slot_of t i <> None -> i < size }.

Lemma inv_empty : inv tab_empty.
Proof. split; cbn; congruence. Qed.

Lemma resolves_slot t h i e : resolves t h (inr (i, e)) -> slot_of t i = Some e /\ i = h_slot h /\
  h_gen h = N.of_nat (gen t i mod 256).
Proof. intros H. inversion H; subst; auto. Qed.
Lemma resolves_det t h r1 r2 : resolves t h r1 -> resolves t h r2 -> r1 = r2.
Proof. intros A B. inversion A; inversion B; subst; congruence. Qed.

Lemma inv_set t i e' g tt : inv t -> key_ok kd nbytes (s_key e') -> i < size ->
  (forall j e, j <> i -> slot_of t j = Some e -> ~ same_key kd (s_key e) (s_key e')) ->
  inv (mkTab (set_slot (slot_of t) i (Some e')) g tt).
Proof.
  intros I K L D. split; cbn [slot_of].
  - intros a ea b eb. unfold set_slot. destruct (Nat.eqb_spec a i) as [->|Na], (Nat.eqb_spec b i) as [->|Nb]; auto.
    + intros A B S. injection A as <-. exfalso. apply (D b eb Nb B). apply same_key_sym; auto.
    + intros A B S. injection B as <-. exfalso. apply (D a ea Na A). auto.
    + apply (iv_uniq _ I).
  - intros a ea. unfold set_slot. destruct (Nat.eqb_spec a i) as [->|Na].
    + intros A. injection A as <-. auto.
    + apply (iv_key _ I).
  - intros a. unfold set_slot. destruct (Nat.eqb_spec a i) as [->|Na]; auto. apply (iv_lt _ I).
Qed.
Lemma inv_keep t i e e' g tt : inv t -> slot_of t i = Some e -> s_key e' = s_key e ->
  inv (mkTab (set_slot (slot_of t) i (Some e')) g tt).
Proof.
  intros I E K. apply inv_set; auto.
  - rewrite K. apply (iv_key _ I i); auto.
  - apply (iv_lt _ I). congruence.
  - intros j ej N Ej. rewrite K. intros S. apply N. apply (iv_uniq _ I j ej i e); auto.
Qed.

Lemma step_inv last o rest t x t' : inv t -> ops_ok kd nbytes last (o :: rest) -> step t o x t' -> inv t'.
Proof.
  intros I [Ho _] H. inversion H; subst; auto.
  - apply inv_set; auto. intros j e N E. eauto.
  - match goal with R : resolves _ _ _ |- _ => apply resolves_slot in R; destruct R as (E & _ & _) end.
    split; cbn [slot_of].
    + intros a ea b eb. unfold set_slot. destruct (a =? i), (b =? i); try discriminate. apply (iv_uniq _ I).
    + intros a ea. unfold set_slot. destruct (a =? i); try discriminate. apply (iv_key _ I).
    + intros a. unfold set_slot. destruct (a =? i); [congruence|]. apply (iv_lt _ I).
  - match goal with R : resolves _ _ _ |- _ => apply resolves_slot in R; destruct R as (E & _ & _) end.
    eapply inv_keep; eauto.
  - match goal with A : lookup_answer _ _ _ _ _ |- _ => destruct A as (E & _) end. eapply inv_keep; eauto.
  - eapply inv_keep; eauto.
  - eapply inv_keep; eauto.
  - split; cbn [slot_of].
    + intros a ea b eb. destruct (slot_of t a) as [x|] eqn:Ea; [|discriminate].
      destruct (slot_of t b) as [y|] eqn:Eb; [|discriminate]. intros A B. injection A as <-. injection B as <-.
      cbn. apply (iv_uniq _ I); auto.
    + intros a ea. destruct (slot_of t a) as [x|] eqn:Ea; [|discriminate]. intros A; injection A as <-. cbn.
      apply (iv_key _ I a); auto.
    + intros a N. apply (iv_lt _ I). destruct (slot_of t a); congruence.
  - apply inv_empty.
Qed.

Lemma enumerates_det t l l' : enumerates t l -> enumerates t l' -> l = l'.
Proof.
  intros [A B] [C D]. apply sorted_lt_ext; auto. intros x. rewrite B, D. tauto.
Qed.

Lemma full_no_free t l i : inv t -> enumerates t l -> length l = size -> i < size -> slot_of t i <> None.
Proof.
  intros I [A B] L Hi. apply B. apply (@NoDup_length_incl _ l (seq 0 size)).
  - apply sorted_lt_NoDup; auto.
  - rewrite seq_length. lia.
  - intros x J. apply in_seq. apply B in J. apply (iv_lt _ I) in J. lia.
  - apply in_seq. lia.
Qed.

Lemma lookup_det t key r1 r2 : inv t -> lookup_answer kd nbytes t key r1 -> lookup_answer kd nbytes t key r2 -> r1 = r2.
Proof.
  intros I A B. destruct r1 as [[i e]|], r2 as [[i' e']|]; auto.
  - destruct A as (A1 & A2 & A3), B as (B1 & B2 & B3).
    specialize (A3 _ _ B1 B2). specialize (B3 _ _ A1 A2).
    assert (i = i'); [|congruence].
    destruct kd eqn:K; cbn [preferred] in *.
    + auto.
    + apply (iv_uniq _ I i e i' e'); auto. rewrite K. cbn [same_key key_matches] in *.
      destruct A2 as [r Er], B2 as [r' Er'].
      pose proof (iv_key _ I _ _ A1) as (X1 & X2 & X3). pose proof (iv_key _ I _ _ B1) as (Y1 & Y2 & Y3).
      rewrite K in X3, Y3. assert (P : k_plen (s_key e) = k_plen (s_key e')) by lia.
      apply (f_equal (firstn (k_plen (s_key e)))) in Er. apply (f_equal (firstn (k_plen (s_key e)))) in Er'.
      assert (Lx : length (firstn (k_plen (s_key e)) (bits_of_bytes (k_data (s_key e)))) = k_plen (s_key e)).
      { change (length (pbits (k_data (s_key e)) (k_plen (s_key e))) = k_plen (s_key e)).
        apply (pbits_length nbytes). repeat split; auto. }
      assert (Ly : length (firstn (k_plen (s_key e')) (bits_of_bytes (k_data (s_key e')))) = k_plen (s_key e')).
      { change (length (pbits (k_data (s_key e')) (k_plen (s_key e'))) = k_plen (s_key e')).
        apply (pbits_length nbytes). repeat split; auto. }
      rewrite firstn_app in Er, Er'. rewrite Lx in Er. rewrite Ly in Er'.
      rewrite P in Er. rewrite P in Er'. rewrite Nat.sub_diag in Er, Er'. cbn [firstn] in Er, Er'.
      rewrite app_nil_r, firstn_firstn, Nat.min_id in Er, Er'. rewrite P. congruence.
    + lia.
    + lia.
  - exfalso. destruct A as (A1 & A2 & _). apply (B _ _ A1 A2).
  - exfalso. destruct B as (A1 & A2 & _). apply (A _ _ A1 A2).
Qed.

Lemma step_det t o x1 t1 x2 t2 : inv t -> step t o x1 t1 -> step t o x2 t2 -> x1 = x2 /\ t1 = t2.
Proof.
  intros I A B.
  destruct o; inversion A; subst; inversion B; subst; auto;
    repeat match goal with
    | H1 : resolves ?t ?h ?r, H2 : resolves ?t ?h ?r' |- _ =>
        lazymatch r with r' => fail | _ => idtac end;
        let E := fresh in pose proof (resolves_det _ _ _ _ H1 H2) as E; clear H2;
        try discriminate E; injection E; intros; subst
    | H1 : enumerates ?t ?l, H2 : enumerates ?t ?l' |- _ =>
        lazymatch l with l' => fail | _ => pose proof (enumerates_det _ _ _ H1 H2); subst end
    | H1 : lookup_answer _ _ ?t ?k ?r, H2 : lookup_answer _ _ ?t ?k ?r' |- _ =>
        lazymatch r with r' => fail | _ => idtac end;
        let E := fresh in pose proof (lookup_det _ _ _ _ I H1 H2) as E; clear H2;
        try discriminate E; injection E; intros; subst
    | H1 : slot_of ?t ?i = Some ?a, H2 : slot_of ?t ?i = Some ?b |- _ =>
        lazymatch a with b => fail | _ => assert (a = b) by congruence; subst end
    | H1 : slot_of ?t ?i = Some ?a, H2 : slot_of ?t ?i = None |- _ => exfalso; congruence
    | H1 : slot_of ?t ?i = Some ?e, H2 : same_key _ (s_key ?e) ?k,
      H3 : forall i e, slot_of ?t i = Some e -> ~ same_key _ (s_key e) ?k |- _ =>
        exfalso; exact (H3 i e H1 H2)
    | H : slot_of ?tt ?i = None, L : ?i < size, E : enumerates ?tt _ |- _ =>
        exfalso; apply (full_no_free tt _ i I E) in L; auto
    end; auto.
  - assert (i = i0).
    { destruct (Nat.lt_total i i0) as [L|[L|L]]; auto; exfalso.
      - match goal with H : forall j, j < i0 -> _ |- _ => apply (H i L); auto end.
      - match goal with H : forall j, j < i -> _ |- _ => apply (H i0 L); auto end. }
    subst. auto.
  - assert (i = i0). { apply (iv_uniq _ I i e i0 e0); auto. eapply same_key_trans; eauto. apply same_key_sym; auto. }
    subst. auto.
  - assert (l' = l'0); [|subst; auto]. apply sorted_lt_ext; auto. intros z.
    match goal with H1 : forall i, In i l' <-> _, H2 : forall i, In i l'0 <-> _ |- _ => rewrite H1, H2 end. tauto.
  - contradiction.
  - contradiction.
Qed.

Lemma ops_ok_mono ops : forall last last', (last <= last')%N ->
  ops_ok kd nbytes last' ops -> ops_ok (V := V) kd nbytes last ops.
Proof.
  induction ops as [|o r IH]; intros last last' L; cbn [ops_ok]; auto. intros [A B]. split.
  - destruct o; auto. lia.
  - eapply IH; [|exact B]. lia.
Qed.
Lemma ops_ok_app p1 p2 : forall last, ops_ok kd nbytes last (p1 ++ p2) ->
  ops_ok kd nbytes last p1 /\ exists last', (last <= last')%N /\ ops_ok (V := V) kd nbytes last' p2.
Proof.
  induction p1 as [|o r IH]; intros last; cbn [ops_ok app].
  - intros H. split; auto. exists last. split; auto. lia.
  - intros [A B]. destruct (IH _ B) as (C & l' & L & D). split; auto. exists l'. split; auto. lia.
Qed.
Lemma ops_ok_remove p1 o p2 : forall last, ops_ok kd nbytes last (p1 ++ o :: p2) ->
  ops_ok (V := V) kd nbytes last (p1 ++ p2).
Proof.
  induction p1 as [|x r IH]; intros last; cbn [ops_ok app].
  - intros [_ B]. eapply ops_ok_mono; [|exact B]. lia.
  - intros [A B]. split; auto.
Qed.

Lemma run_inv ops : forall last t outs t', inv t -> ops_ok kd nbytes last ops -> run t ops outs t' -> inv t'.
Proof.
  induction ops as [|o r IH]; intros last t outs t' I Ho R; inversion R as [|? ? ? tm ? xs ? St Rr]; subst; auto.
  exact (IH _ _ _ _ (step_inv _ _ _ _ _ _ I Ho St) (proj2 Ho) Rr).
Qed.
Lemma run_det ops : forall last t p1 t1 p2 t2, inv t -> ops_ok kd nbytes last ops ->
  run t ops p1 t1 -> run t ops p2 t2 -> p1 = p2 /\ t1 = t2.
Proof.
  induction ops as [|o r IH]; intros last t p1 t1 p2 t2 I Ho A B; inversion A; subst; inversion B; subst; auto.
  match goal with H1 : step t o ?a ?b, H2 : step t o ?c ?d |- _ =>
    destruct (step_det _ _ _ _ _ _ I H1 H2); subst; pose proof (step_inv _ _ _ _ _ _ I Ho H1) as I' end.
  match goal with H1 : run ?t' r ?x t1, H2 : run ?t' r ?y t2 |- _ =>
    destruct (IH _ _ _ _ _ _ I' (proj2 Ho) H1 H2); subst end. auto.
Qed.
Lemma run_app p1 : forall p2 t outs t', run t (p1 ++ p2) outs t' ->
  exists x1 x2 tm, outs = x1 ++ x2 /\ length x1 = length p1 /\ run t p1 x1 tm /\ run tm p2 x2 t'.
Proof.
  induction p1 as [|o r IH]; intros p2 t outs t' R; cbn in R.
  - exists [], outs, t. repeat split; auto. constructor.
  - inversion R; subst. match goal with H : run _ (r ++ p2) _ _ |- _ => apply IH in H; destruct H as (x1 & x2 & tm & -> & L & A & B) end.
    eexists (_ :: x1), x2, tm. split; [reflexivity|]. split; [cbn; lia|]. split; auto. econstructor; eauto.
Qed.
Lemma run_app_join p1 : forall p2 t x1 x2 tm t', run t p1 x1 tm -> run tm p2 x2 t' -> run t (p1 ++ p2) (x1 ++ x2) t'.
Proof.
  induction p1; intros p2 t x1 x2 tm t' A B; inversion A; subst; cbn; auto. econstructor; eauto.
Qed.
Lemma run_length ops : forall t outs t', run t ops outs t' -> length outs = length ops.
Proof. induction ops; intros t outs t' H; inversion H; subst; cbn; eauto. Qed.

(** An error answer leaves the table as it was. *)
Lemma error_unchanged t o c t' : c <> MSuccess -> step t o (MCode c) t' -> t' = t.
Proof. intros N H. inversion H; subst; auto; congruence. Qed.

(** ** Handles *)
Lemma handle_of_slot t i : inv t -> (N.of_nat size <= 2 ^ 24)%N -> slot_of t i <> None ->
  h_slot (handle_of t i) = i /\ h_gen (handle_of t i) = N.of_nat (gen t i mod 256).
Proof.
  intros I Hs Hi. apply (iv_lt _ I) in Hi. unfold h_slot, h_gen, handle_of.
  rewrite div24, mod24 by lia. lia.
Qed.
Lemma handle_eq h h' : h_slot h = h_slot h' -> h_gen h = h_gen h' -> h = h'.
Proof.
  unfold h_slot, h_gen. intros A B. apply N2Nat.inj in A.
  rewrite (N.div_mod h (2 ^ 24)), (N.div_mod h' (2 ^ 24)) by lia. congruence.
Qed.

Lemma stable_run ops : forall last t outs t' i k v h, inv t -> (N.of_nat size <= 2 ^ 24)%N ->
  ops_ok kd nbytes last ops ->
  run t ops outs t' -> (exists e, slot_of t i = Some e /\ s_key e = k /\ s_val e = v) -> h = handle_of t i ->
  ~ In (MDel h) ops -> ~ In MReset ops ->
  (exists e, slot_of t' i = Some e /\ s_key e = k /\ s_val e = last_value h v ops) /\ h = handle_of t' i.
Proof.
  induction ops as [|o r IH]; intros last t outs t' i k v h I Hs Ho R (e & E & Ek & Ev) Hh Nd Nr;
    inversion R as [|? ? ? tm ? ? ? St Rr]; subst; cbn [last_value].
  - split; eauto.
  - pose proof (step_inv _ _ _ _ _ _ I Ho St) as I'.
    assert (Hi : slot_of t i <> None) by congruence.
    destruct (handle_of_slot t i I Hs Hi) as [Hsl Hge].
    assert (Q : (exists e', slot_of tm i = Some e' /\ s_key e' = s_key e /\
               s_val e' = last_value (handle_of t i) (s_val e) [o]) /\ gen tm i mod 256 = gen t i mod 256).
    { clear Rr IH. destruct o; inversion St; subst; cbn [last_value slot_of gen]; try solve [split; eauto];
      repeat match goal with
      | H : resolves _ _ (inr _) |- _ => apply resolves_slot in H; destruct H as (? & ? & ?); subst
      | H : lookup_answer _ _ _ _ (Some _) |- _ => destruct H as (? & _)
      end.
      - split; auto. rewrite set_slot_neq; eauto. congruence.
      - assert (h_slot h <> i).
        { intros <-. apply Nd. left. f_equal. apply handle_eq; congruence. }
        rewrite set_slot_neq by auto. destruct (Nat.eqb_spec i (h_slot h)); [congruence|]. split; eauto.
      - split; auto. destruct (N.eqb_spec h (handle_of tm i)) as [->|Nh].
        + exfalso. match goal with H : resolves _ _ (inl _) |- _ => inversion H; congruence end.
        + eauto.
      - split; auto. destruct (N.eqb_spec h (handle_of t i)) as [->|Nh].
        + rewrite Hsl in *. rewrite set_slot_eq. eexists; split; [reflexivity|]. cbn. split; [congruence|auto].
        + assert (h_slot h <> i). { intros <-. apply Nh. apply handle_eq; congruence. }
          rewrite set_slot_neq by auto. eauto.
      - split; auto. unfold set_slot. destruct (Nat.eqb_spec i i0) as [->|]; eauto.
        eexists; split; [reflexivity|]. cbn. split; congruence.
      - split; auto. unfold set_slot. destruct (Nat.eqb_spec i (h_slot h)) as [->|]; eauto.
        eexists; split; [reflexivity|]. cbn. split; congruence.
      - split; auto. unfold set_slot. destruct (Nat.eqb_spec i (h_slot h)) as [->|]; eauto.
        eexists; split; [reflexivity|]. cbn. split; congruence.
      - split; auto. rewrite E. eexists; split; [reflexivity|]. cbn. auto.
      - exfalso. apply Nr. left; auto. }
    destruct Q as [Qe Qg].
    assert (Hh : handle_of t i = handle_of tm i) by (unfold handle_of; congruence).
    destruct (IH _ _ _ _ i (s_key e) (last_value (handle_of t i) (s_val e) [o]) (handle_of t i) I' Hs (proj2 Ho) Rr) as [A B]; auto.
    { intros J. apply Nd. right; auto. }
    { intros J. apply Nr. right; auto. }
    split; auto. destruct A as (e' & A1 & A2 & A3). exists e'. split; auto. split; auto. rewrite A3.
    destruct o; reflexivity.
Qed.

(** How the generation of a slot evolves. *)
Lemma gen_step t o x t' i : step t o x t' -> o <> MReset ->
  gen t' i = gen t i \/ (gen t' i = S (gen t i) /\ exists h, o = MDel h /\ h_slot h = i).
Proof.
  intros H N. inversion H; subst; cbn [gen]; auto; try congruence.
  match goal with R : resolves _ _ _ |- _ => apply resolves_slot in R; destruct R as (_ & -> & _) end.
  destruct (Nat.eqb_spec i (h_slot h)) as [->|]; eauto.
Qed.
Lemma gen_run ops : forall t outs t' i, run t ops outs t' -> ~ In MReset ops ->
  gen t i <= gen t' i <= gen t i + deletes_of i ops.
Proof.
  induction ops as [|o r IH]; intros t outs t' i R Nr; inversion R as [|? ? ? tm ? xs ? St Rr]; subst.
  - unfold deletes_of. cbn. lia.
  - apply IH with (i := i) in Rr; [|intros J; apply Nr; right; auto].
    destruct (gen_step _ _ _ _ i St) as [E|(E & h & -> & Hh)].
    + intros ->. apply Nr. left; auto.
    + unfold deletes_of in *. cbn [filter]. destruct o; cbn [length]; try lia.
      destruct (h_slot h =? i); cbn [length]; lia.
    + unfold deletes_of in *. cbn [filter]. destruct (Nat.eqb_spec (h_slot h) i); [|congruence]. cbn [length]. lia.
Qed.

Lemma uses_ok t o h x t' : uses_handle o h -> step t o x t' ->
  (exists c, resolves t h (inl c) /\ x = MCode c) \/ (exists i e, resolves t h (inr (i, e))).
Proof. intros U H. destruct o; cbn in U; try contradiction; subst; inversion H; subst; eauto. Qed.

Lemma resolves_err t h c : resolves t h (inl c) -> c = MInvalid \/ c = MExpired.
Proof. inversion 1; auto. Qed.

Lemma deleted_refused t h t1 ops outs t2 o x t3 :
  step t (MDel h) (MCode MSuccess) t1 -> run t1 ops outs t2 -> ~ In MReset ops ->
  deletes_of (h_slot h) ops < 255 -> uses_handle o h -> step t2 o x t3 ->
  x = MCode MInvalid \/ x = MCode MExpired.
Proof.
  intros D R Nr Nd U St. destruct (uses_ok _ _ _ _ _ U St) as [(c & Rs & ->)|(i & e & Rs)].
  - destruct (resolves_err _ _ _ Rs) as [->| ->]; auto.
  - exfalso. apply resolves_slot in Rs. destruct Rs as (_ & -> & G).
    inversion D; subst.
    { match goal with H : resolves _ _ (inl MSuccess) |- _ => inversion H end. }
    match goal with H : resolves _ _ _ |- _ => apply resolves_slot in H; destruct H as (_ & -> & G') end.
    pose proof (gen_run _ _ _ _ (h_slot h) R Nr) as B. cbn [gen] in B. rewrite Nat.eqb_refl in B.
    rewrite G in G'. apply Nat2N.inj in G'.
    set (g := gen t (h_slot h)) in *. set (g2 := gen t2 (h_slot h)) in *.
    assert (g2 = g + (g2 - g)) by lia.
    assert (0 < g2 - g < 256) by lia. set (d := g2 - g) in *.
    assert (E : (g + d) mod 256 = g mod 256) by congruence.
    pose proof (Nat.div_mod g 256). pose proof (Nat.div_mod (g + d) 256).
    pose proof (Nat.mod_upper_bound g 256). nia.
Qed.

(** Every usable handle was issued. *)
Definition issued (ops : list (mop V)) (outs : list (mout V)) (h : N) : Prop :=
  exists n now k v, nth_error ops n = Some (MAdd now k v) /\ nth_error outs n = Some (MHandle h).

Lemma issued_app ops outs p q h : length ops = length outs -> issued ops outs h -> issued (ops ++ p) (outs ++ q) h.
Proof.
  intros L (n & now & k & v & A & B). exists n, now, k, v.
  assert (n < length ops) by (apply nth_error_Some; congruence).
  rewrite !nth_error_app1 by lia. auto.
Qed.

Lemma issued_run ops : forall pre preo last t outs t', length pre = length preo -> inv t ->
  (N.of_nat size <= 2 ^ 24)%N -> ops_ok kd nbytes last ops ->
  (forall i, slot_of t i <> None -> issued pre preo (handle_of t i)) ->
  run t ops outs t' ->
  (forall i, slot_of t' i <> None -> issued (pre ++ ops) (preo ++ outs) (handle_of t' i)).
Proof.
  induction ops as [|o r IH]; intros pre preo last t outs t' L I Hs Ho P R;
    inversion R as [|? ? ? tm ? xs ? St Rr]; subst.
  - rewrite !app_nil_r. auto.
  - replace (pre ++ o :: r) with ((pre ++ [o]) ++ r) by (rewrite <- app_assoc; auto).
    replace (preo ++ x :: xs) with ((preo ++ [x]) ++ xs) by (rewrite <- app_assoc; auto).
    pose proof (step_inv _ _ _ _ _ _ I Ho St) as I'.
    eapply IH; eauto; [rewrite !app_length; cbn; lia|apply Ho|].
    intros i Hi.
    destruct (slot_of t i) as [e|] eqn:E.
    + assert (Q : slot_of t i <> None) by congruence. specialize (P i Q).
      assert (G : handle_of tm i = handle_of t i).
      { unfold handle_of. inversion St; subst; auto; cbn [slot_of gen] in *.
        - match goal with H : resolves _ _ _ |- _ => apply resolves_slot in H; destruct H as (_ & -> & _) end.
          unfold set_slot in Hi. destruct (Nat.eqb_spec i (h_slot h)); congruence.
        - cbn in Hi. congruence. }
      rewrite G. apply issued_app; auto.
    + assert (exists now k v, o = MAdd now k v /\ x = MHandle (handle_of tm i)) as (now & k & v & -> & ->).
      { inversion St; subst; try congruence; cbn [slot_of] in *; unfold set_slot in Hi.
        - destruct (Nat.eqb_spec i i0) as [Ei|]; [|congruence]. subst i0. do 3 eexists; split; reflexivity.
        - destruct (i =? i0); congruence.
        - match goal with H : resolves _ _ _ |- _ => apply resolves_slot in H; destruct H as (X & -> & _) end.
          destruct (Nat.eqb_spec i (h_slot h)) ; congruence.
        - match goal with H : lookup_answer _ _ _ _ (Some _) |- _ => destruct H as (X & _) end.
          destruct (Nat.eqb_spec i i0) ; congruence.
        - destruct (Nat.eqb_spec i (h_slot h)) ; congruence.
        - destruct (Nat.eqb_spec i (h_slot h)) ; congruence.
        - rewrite E in Hi. congruence.
        - cbn in Hi. congruence. }
      exists (length pre), now, k, v. rewrite !nth_error_app2, L, Nat.sub_diag by lia. auto.
Qed.

Lemma size_bound ops last outs t l : ops_ok kd nbytes last ops -> run tab_empty ops outs t ->
  enumerates t l -> length l <= size.
Proof.
  intros Ho R [A B]. pose proof (run_inv _ _ _ _ _ inv_empty Ho R) as I.
  rewrite <- (seq_length size 0). apply NoDup_incl_length; [apply sorted_lt_NoDup; auto|].
  intros x J. apply in_seq. apply B in J. apply (iv_lt _ I) in J. lia.
Qed.
End C.

(** ** Deciding well-formedness of concrete histories (used by examples only) *)
Definition bytes_okb (l : list N) : bool := forallb (fun b => (b <? 256)%N) l.
Lemma bytes_okb_ok l : bytes_okb l = true -> bytes_ok l.
Proof.
  intros H. apply Forall_forall. intros x I. unfold bytes_okb in H. rewrite forallb_forall in H.
  apply N.ltb_lt. auto.
Qed.
Definition masked_b (lo n : nat) (k : mkey) : bool :=
  forallb (fun i => N.land (nth i (k_data k) 0%N) (nth i (k_mask k) 0%N) =? nth i (k_data k) 0%N)%N (seq lo (n - lo)).
Definition key_okb (kd : mkind) (nbytes : nat) (k : mkey) : bool :=
  bytes_okb (k_data k) && (length (k_data k) =? nbytes) &&
  match kd with
  | KExact => true
  | KLpm => k_plen k <=? 8 * nbytes
  | KTernary => (length (k_mask k) =? nbytes) && bytes_okb (k_mask k) && masked_b 0 nbytes k
  | KRange => (length (k_mask k) =? nbytes) && bytes_okb (k_mask k) &&
      (fold_right Nat.add 0 (k_widths k) <=? nbytes) && masked_b (fold_right Nat.add 0 (k_widths k)) nbytes k
  end.
Lemma masked_b_ok lo n k : masked_b lo n k = true ->
  forall i, lo <= i < n -> N.land (nth i (k_data k) 0%N) (nth i (k_mask k) 0%N) = nth i (k_data k) 0%N.
Proof.
  unfold masked_b. rewrite forallb_forall. intros H i Hi. apply N.eqb_eq. apply H. apply in_seq. lia.
Qed.
Lemma key_okb_ok kd nbytes k : key_okb kd nbytes k = true -> key_ok kd nbytes k.
Proof.
  unfold key_okb, key_ok. rewrite !andb_true_iff, Nat.eqb_eq. intros [[A B] C].
  split; [apply bytes_okb_ok; auto|]. split; auto. destruct kd; auto.
  - apply Nat.leb_le; auto.
  - rewrite !andb_true_iff, Nat.eqb_eq in C. destruct C as [[C1 C2] C3]. split; auto.
    split; [apply bytes_okb_ok; auto|]. intros i Hi. eapply masked_b_ok; eauto. lia.
  - rewrite !andb_true_iff, Nat.eqb_eq, Nat.leb_le in C. destruct C as [[[C1 C2] C3] C4]. split; auto.
    split; [apply bytes_okb_ok; auto|]. split; auto. apply masked_b_ok; auto.
Qed.
Fixpoint ops_okb {V} (kd : mkind) (nbytes : nat) (last : N) (ops : list (mop V)) : bool :=
  match ops with
  | [] => true
  | o :: r =>
      match o with
      | MAdd _ k _ | MRetr k => key_okb kd nbytes k
      | MLookup _ _ key => bytes_okb key && (length key =? nbytes)
      | MDel h | MMod h _ | MGet h | MGetEntry h | MTtl _ h _ | MQuery h | MWrite h _ _
      | MValid h => (h <? 2 ^ 32)%N
      | MSweep now => (last <=? now)%N
      | _ => true
      end && ops_okb kd nbytes (N.max last (op_time o)) r
  end.
Lemma ops_okb_ok V kd nbytes (ops : list (mop V)) : forall last,
  ops_okb kd nbytes last ops = true -> ops_ok kd nbytes last ops.
Proof.
  induction ops as [|o r IH]; intros last; cbn [ops_okb ops_ok]; auto.
  rewrite andb_true_iff. intros [A B]. split; [|apply IH; auto].
  destruct o; auto; try (apply N.ltb_lt; auto); try (apply key_okb_ok; auto).
  - apply andb_true_iff in A. destruct A. split; [apply bytes_okb_ok; auto|apply Nat.eqb_eq; auto].
  - apply N.leb_le; auto.
Qed.
