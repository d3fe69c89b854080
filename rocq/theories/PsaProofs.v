(** Proofs about the models of psa_switch and pna_nic. *)
From Coq Require Import List Arith NArith Bool Lia.
From Verif Require Import PsaModel PsaSpec.
Import ListNotations.
Local Open Scope N_scope.

Ltac red_ := cbn -[N.modulo N.pow N.eqb PORT_RECIRCULATE skipn N.of_nat] in *.
Ltac unf := unfold only_metadata, fields_of, field, held_by, is_meta, get_f in *; cbn [given fst snd] in *; unfold fld_eqb in *.
(** Decide the field a goal speaks about *)
Ltac cases_f h i :=
  repeat (match goal with
          | |- context [Nat.eqb h ?k] => is_ground k; destruct (Nat.eqb_spec h k); [subst h|]
          | |- context [Nat.eqb i ?k] => is_ground k; destruct (Nat.eqb_spec i k); [subst i|]
          end; red_).

Lemma Forall2_impl_strong {A B} (P Q : A -> B -> Prop) l m : Forall2 P l m -> (forall a b, P a b -> In a l -> Q a b) -> Forall2 Q l m.
Proof. induction 1; intros H1; constructor; [apply H1; [assumption|left; reflexivity]|apply IHForall2; intros; apply H1; [assumption|right; assumption]]. Qed.

Section P.
Variable E : env.

Lemma content_off p n : content (with_off p n) = skipn n (k_bytes p).
Proof. reflexivity. Qed.
Lemma skipn_add {A} n m (l : list A) : skipn (n + m) l = skipn m (skipn n l).
Proof. revert l. induction n as [|n IH]; intros l; [reflexivity|]. destruct l; cbn; [destruct m; reflexivity|apply IH]. Qed.

Lemma receive_holds port bytes : sane E -> received_ok E port bytes (receive E port bytes).
Proof.
  intros [M [P1 P2]]. unfold received_ok, receive, unparsed, only_metadata, field, is_meta. red_.
  repeat (split; [solve [reflexivity|auto]|]). intros [h i] Hm. unf. red_. cases_f h i; try reflexivity; rewrite ?Hm; reflexivity.
Qed.

Lemma ingress_begin_holds now p0 : ingress_ready E now p0 (ingress_begin E now p0).
Proof.
  unfold ingress_ready, ingress_begin, parse.
  destruct (e_parse E false (k_phv (setp E p0 ii_time now)) (data (setp E p0 ii_time now))) as [[v n] err] eqn:EP.
  exists (k_phv (setp E p0 ii_time now)), v, n, err. split; [exact EP|].
  split; [intros [h i]; unf; red_; cases_f h i; reflexivity|].
  split; [reflexivity|]. split; [reflexivity|]. split; [unfold content; red_; apply skipn_add|].
  split; [split; reflexivity|]. repeat (split; [reflexivity|]).
  intros [h i]. unf. red_. cases_f h i; reflexivity.
Qed.
Lemma egress_begin_holds now port p0 : egress_ready E false now port p0 (egress_begin E now port p0).
Proof.
  unfold egress_ready, egress_begin, parse.
  set (w := setp E (setp E (with_phv p0 (reset (k_phv p0))) ep_port port) ei_time now).
  destruct (e_parse E true (k_phv w) (data w)) as [[v n] err] eqn:EP.
  exists (k_phv w), v, n, err. split; [exact EP|].
  split; [intros [h i]; unfold w; unf; red_; cases_f h i; reflexivity|].
  split; [reflexivity|]. split; [discriminate|]. split; [unfold content; red_; apply skipn_add|].
  split; [split; reflexivity|]. repeat (split; [reflexivity|]).
  intros [h i]. unf. red_. cases_f h i; reflexivity.
Qed.
Lemma egress_begin_full now port p0 : (forall s, v_next (k_phv p0) s = 0%nat) -> egress_ready E true now port p0 (egress_begin E now port p0).
Proof.
  intros H. unfold egress_ready, egress_begin, parse.
  set (w := setp E (setp E (with_phv p0 (reset (k_phv p0))) ep_port port) ei_time now).
  destruct (e_parse E true (k_phv w) (data w)) as [[v n] err] eqn:EP.
  exists (k_phv w), v, n, err. split; [exact EP|].
  split; [intros [h i]; unfold w; unf; red_; cases_f h i; reflexivity|].
  split; [reflexivity|]. split; [intros _ s; apply H|]. split; [unfold content; red_; apply skipn_add|].
  split; [split; reflexivity|]. repeat (split; [reflexivity|]).
  intros [h i]. unf. red_. cases_f h i; reflexivity.
Qed.

Lemma apply_holds b p : k_exit p = false -> piped E b p (apply E b p).
Proof. intros H. unfold piped, apply. rewrite H. red_. unfold from. auto 10. Qed.

(** ** Copies *)
Definition marks (path cos rid : N) : list ((nat * nat) * N) := [(ep_path, path); (ei_instance, rid); (ei_cos, cos)].
Definition marked (path cos : N) (l : list (N * N)) (p : pkt) : pkt :=
  fold_left (fun p x => setp E (setp E (setp E p ei_cos cos) ei_instance (fst x)) ep_path path) l p.
Lemma marked_keeps path cos l p : from p (marked path cos l p) /\ content (marked path cos l p) = content p /\ k_len (marked path cos l p) = k_len p /\
  v_next (k_phv (marked path cos l p)) = v_next (k_phv p) /\ v_valid (k_phv (marked path cos l p)) = v_valid (k_phv p) /\ k_trunc (marked path cos l p) = k_trunc p /\
  forall f, given (marks path cos 0) f = None -> field (marked path cos l p) f = field p f.
Proof.
  revert p. induction l as [|x l IH]; intros p; cbn [marked fold_left]; [unfold from; auto 10|].
  destruct (IH (setp E (setp E (setp E p ei_cos cos) ei_instance (fst x)) ep_path path)) as ((A1 & A2) & A3 & A4 & A5 & A6 & A7 & A8).
  unfold marked in *. cbn [from setp with_phv k_in k_ilen k_len k_trunc k_phv set_f v_valid v_next] in *. unfold from.
  rewrite A1, A2, A3, A4, A5, A6, A7. repeat (split; [solve [auto]|]).
  intros [h i] Hf. rewrite A8 by exact Hf. revert Hf. clear. unfold marks. unf. red_. cases_f h i; intros Q; try discriminate Q; reflexivity.
Qed.
Definition copy_of (path cos : N) (p : pkt) (t : option N * N) (q : pkt) : Prop :=
  from p q /\ content q = content p /\ k_len q = k_len p /\ k_trunc q = None /\ v_valid (k_phv q) = v_valid (k_phv p) /\ v_next (k_phv q) = v_next (k_phv p) /\
  forall f, is_meta E f = true -> field q f = match given (match fst t with Some rid => marks path cos rid | None => [] end) f with Some x => held_by E f x | None => field p f end.

Lemma replicate_holds path cos l : (forall h, (h <= 6)%nat -> e_meta E h = true) -> forall p,
  fst (replicate E p path cos l) = marked path cos l p /\
  Forall2 (sent (copy_of path cos p)) (map (fun x => (Some (fst x), snd x)) l) (snd (replicate E p path cos l)).
Proof.
  intros M. induction l as [|[rid port] l IH]; intros p; cbn [replicate]; [split; [reflexivity|constructor]|].
  set (p1 := setp E (setp E (setp E p ei_cos cos) ei_instance rid) ep_path path).
  destruct (IH p1) as [I1 I2]. cbn [fst snd]. split; [exact I1|]. cbn [map app fst snd enqueue]. constructor.
  - eexists. split; [|split; [|split; [|reflexivity]]]; [|reflexivity|reflexivity].
    unfold copy_of, from, content. red_. rewrite ?skipn_O. repeat (split; [solve [auto]|]).
    intros [h i] Hm. unf. red_. rewrite Hm, orb_true_r. cases_f h i; reflexivity.
  - eapply Forall2_impl_strong; [exact I2|]. clear I2. intros t e (q & (Q1 & Q2 & Q3 & Q4 & Q5 & Q6 & Q7) & O & X & ->) It.
    exists q. split; [|auto]. unfold copy_of. red_. repeat (split; [assumption|]).
    intros f Hm. rewrite Q7 by exact Hm. destruct t as [[r|] po]; [|exfalso; apply in_map_iff in It; destruct It as (y & Ey & _); discriminate Ey].
    destruct f as [h i]. unf. red_. cases_f h i; reflexivity.
Qed.

(** A packet made by clone_no_phv, with its metadata reset and its path set *)
Definition raw (p : pkt) (path len : N) : pkt :=
  let q := with_len (clone_no_phv E p) len in setp E (with_phv q (reset_metadata E (k_phv q))) ep_path path.
Lemma raw_ok path p len : sane E -> (path = CLONE_I2E \/ path = CLONE_E2E) -> clone_ok E path p (content p) (None, 0) (raw p path len) /\ k_len (raw p path len) = len /\ k_exit (raw p path len) = false.
Proof.
  intros [M [P1 P2]] _. split; [|split; reflexivity]. unfold clone_ok, from, unparsed. red_. repeat (split; [solve [auto]|]).
  intros [h i] Hm. unf. red_. cases_f h i; rewrite ?Hm; reflexivity.
Qed.
Lemma send_clone_holds path c p len : sane E -> one_kind E c -> (path = CLONE_I2E \/ path = CLONE_E2E) ->
  Forall2 (sent (fun t q => clone_ok E path p (content p) t q /\ k_len q = len)) (targets E c) (send_clone E c path (raw p path len)).
Proof.
  intros HS K HP. pose proof (raw_ok path p len HS HP) as ((R1 & R2 & R3 & R4 & R5) & R6 & R7). destruct HS as [M _].
  unfold send_clone, targets, multicast. apply Forall2_app.
  - destruct (m_mgid_valid c); [|constructor]. destruct (replicate_holds path 0 (e_repl E (m_mgid c)) M (raw p path len)) as [_ H].
    eapply Forall2_impl_strong; [exact H|]. clear H. intros t e (q & (Q1 & Q2 & Q3 & Q4 & Q5 & Q6 & Q7) & O & X & ->) It.
    exists q. split; [|auto]. split; [|congruence]. unfold clone_ok. destruct Q1 as [Q1 Q1']. destruct R1 as [R1 R1'].
    split; [split; congruence|]. split; [congruence|]. split; [unfold unparsed in *; rewrite Q5, Q6; exact R3|]. split; [exact Q4|].
    intros f Hm. rewrite Q7 by exact Hm. rewrite (R5 f Hm). destruct t as [[r|] po]; [|exfalso; apply in_map_iff in It; destruct It as (y & Ey & _); discriminate Ey].
    clear. destruct f as [h i]. unfold marks. unf. red_. cases_f h i; reflexivity.
  - destruct (m_port_valid c) eqn:Ep; [|constructor]. constructor; [|constructor].
    assert (Eq : fst (if m_mgid_valid c then replicate E (raw p path len) path 0 (e_repl E (m_mgid c)) else (raw p path len, [])) = raw p path len).
    { destruct (m_mgid_valid c) eqn:Em; [|reflexivity]. rewrite (K Em Ep). reflexivity. }
    rewrite Eq. exists (with_out (raw p path len) (m_port c)). split; [|auto]. split; [|exact R6]. unfold clone_ok. auto 10.
Qed.

Lemma ingress_after p0 p : sane E -> (forall c, session E p io_clone io_session = Some c -> one_kind E c) ->
  k_exit p = false -> from p0 p -> content (with_off p (k_off p0)) = content p0 ->
  ingress_spec E false p0 p (ingress_clones E p0 p ++ ingress_fate E p0 p).
Proof.
  intros HS K X (F1 & F2) C. exists (ingress_clones E p0 p), (ingress_fate E p0 p). split; [reflexivity|]. split.
  - unfold ingress_clones. unfold session, flag in *. change (get_uint (k_phv p) io_clone) with (field p io_clone mod 2 ^ 32).
    change (get_f (k_phv p) io_session) with (field p io_session). destruct (field p io_clone mod 2 ^ 32 =? 0); cbn [negb] in *; [reflexivity|].
    destruct (e_sessions E (field p io_session)) as [c|]; [|reflexivity].
    pose proof (send_clone_holds CLONE_I2E c (with_off p (k_off p0)) (k_len p0) HS (K c eq_refl) (or_introl eq_refl)) as H.
    eapply Forall2_impl_strong; [exact H|]. intros t e (q & ((Q1 & Q2) & L) & O & X' & ->) _. exists q. split; [|auto]. split; [|exact L].
    destruct Q1 as [Q1 Q1']. split; [split; [rewrite Q1|rewrite Q1']; assumption|]. rewrite C in Q2. exact Q2.
  - unfold ingress_fate, flag. change (get_uint (k_phv p) io_drop) with (field p io_drop mod 2 ^ 32).
    change (get_uint (k_phv p) io_resubmit) with (field p io_resubmit mod 2 ^ 32).
    destruct (negb (field p io_drop mod 2 ^ 32 =? 0)); [reflexivity|].
    destruct (negb (field p io_resubmit mod 2 ^ 32 =? 0)).
    { eexists. split; [|reflexivity]. unfold resubmit_ok, from. red_. rewrite F1, F2. repeat (split; [solve [auto]|]).
      intros [h i] Hm. unf. red_. cases_f h i; rewrite ?Hm; reflexivity. }
    set (q := deparse E false p).
    assert (Q : content q = out_of E false p /\ (forall f, field q f = phv_of E false p f) /\ from p q /\ k_trunc q = k_trunc p /\ k_len q = k_len p /\ k_exit q = k_exit p).
    { unfold q, deparse, out_of, phv_of, content, data, field, from. destruct (e_deparse E false (k_phv p) (skipn (k_off p) (k_bytes p))) as [v d].
      red_. rewrite skipn_O. auto 10. }
    destruct Q as (Q1 & Q2 & (Q3 & Q3') & Q4 & Q5 & Q6). cbn zeta.
    change (get_uint (k_phv q) io_group) with (field q io_group mod 2 ^ 32). rewrite <- (Q2 io_group), <- (Q2 io_port).
    destruct (negb (field q io_group mod 2 ^ 32 =? 0)).
    + unfold multicast. destruct HS as [M _]. destruct (replicate_holds MULTICAST (get_uint (k_phv p) io_cos) (e_repl E (field q io_group mod 2 ^ 32)) M q) as [_ H].
      eapply Forall2_impl_strong; [exact H|]. intros t e (r & ((R1 & R1') & R2 & R3 & R4 & R5 & R6 & R7) & O & X' & ->) It. exists r. split; [|auto].
      unfold replica_ok, from. rewrite R1, R1', R2, R3. repeat (split; [solve [auto]|]). intros f Hm. rewrite (R7 f Hm). rewrite Q2.
      destruct t as [[rid|] po]; reflexivity.
    + repeat constructor. eexists. split; [|split; [|split; [|reflexivity]]]; [|reflexivity|red_; congruence].
      unfold unicast_ok, from. split; [red_; auto|]. split; [exact Q1|]. split; [exact Q4|]. split; [exact Q5|].
      intros f. rewrite <- Q2. clear. destruct f as [h i]. unfold get_uint. unf. red_. cases_f h i; reflexivity.
Qed.

Lemma egress_after port p : sane E -> (forall c, e_sessions E (field (egress_end E p) eo_session) = Some c -> one_kind E c) -> k_exit p = false ->
  egress_spec E port p (egress_clones E (egress_end E p) ++ egress_fate E port (egress_end E p)).
Proof.
  intros HS K X. set (q := egress_end E p) in *.
  assert (Q : exists v bytes, egress_out E p (v, bytes) /\ k_phv q = v /\ content q = bytes /\ from p q /\ k_trunc q = k_trunc p /\ k_exit q = false /\ k_out q = k_out p).
  { unfold q, egress_end, deparse. set (p' := setp E p ed_port (get_f (k_phv p) ep_port)). change (data p') with (content p).
    destruct (e_deparse E true (k_phv p') (content p)) as [v d] eqn:Ed. exists v, d. split.
    - exists (k_phv p'). split; [symmetry; exact Ed|]. split; [reflexivity|]. split; [reflexivity|]. clear. intros [h i]. unfold p'. unf. red_. cases_f h i; reflexivity.
    - unfold from, content. red_. rewrite skipn_O. auto 10. }
  destruct Q as (v & bytes & QO & QV & QC & (QF & QF') & QT & QX & QP).
  exists v, bytes, (egress_clones E q), (egress_fate E port q). split; [exact QO|]. split; [reflexivity|]. cbn zeta. split.
  - unfold egress_clones, get_uint, get_f. rewrite QV. unfold field in K. rewrite QV in K.
    destruct (v_f v (fst eo_clone) (snd eo_clone) mod 2 ^ 32 =? 0); cbn [negb]; [reflexivity|].
    destruct (e_sessions E (v_f v (fst eo_session) (snd eo_session))) as [c|] eqn:Es; [|reflexivity].
    assert (Eq : setp E (with_phv (clone_no_phv E q) (reset_metadata E (k_phv (clone_no_phv E q)))) ep_path CLONE_E2E = raw q CLONE_E2E (e_junk E)) by reflexivity.
    rewrite Eq. pose proof (send_clone_holds CLONE_E2E c q (e_junk E) HS (K c eq_refl) (or_intror eq_refl)) as H.
    eapply Forall2_impl_strong; [exact H|]. intros t e (r & (((R1 & R1') & R2) & L) & O & X' & ->) _. exists r. split; [|auto].
    unfold clone_ok, from. rewrite <- QC. split; [split; congruence|exact R2].
  - unfold egress_fate, get_uint, get_f. rewrite QV. destruct (negb (v_f v (fst eo_drop) (snd eo_drop) mod 2 ^ 32 =? 0)); [reflexivity|].
    destruct (port =? PORT_RECIRCULATE).
    + eexists. split; [|reflexivity]. unfold recirculate_ok, from, unparsed. split; [split; assumption|]. split; [exact QC|]. split; [split; reflexivity|].
      split; [exact QX|]. split; [exact QT|]. clear. intros [h i] Hm. unf. red_. cases_f h i; rewrite ?Hm; reflexivity.
    + unfold sent_bytes. rewrite QP, QT. change (data q) with (content q). rewrite QC. reflexivity.
Qed.

Lemma main_begin_holds now p0 : main_ready E now p0 (main_begin E now p0).
Proof.
  unfold main_ready, main_begin, parse.
  destruct (e_parse E false (k_phv (setp E p0 mi_time now)) (data (setp E p0 mi_time now))) as [[v n] err] eqn:EP.
  exists (k_phv (setp E p0 mi_time now)), v, n, err. split; [exact EP|].
  split; [intros [h i]; unf; red_; cases_f h i; reflexivity|].
  split; [reflexivity|]. split; [reflexivity|]. split; [unfold content; red_; apply skipn_add|].
  split; [split; reflexivity|]. repeat (split; [reflexivity|]).
  intros [h i]. unf. red_. cases_f h i; reflexivity.
Qed.
Lemma begin_exit now p0 : k_exit (ingress_begin E now p0) = k_exit p0.
Proof. unfold ingress_begin, parse. destruct (e_parse _ _ _ _) as [[? ?] ?]. reflexivity. Qed.
Lemma begin_bytes now p0 : k_bytes (ingress_begin E now p0) = k_bytes p0.
Proof. unfold ingress_begin, parse. destruct (e_parse _ _ _ _) as [[? ?] ?]. reflexivity. Qed.
Lemma ebegin_exit now port p0 : k_exit (egress_begin E now port p0) = k_exit p0.
Proof. unfold egress_begin, parse. destruct (e_parse _ _ _ _) as [[? ?] ?]. reflexivity. Qed.
Lemma main_exit now p0 : k_exit (main_begin E now p0) = k_exit p0.
Proof. unfold main_begin, parse. destruct (e_parse _ _ _ _) as [[? ?] ?]. reflexivity. Qed.
Lemma pna_receive_holds port bytes : e_meta E 0 = true -> (forall h, v_valid (e_pool E) h = false) /\ (forall s, v_next (e_pool E) s = 0%nat) ->
  pna_received_ok E port bytes (pna_receive E port bytes).
Proof.
  intros M [P1 P2]. unfold pna_received_ok, pna_receive, unparsed. red_.
  repeat (split; [solve [reflexivity|auto]|]). intros [h i] Hm. unf. red_. cases_f h i; rewrite ?Hm; reflexivity.
Qed.
End P.
