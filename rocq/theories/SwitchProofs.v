(** Facts about registers, fields and copies of packets in simple_switch. *)
From Coq Require Import List Arith NArith Bool Lia.
From Verif Require Import Base PhvModel AccessModel AccessSpec AccessProps SwitchModel SwitchSpec.
Import ListNotations.
Local Open Scope N_scope.

Definition regs_ok (r : regs) : Prop := length r = 4%nat /\ Forall (fun v => v < 2 ^ 64) r.
Lemma regs_ok_form r : regs_ok r -> exists a0 a1 a2 a3, r = [a0; a1; a2; a3] /\ a0 < 2 ^ 64.
Proof.
  intros [HL HF]. destruct r as [|a0 [|a1 [|a2 [|a3 [|a4 r]]]]]; try discriminate HL. exists a0, a1, a2, a3. split; [reflexivity|]. inversion HF; assumption.
Qed.
Lemma get_some r a : regs_ok r -> exists v, do_get r a = Some v.
Proof. intros H. destruct (regs_ok_form r H) as (a0 & a1 & a2 & a3 & -> & _). exists (held a0 a1 a2 a). apply get_held. Qed.
Lemma get_length_lt r len : regs_ok r -> do_get r PacketLength = Some len -> len < 2 ^ 64.
Proof. intros H. destruct (regs_ok_form r H) as (a0 & a1 & a2 & a3 & -> & L). rewrite get_held. cbn [held]. intros Q; injection Q as <-. exact L. Qed.
Lemma get_width r a v : regs_ok r -> a <> PacketLength -> do_get r a = Some v -> v < 2 ^ 16.
Proof. intros H Ha. destruct (regs_ok_form r H) as (a0 & a1 & a2 & a3 & -> & L). rewrite get_held. intros Q; injection Q as <-. destruct a; cbn [held]; try apply fget_lt. contradiction. Qed.

Lemma renew_ok q len : length (k_regs q) = 4%nat -> len < 2 ^ 64 -> exists r, renew q len = Some (with_regs q r) /\ length r = 4%nat /\ forall p, k_regs p = r -> unrequested p len.
Proof.
  intros HL Hlen. destruct (k_regs q) as [|a0 [|a1 [|a2 [|a3 [|a4 r]]]]] eqn:ER; try discriminate HL.
  exists [len mod 2 ^ 64; 0; 0; a3]. unfold renew. rewrite ER. split; [reflexivity|]. split; [reflexivity|]. intros p Hp. unfold unrequested. rewrite !Hp, !get_held. cbn [held].
  rewrite !fget_zero, N.mod_small by exact Hlen. repeat split.
Qed.
Lemma clear_clone_ok r : length r = 4%nat -> exists r', clear_clone r = Some r' /\ length r' = 4%nat /\ do_get r' CloneSession = Some 0 /\
  forall a, a <> CloneSession -> a <> CloneFieldList -> do_get r' a = do_get r a.
Proof.
  intros HL. destruct r as [|a0 [|a1 [|a2 [|a3 [|a4 r]]]]]; try discriminate HL. unfold clear_clone.
  destruct (set_held a0 a1 a2 a3 CloneSession 0) as (b0 & b1 & b2 & E1 & H1). rewrite E1. cbn [bind].
  destruct (set_held b0 b1 b2 a3 CloneFieldList 0) as (c0 & c1 & c2 & E2 & H2). rewrite E2. exists [c0; c1; c2; a3]. split; [reflexivity|]. split; [reflexivity|].
  rewrite get_held, H2. destruct (attr_eq_dec CloneSession CloneFieldList) as [Q|_]; [discriminate|]. rewrite H1. destruct (attr_eq_dec CloneSession CloneSession) as [_|N]; [|exfalso; apply N; reflexivity].
  split; [reflexivity|]. intros a Ha Hb. rewrite !get_held, H2. destruct (attr_eq_dec a CloneFieldList); [contradiction|]. rewrite H1. destruct (attr_eq_dec a CloneSession); [contradiction|reflexivity].
Qed.
Lemma clear_rec_ok r : length r = 4%nat -> exists r', do_set r Recirculate 0 = Some r' /\ length r' = 4%nat.
Proof.
  intros HL. destruct r as [|a0 [|a1 [|a2 [|a3 [|a4 r]]]]]; try discriminate HL.
  destruct (set_held a0 a1 a2 a3 Recirculate 0) as (b0 & b1 & b2 & E1 & H1). exists [b0; b1; b2; a3]. split; [exact E1|reflexivity].
Qed.

Lemma fld_eqb_refl f : fld_eqb f f = true.
Proof. unfold fld_eqb. rewrite !Nat.eqb_refl. reflexivity. Qed.
Lemma fld_eqb_eq f g : fld_eqb f g = true <-> f = g.
Proof.
  destruct f as [a b], g as [c d]. unfold fld_eqb. cbn [fst snd]. rewrite andb_true_iff, !Nat.eqb_eq. split; [intros [-> ->]; reflexivity|intros Q; injection Q; auto].
Qed.

Section P.
Variable E : env.

Lemma get_put v f x g : get_f (put_f v f x) g = if fld_eqb g f then x else get_f v g.
Proof. reflexivity. Qed.
Lemma get_set v f x g : get_f (set_f E v f x) g = if fld_eqb g f then held_by E f x else get_f v g.
Proof. reflexivity. Qed.
Lemma held_eq f g x : fld_eqb g f = true -> held_by E g x = held_by E f x.
Proof. intros H. apply fld_eqb_eq in H. subst. reflexivity. Qed.
Lemma get_copy l : forall d s g, get_f (copy_fields l d s) g = if existsb (fld_eqb g) l then get_f s g else get_f d g.
Proof.
  induction l as [|f l IH]; intros d s g; cbn [existsb]; [reflexivity|]. unfold copy_fields in *. cbn [fold_left]. rewrite IH.
  destruct (existsb (fld_eqb g) l); [rewrite orb_true_r; reflexivity|]. rewrite orb_false_r, get_put. destruct (fld_eqb g f) eqn:Q; [|reflexivity]. apply fld_eqb_eq in Q. subst. reflexivity.
Qed.
Lemma valid_copy l : forall d s, v_valid (copy_fields l d s) = v_valid d.
Proof. induction l as [|f l IH]; intros d s; [reflexivity|]. unfold copy_fields in *. cbn [fold_left]. rewrite IH. reflexivity. Qed.
Lemma field_get p f : field p f = get_f (k_phv p) f.
Proof. reflexivity. Qed.
Lemma get_reset v f : get_f (reset_metadata E v) f = if is_meta E f then 0 else get_f v f.
Proof. reflexivity. Qed.
Lemma get_copied v f : get_f (copied_phv E v) f = if v_valid v (fst f) || is_meta E f then get_f v f else get_f (e_pool E) f.
Proof. reflexivity. Qed.

Lemma enqueue_sent (ok : option N * N -> pkt -> Prop) rid port q : ok (rid, port) (with_out q port) -> sent E ok (rid, port) (enqueue E port q).
Proof.
  intros H. exists (with_out q port). split; [exact H|]. split; [reflexivity|]. unfold enqueue. cbn [snd].
  change (prio_of E (k_phv (with_out q port))) with (priority_of E (with_out q port)). rewrite N.ltb_antisym. destruct (e_nq E <=? priority_of E (with_out q port)); reflexivity.
Qed.
Lemma all_sent_nil (ok : option N * N -> pkt -> Prop) : all_sent E ok [] [].
Proof. exists []. split; [constructor|reflexivity]. Qed.
Lemma all_sent_cons (ok : option N * N -> pkt -> Prop) t ts e es : sent E ok t e -> all_sent E ok ts es -> all_sent E ok (t :: ts) (e ++ es).
Proof. intros H [l [F ->]]. exists (e :: l). split; [constructor; assumption|reflexivity]. Qed.
Lemma all_sent_app (ok : option N * N -> pkt -> Prop) ts us e es : all_sent E ok ts e -> all_sent E ok us es -> all_sent E ok (ts ++ us) (e ++ es).
Proof. intros [l [F ->]] [m [G ->]]. exists (l ++ m). split; [apply Forall2_app; assumption|symmetry; apply concat_app]. Qed.
Lemma all_sent_impl (ok ok' : option N * N -> pkt -> Prop) ts e : (forall t q, In t ts -> ok t q -> ok' t q) -> all_sent E ok ts e -> all_sent E ok' ts e.
Proof.
  intros H [l [F ->]]. exists l. split; [|reflexivity]. induction F as [|t e ts l S F IH]; constructor.
  - destruct S as (q & A & B). exists q. split; [apply H; [left; reflexivity|exact A]|exact B].
  - apply IH. intros u q Hu. apply H. right. exact Hu.
Qed.

(** [q] is a copy of [b] for target [t] *)
Definition copy_ok (b : pkt) (len : N) (t : option N * N) (q : pkt) : Prop :=
  k_in q = k_in b /\ k_ilen q = k_ilen b /\ k_trunc q = None /\ unrequested q len /\ content q = content b /\ v_valid (k_phv q) = v_valid (k_phv b) /\
  forall f, is_meta E f = true \/ v_valid (k_phv b) (fst f) = true ->
    field q f = match fst t with Some rid => if fld_eqb f egress_rid then held_by E f rid else field b f | None => field b f end.

Hypothesis junk : length (e_junk E) = 4%nat.

Lemma replicate_ok len (Hlen : len < 2 ^ 64) : forall l p,
  exists p' effs, replicate E p len l = Some (p', effs) /\ (l = [] -> p' = p) /\ all_sent E (copy_ok p len) (map (fun x => (Some (fst x), snd x)) l) effs.
Proof.
  induction l as [|[rid port] l IH]; intros p; cbn [replicate map].
  - exists p, []. split; [reflexivity|]. split; [reflexivity|apply all_sent_nil].
  - set (p1 := with_phv p (set_f E (k_phv p) egress_rid rid)).
    destruct (renew_ok (clone_with_phv E p1) len junk Hlen) as (r & R & RL & U). rewrite R. cbn [bind].
    destruct (IH p1) as (p' & effs & RR & _ & S). rewrite RR. cbn [bind fst snd].
    exists p', (enqueue E port (with_regs (clone_with_phv E p1) r) ++ effs). split; [reflexivity|]. split; [discriminate|].
    apply all_sent_cons.
    + apply enqueue_sent. unfold copy_ok. split; [reflexivity|]. split; [reflexivity|]. split; [reflexivity|]. split; [apply U; reflexivity|]. split; [reflexivity|]. split; [reflexivity|].
      intros f Hf. cbn [fst]. rewrite !field_get. cbn [with_out with_regs clone_with_phv with_phv k_phv].
      rewrite get_copied. replace (v_valid (k_phv p1) (fst f) || is_meta E f) with true.
      * unfold p1. cbn [with_phv k_phv]. rewrite get_set. destruct (fld_eqb f egress_rid) eqn:Q; [symmetry; apply held_eq; exact Q|reflexivity].
      * symmetry. apply orb_true_iff. destruct Hf as [Hf|Hf]; [right; exact Hf|left; exact Hf].
    + revert S. apply all_sent_impl. intros t q Ht (A1 & A2 & A3 & A4 & A5 & A6 & A7).
      apply in_map_iff in Ht as [[rid' port'] [<- _]]. cbn [fst snd] in *.
      unfold copy_ok. split; [exact A1|]. split; [exact A2|]. split; [exact A3|]. split; [exact A4|]. split; [exact A5|]. split; [exact A6|].
      intros f Hf. cbn [fst]. rewrite (A7 f Hf). rewrite !field_get. unfold p1. cbn [with_phv k_phv]. rewrite get_set. destruct (fld_eqb f egress_rid); reflexivity.
Qed.

Lemma send_clone_ok c q len : unrequested q len -> len < 2 ^ 64 -> k_trunc q = None -> (m_mgid_valid c = true -> m_port_valid c = true -> e_repl E (m_mgid c) = []) ->
  exists effs, send_clone E c q = Some effs /\ all_sent E (copy_ok q len) (targets E c) effs.
Proof.
  intros HU Hlen HT HG. unfold send_clone, targets, group.
  assert (HP : forall q', q' = q -> all_sent E (copy_ok q len) (if m_port_valid c then [(None, m_port c)] else []) (if m_port_valid c then enqueue E (m_port c) q' else [])).
  { intros q' ->. destruct (m_port_valid c); [|apply all_sent_nil]. rewrite <- (app_nil_r (enqueue E (m_port c) q)). apply all_sent_cons; [|apply all_sent_nil].
    apply enqueue_sent. unfold copy_ok. cbn [fst]. repeat split; try reflexivity; try exact HT; apply HU. }
  destruct (m_mgid_valid c) eqn:EM.
  - unfold multicast. destruct HU as (U1 & U2 & U3 & U4 & U5 & U6). rewrite U6. cbn [bind].
    destruct (replicate_ok len Hlen (e_repl E (m_mgid c)) q) as (p' & effs & R & Q & S). rewrite R. cbn [bind fst snd].
    eexists. split; [reflexivity|]. apply all_sent_app; [exact S|].
    destruct (m_port_valid c) eqn:EP; [|apply all_sent_nil]. rewrite (Q (HG eq_refl eq_refl)). apply (HP q eq_refl).
  - cbn [bind fst snd app]. eexists. split; [reflexivity|]. apply HP. reflexivity.
Qed.

Lemma sets_get ty rid v f : (forall g, is_meta E g = true -> True) ->
  get_f (set_f E (match rid with Some r => set_f E v egress_rid r | None => v end) instance_type ty) f =
  match sets ty rid f with Some x => held_by E f x | None => get_f v f end.
Proof.
  intros _. rewrite get_set. unfold sets. destruct (fld_eqb f instance_type) eqn:Q; [symmetry; apply held_eq; exact Q|].
  destruct rid as [r|]; [rewrite get_set|]; destruct (fld_eqb f egress_rid) eqn:Q2; try reflexivity. symmetry; apply held_eq; exact Q2.
Qed.
End P.
