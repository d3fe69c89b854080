(** One iteration of ingress and of egress. *)
From Coq Require Import List Arith NArith Bool Lia.
From Verif Require Import Base PhvModel AccessModel AccessSpec AccessProps SwitchModel SwitchSpec SwitchProofs.
Import ListNotations.
Local Open Scope N_scope.

Section P.
Variable E : env.

Lemma session_requested p v : do_get (k_regs p) CloneSession = Some v -> session_of E (k_regs p) = Some (requested E p).
Proof.
  intros H. unfold session_of, requested. rewrite H. cbn [bind]. destruct (v =? 0); [reflexivity|]. do 2 f_equal. change 32767 with (N.ones 15). apply N.land_ones.
Qed.
Lemma cleared p v : regs_ok (k_regs p) -> do_get (k_regs p) CloneSession = Some v ->
  exists r, (if v =? 0 then Some (k_regs p) else clear_clone (k_regs p)) = Some r /\ length r = 4%nat /\ do_get r CloneSession = Some 0 /\
    forall a, a <> CloneSession -> a <> CloneFieldList -> do_get r a = do_get (k_regs p) a.
Proof.
  intros HR Hv. destruct (v =? 0) eqn:Q.
  - apply N.eqb_eq in Q. subst. exists (k_regs p). split; [reflexivity|]. split; [apply HR|]. split; [exact Hv|reflexivity].
  - apply clear_clone_ok. apply HR.
Qed.

Lemma done_in p0 : k_in (ingress_done E p0) = k_in p0.
Proof. unfold ingress_done. destruct (e_parse E _ _) as [v n]. cbv zeta. destruct (e_ingress E _) as [[a b] c]. reflexivity. Qed.
Lemma done_ilen p0 : k_ilen (ingress_done E p0) = k_ilen p0.
Proof. unfold ingress_done. destruct (e_parse E _ _) as [v n]. cbv zeta. destruct (e_ingress E _) as [[a b] c]. reflexivity. Qed.
Lemma done_bytes p0 : k_bytes (ingress_done E p0) = k_bytes p0.
Proof. unfold ingress_done. destruct (e_parse E _ _) as [v n]. cbv zeta. destruct (e_ingress E _) as [[a b] c]. reflexivity. Qed.

Hypothesis junk : length (e_junk E) = 4%nat.
Hypothesis meta0 : e_meta E 0 = true.
Hypothesis meta1 : e_meta E 1 = true.

Lemma fld_meta f g : fld_eqb f g = true -> is_meta E g = true -> is_meta E f = true.
Proof. intros H. apply fld_eqb_eq in H. subst. auto. Qed.
Lemma not_meta_neq f g : is_meta E f = false -> is_meta E g = true -> fld_eqb f g = false.
Proof. intros H G. destruct (fld_eqb f g) eqn:Q; [|reflexivity]. rewrite (fld_meta _ _ Q G) in H. discriminate. Qed.
Lemma rid_not_type : fld_eqb egress_rid instance_type = false. Proof. reflexivity. Qed.

Lemma ingress_clone_sent p0 p c fl len l :
  len < 2 ^ 64 -> k_in p = k_in p0 -> k_ilen p = k_ilen p0 -> k_bytes p = k_bytes p0 -> e_fl E fl = Some l ->
  (m_mgid_valid c = true -> m_port_valid c = true -> e_repl E (m_mgid c) = []) ->
  exists effs, ingress_clone E p0 p c fl len = Some effs /\ all_sent E (ingress_clone_ok E p0 p len l) (targets E c) effs.
Proof.
  intros Hlen Hin Hil Hb Hfl HG. unfold ingress_clone.
  destruct (renew_ok (clone_no_phv E (with_off p (k_off p0))) len junk Hlen) as (r & R & RL & U). rewrite R. cbn [bind].
  assert (HD : data (with_regs (clone_no_phv E (with_off p (k_off p0))) r) = content p0).
  { unfold data, content. cbn. rewrite Hb. reflexivity. }
  rewrite HD. change (k_phv (with_regs (clone_no_phv E (with_off p (k_off p0))) r)) with (e_pool E).
  destruct (e_parse E (set_f E (e_pool E) ingress_port (k_in p)) (content p0)) as [v1 n] eqn:EP.
  rewrite Hfl. cbn [bind].
  match goal with |- context [send_clone E c ?x] => set (q0 := x) end.
  destruct (send_clone_ok E junk c q0 len (U q0 eq_refl) Hlen eq_refl HG) as (effs & -> & S).
  exists effs. split; [reflexivity|]. revert S. apply all_sent_impl. intros t q _ (A1 & A2 & A3 & A4 & A5 & A6 & A7).
  assert (HV : v_valid (k_phv q) = v_valid v1).
  { rewrite A6. unfold q0. cbn [with_off with_phv k_phv]. transitivity (v_valid (copy_fields l (reset_metadata E v1) (k_phv p))); [reflexivity|]. rewrite valid_copy. reflexivity. }
  assert (HF : forall f, field q0 f = if fld_eqb f instance_type then held_by E f T_INGRESS_CLONE else if existsb (fld_eqb f) l then field p f else if is_meta E f then 0 else get_f v1 f).
  { intros f. rewrite field_get. unfold q0. cbn [with_off with_phv k_phv]. rewrite get_set, get_copy, get_reset. destruct (fld_eqb f instance_type) eqn:Q; [symmetry; apply held_eq; exact Q|reflexivity]. }
  split; [rewrite A1; exact Hin|]. split; [rewrite A2; exact Hil|]. split; [exact A3|]. split; [exact A4|]. split.
  - intros f Hf. rewrite (A7 f (or_introl Hf)), HF, Hf. unfold sets.
    destruct (fld_eqb f egress_rid) eqn:QR.
    + apply fld_eqb_eq in QR. subst f. cbn [fld_eqb]. rewrite rid_not_type. destruct (fst t); reflexivity.
    + destruct (fld_eqb f instance_type); destruct (fst t); reflexivity.
  - exists (set_f E (e_pool E) ingress_port (k_in p)), n. rewrite <- Hin. split; [intros; reflexivity|]. split; [reflexivity|]. split.
    + exists v1. split; [exact EP|]. split; [exact HV|]. intros f Hm Hv. rewrite (A7 f).
      2: { right. rewrite <- A6, HV. exact Hv. }
      rewrite HF, (not_meta_neq f egress_rid Hm), (not_meta_neq f instance_type Hm), Hm by assumption.
      destruct (fst t); reflexivity.
    + rewrite A5. unfold q0, content. cbn [with_off with_phv k_off k_bytes with_regs clone_no_phv]. f_equal. unfold data. cbn [k_off k_bytes with_off]. rewrite Hb. reflexivity.
Qed.

Lemma resubmitted_ok p0 p fl len l :
  len < 2 ^ 64 -> k_in p = k_in p0 -> k_ilen p = k_ilen p0 -> k_bytes p = k_bytes p0 -> e_fl E fl = Some l ->
  exists q, resubmitted E p0 p fl len = Some q /\ resubmit_ok E p0 p len l q.
Proof.
  intros Hlen Hin Hil Hb Hfl. unfold resubmitted. rewrite Hfl. cbn [bind].
  match goal with |- context [renew ?x len] => set (q0 := x) end.
  destruct (renew_ok q0 len junk Hlen) as (r & R & RL & U). rewrite R. cbn [bind].
  eexists. split; [reflexivity|].
  split; [exact Hin|]. split; [exact Hil|]. split; [reflexivity|]. split; [apply U; reflexivity|].
  split; [unfold content; cbn; unfold data; cbn; rewrite Hb; reflexivity|].
  split.
  - cbn [with_phv k_phv with_regs]. unfold q0. cbn [with_phv k_phv]. transitivity (v_valid (copy_fields l (reset_metadata E (e_pool E)) (k_phv p))); [reflexivity|]. rewrite valid_copy. reflexivity.
  - intros f Hf. rewrite field_get. cbn [with_phv k_phv with_regs]. rewrite get_set. destruct (fld_eqb f packet_length) eqn:Q; [symmetry; apply held_eq; exact Q|].
    unfold q0. cbn [with_phv k_phv]. rewrite get_set. destruct (fld_eqb f instance_type) eqn:Q2; [symmetry; apply held_eq; exact Q2|].
    rewrite get_copy, get_reset, Hf. reflexivity.
Qed.

Lemma multicast_ok p mgid plen : do_get (k_regs p) PacketLength = Some plen -> plen < 2 ^ 64 ->
  exists p' effs, multicast E p mgid = Some (p', effs) /\ all_sent E (copy_ok E p plen) (group E mgid) effs.
Proof.
  intros H HL. unfold multicast. rewrite H. cbn [bind]. destruct (replicate_ok E junk plen HL (e_repl E mgid) p) as (p' & effs & R & _ & S). exists p', effs. split; assumption.
Qed.
Lemma group_rid mgid t : In t (group E mgid) -> exists rid, fst t = Some rid.
Proof. intros H. apply in_map_iff in H as [[rid port] [<- _]]. exists rid. reflexivity. Qed.

Lemma replicas_ok p r ty plen mgid : do_get r PacketLength = Some plen -> plen < 2 ^ 64 ->
  ty = T_REPLICATION ->
  exists p' effs, multicast E (with_phv (with_regs p r) (set_f E (k_phv p) instance_type ty)) mgid = Some (p', effs) /\ all_sent E (replica_ok E p plen) (group E mgid) effs.
Proof.
  intros H HL ->. destruct (multicast_ok (with_phv (with_regs p r) (set_f E (k_phv p) instance_type T_REPLICATION)) mgid plen H HL) as (p' & effs & M & S).
  exists p', effs. split; [exact M|]. revert S. apply all_sent_impl. intros t q Ht (A1 & A2 & A3 & A4 & A5 & A6 & A7). destruct (group_rid _ _ Ht) as [rid Er]. rewrite Er in *.
  split; [|split; [exact A4|exact A3]]. split; [exact A1|]. split; [exact A2|]. split; [exact A5|]. split; [exact A6|].
  intros f Hf. rewrite (A7 f Hf). unfold sets. rewrite !field_get. cbn [with_phv k_phv]. rewrite get_set.
  destruct (fld_eqb f egress_rid) eqn:Q.
  - apply fld_eqb_eq in Q. subst f. rewrite rid_not_type, Er. reflexivity.
  - destruct (fld_eqb f instance_type) eqn:Q2; [symmetry; apply held_eq; exact Q2|reflexivity].
Qed.
Lemma unicast_sent p r port : do_get r CloneSession = Some 0 -> (forall a, a <> CloneSession -> a <> CloneFieldList -> do_get r a = do_get (k_regs p) a) ->
  sent E (unicast_ok E p) (None, port) (enqueue E port (with_phv (with_regs p r) (set_f E (k_phv p) instance_type T_NORMAL))).
Proof.
  intros H0 HA. apply enqueue_sent. split; [|split; [reflexivity|split; [exact H0|exact HA]]].
  split; [reflexivity|]. split; [reflexivity|]. split; [reflexivity|]. split; [reflexivity|].
  intros f _. rewrite !field_get. cbn [with_out with_phv k_phv]. rewrite get_set. unfold sets.
  destruct (fld_eqb f instance_type) eqn:Q2; [symmetry; apply held_eq; exact Q2|]. destruct (fld_eqb f egress_rid); reflexivity.
Qed.

(** The field lists named by the packet's requests exist *)
Definition lists_exist (p : pkt) (a : attr) : Prop :=
  (requested E p <> None -> exists l, list_of E p CloneFieldList l) /\ (forall v, do_get (k_regs p) a = Some v -> v <> 0 -> exists l, list_of E p a l).

Lemma fate_holds p0 p r len : len < 2 ^ 64 -> regs_ok (k_regs p) -> k_in p = k_in p0 -> k_ilen p = k_ilen p0 -> k_bytes p = k_bytes p0 ->
  do_get r CloneSession = Some 0 -> (forall a, a <> CloneSession -> a <> CloneFieldList -> do_get r a = do_get (k_regs p) a) ->
  forall resub, do_get (k_regs p) Resubmit = Some resub ->
  let mgid := if e_has_mcast E then get_f (k_phv p) mcast_grp mod 2 ^ 32 else 0 in
  let spec := get_f (k_phv p) egress_spec mod 2 ^ 32 in
  let run := (if negb (resub =? 0) then q <- resubmitted E p0 (with_regs p r) resub len ;; Some [Reinsert q]
           else if negb (mgid =? 0) then m <- multicast E (with_phv (with_regs p r) (set_f E (k_phv (with_regs p r)) instance_type T_REPLICATION)) mgid ;; Some (snd m)
           else if spec =? e_drop E then Some []
           else Some (enqueue E spec (with_phv (with_regs p r) (set_f E (k_phv (with_regs p r)) instance_type T_NORMAL)))) in
  ((forall v, do_get (k_regs p) Resubmit = Some v -> v <> 0 -> exists l, list_of E p Resubmit l) -> exists fate, run = Some fate) /\
  forall fate, run = Some fate -> fate_ok E p0 p len fate.
Proof.
  intros Hlen HR Hin Hil Hb H0 HA resub Hresub mgid spec run.
  destruct (get_some (k_regs p) PacketLength HR) as [plen Hpl]. pose proof (get_length_lt _ _ HR Hpl) as Hpl'.
  assert (HW : forall f : list eff -> Prop, (forall fate, run = Some fate -> f fate) -> True) by auto. clear HW.
  unfold run, fate_ok. destruct (negb (resub =? 0)) eqn:QR.
  - split.
    + intros HL. destruct (HL resub Hresub) as (l & id & Hid & Hfl).
      { apply negb_true_iff, N.eqb_neq in QR. exact QR. }
      rewrite Hid in Hresub. injection Hresub as ->.
      destruct (resubmitted_ok p0 (with_regs p r) resub len l Hlen Hin Hil Hb Hfl) as (q & -> & _). exists [Reinsert q]. reflexivity.
    + intros fate HF. exists resub. split; [exact Hresub|]. rewrite QR.
      destruct (e_fl E resub) as [l|] eqn:Hfl; [|unfold resubmitted in HF; rewrite Hfl in HF; discriminate].
      destruct (resubmitted_ok p0 (with_regs p r) resub len l Hlen Hin Hil Hb Hfl) as (q & Hq & Hok). rewrite Hq in HF. cbn [bind] in HF. injection HF as <-.
      exists l, q. split; [exists resub; split; assumption|]. split; [exact Hok|reflexivity].
  - assert (HG : exists fate, run = Some fate /\ fate_ok E p0 p len fate).
    { unfold run, fate_ok. destruct (negb (mgid =? 0)) eqn:QM.
      - unfold mgid in QM. destruct (e_has_mcast E) eqn:EM; [|discriminate QM].
        destruct (replicas_ok p r T_REPLICATION plen mgid) as (p' & effs & M & S); [rewrite HA; [exact Hpl|discriminate|discriminate]|exact Hpl'|reflexivity|].
        cbn [with_regs k_phv] in M |- *. rewrite M. cbn [bind snd]. exists effs. split; [reflexivity|]. exists resub. split; [exact Hresub|]. rewrite QR. rewrite field_get, ?EM, QM. cbn [andb].
        exists plen. split; [exact Hpl|]. unfold mgid in S. rewrite ?EM in S. exact S.
      - assert (QA : e_has_mcast E && negb (field p mcast_grp mod 2 ^ 32 =? 0) = false) by (unfold mgid in QM; destruct (e_has_mcast E); [exact QM|reflexivity]).
        destruct (spec =? e_drop E) eqn:QS.
        + exists []. split; [reflexivity|]. exists resub. split; [exact Hresub|]. rewrite QR, QA. unfold spec in QS. rewrite !field_get, QS. reflexivity.
        + eexists. split; [reflexivity|]. exists resub. split; [exact Hresub|]. rewrite QR, QA. unfold spec in QS. rewrite !field_get, QS. exact (unicast_sent p r _ H0 HA). }
    unfold run in HG. destruct HG as (fate & HF & HO). split; [intros _; exists fate; exact HF|].
    intros fate' HF'. rewrite HF in HF'. injection HF' as <-. unfold fate_ok in HO. exact HO.
Qed.

Lemma ingress_holds p0 : regs_ok (k_regs p0) -> regs_ok (k_regs (ingress_done E p0)) ->
  (forall c, requested E (ingress_done E p0) = Some c -> m_mgid_valid c = true -> m_port_valid c = true -> e_repl E (m_mgid c) = []) ->
  (lists_exist (ingress_done E p0) Resubmit -> exists effs, ingress_one E p0 = Some effs) /\
  forall effs, ingress_one E p0 = Some effs -> ingress_spec E p0 (ingress_done E p0) effs.
Proof.
  intros HR0 HR HS. pose proof (done_in p0) as Hin. pose proof (done_ilen p0) as Hil. pose proof (done_bytes p0) as Hb. unfold ingress_one. remember (ingress_done E p0) as p eqn:Ep. clear Ep.
  destruct (get_some _ PacketLength HR0) as [len Hlen]. pose proof (get_length_lt _ _ HR0 Hlen) as Hlt.
  destruct (get_some _ CloneSession HR) as [v Hv]. destruct (get_some _ CloneFieldList HR) as [fl Hfl].
  destruct (get_some _ LfFieldList HR) as [learn Hlearn]. destruct (get_some _ Resubmit HR) as [resub Hresub].
  destruct (cleared p v HR Hv) as (r & Hr & HrL & Hr0 & HrA).
  rewrite Hlen, (session_requested p v Hv), Hfl, Hlearn, Hv. cbn [bind]. rewrite Hr. cbn [bind with_regs k_phv k_regs].
  pose proof (HrA Resubmit) as Hrr. rewrite Hrr, Hresub by discriminate. cbn [bind]. clear Hrr.
  destruct (fate_holds p0 p r len Hlt HR Hin Hil Hb Hr0 HrA resub Hresub) as [F1 F2]. cbv zeta in F1, F2. cbn [with_regs k_phv] in F1, F2.
  match type of F1 with _ -> exists fate, ?x = _ => set (run := x) in * end.
  set (digest := if 0 <? learn then _ else _).
  assert (HD : digest_ok p digest).
  { exists learn. split; [exact Hlearn|]. unfold digest. destruct (learn =? 0) eqn:Q.
    - apply N.eqb_eq in Q. rewrite Q. reflexivity.
    - apply N.eqb_neq in Q. replace (0 <? learn) with true by (symmetry; apply N.ltb_lt; lia). eexists. split; [reflexivity|]. split; reflexivity. }
  destruct (requested E p) as [c|] eqn:EC.
  - split.
    + intros [L1 L2]. destruct L1 as (l & id & Hid & Hl); [rewrite EC; discriminate|]. rewrite Hfl in Hid. injection Hid as <-.
      destruct (ingress_clone_sent p0 (with_regs p r) c fl len l Hlt Hin Hil Hb Hl (HS c eq_refl)) as (ce & HC & _). first [rewrite HC | unfold with_regs in HC; rewrite HC]. cbn [bind].
      destruct (F1 L2) as [fate HF]. rewrite HF. cbn [bind]. eexists. reflexivity.
    + intros effs HE. destruct (e_fl E fl) as [l|] eqn:Hl.
      2: { exfalso. unfold ingress_clone in HE. destruct (renew _ len) as [q|]; [|discriminate HE]. cbn [bind] in HE. destruct (e_parse E _ _) as [v1 n]. rewrite Hl in HE. discriminate HE. }
      destruct (ingress_clone_sent p0 (with_regs p r) c fl len l Hlt Hin Hil Hb Hl (HS c eq_refl)) as (ce & HC & S). first [rewrite HC in HE | unfold with_regs in HC; rewrite HC in HE]. cbn [bind] in HE.
      destruct run as [fate|] eqn:ER; [|discriminate HE]. cbn [bind] in HE. injection HE as <-.
      exists len, ce, digest, fate. split; [exact Hlen|]. split; [reflexivity|]. rewrite EC. split; [|split; [exact HD|apply F2; reflexivity]].
      exists l. split; [exists fl; split; assumption|]. exact S.
  - cbn [bind]. split.
    + intros [_ L2]. destruct (F1 L2) as [fate HF]. rewrite HF. cbn [bind]. eexists. reflexivity.
    + intros effs HE. destruct run as [fate|] eqn:ER; [|discriminate HE]. cbn [bind] in HE. injection HE as <-.
      exists len, [], digest, fate. split; [exact Hlen|]. split; [reflexivity|]. rewrite EC. split; [reflexivity|]. split; [exact HD|apply F2; reflexivity].
Qed.

(** Egress *)
Lemma egress_begin_ok port p0 : regs_ok (k_regs p0) -> exists p1, egress_begin E port p0 = Some p1 /\ egress_ready E port p0 p1.
Proof.
  clear junk meta0 meta1. intros HR. destruct (get_some _ PacketLength HR) as [len Hlen]. unfold egress_begin. rewrite Hlen. cbn [bind]. eexists. split; [reflexivity|].
  do 7 (split; [reflexivity|]). split; [exists len; split; [exact Hlen|reflexivity]|]. split; [reflexivity|]. split.
  - intros Hw Hd. rewrite field_get. cbn [with_phv k_phv]. rewrite !get_set. change (fld_eqb egress_spec packet_length) with false. change (fld_eqb egress_spec egress_spec) with true. cbv iota.
    unfold held_by. change (e_width E (fst egress_spec) (snd egress_spec)) with (e_width E 0 3). set (w := e_width E 0 3) in *.
    intros Q.
    assert (HB : N.odd (((e_drop E + 1) mod 2 ^ 32) mod 2 ^ w mod 2 ^ 32) = N.odd (e_drop E)) by (rewrite Q; reflexivity).
    assert (OM : forall a k, 1 <= k -> N.odd (a mod 2 ^ k) = N.odd a).
    { intros a k Hk. rewrite <- !N.bit0_odd. apply N.mod_pow2_bits_low. lia. }
    rewrite !OM in HB by lia. rewrite N.add_1_r, N.odd_succ in HB. rewrite <- N.negb_even in HB. destruct (N.even (e_drop E)); discriminate HB.
  - intros f N1 N2 N3. rewrite !field_get. cbn [with_phv k_phv]. rewrite !get_set.
    destruct (fld_eqb f packet_length) eqn:Q1; [apply fld_eqb_eq in Q1; contradiction|]. destruct (fld_eqb f egress_spec) eqn:Q2; [apply fld_eqb_eq in Q2; contradiction|].
    destruct (fld_eqb f egress_port) eqn:Q3; [apply fld_eqb_eq in Q3; contradiction|]. reflexivity.
Qed.

Lemma egress_clone_sent p r c fl l : regs_ok (k_regs p) -> (forall a, a <> CloneSession -> a <> CloneFieldList -> do_get r a = do_get (k_regs p) a) -> e_fl E fl = Some l ->
  (m_mgid_valid c = true -> m_port_valid c = true -> e_repl E (m_mgid c) = []) ->
  exists effs, egress_clone E (with_regs p r) c fl = Some effs /\ all_sent E (egress_clone_ok E p l) (targets E c) effs.
Proof.
  intros HR HA Hfl HG. unfold egress_clone. rewrite Hfl. cbn [bind]. destruct (get_some _ PacketLength HR) as [len Hlen]. pose proof (get_length_lt _ _ HR Hlen) as Hlt.
  cbn [with_regs k_regs]. rewrite HA, Hlen by discriminate. cbn [bind].
  match goal with |- context [renew ?x len] => set (q0 := x) end.
  destruct (renew_ok q0 len junk Hlt) as (r1 & R & RL & U). rewrite R. cbn [bind]. set (q1 := with_regs q0 r1).
  destruct (send_clone_ok E junk c q1 len (U q1 eq_refl) Hlt eq_refl HG) as (effs & -> & S).
  exists effs. split; [reflexivity|]. revert S. apply all_sent_impl. intros t q _ (A1 & A2 & A3 & A4 & A5 & A6 & A7).
  assert (HV : v_valid (k_phv q1) = v_valid (k_phv p)).
  { unfold q1, q0. cbn [with_regs with_phv k_phv]. transitivity (v_valid (copy_fields l (reset_metadata E (copied_phv E (k_phv p))) (k_phv p))); [reflexivity|]. rewrite valid_copy. reflexivity. }
  assert (HF : forall f, field q1 f = if fld_eqb f instance_type then held_by E f T_EGRESS_CLONE else if existsb (fld_eqb f) l then field p f else if is_meta E f then 0 else get_f (copied_phv E (k_phv p)) f).
  { intros f. rewrite field_get. unfold q1, q0. cbn [with_regs clone_reset_metadata with_phv k_phv]. rewrite get_set, get_copy, get_reset. destruct (fld_eqb f instance_type) eqn:Q; [symmetry; apply held_eq; exact Q|reflexivity]. }
  split; [exact A1|]. split; [exact A2|]. split; [exact A3|]. split; [exists len; split; assumption|]. split; [exact A5|]. split; [rewrite A6; exact HV|]. split.
  - intros f Hm Hv. rewrite (A7 f). 2: { right. rewrite HV. exact Hv. }
    rewrite HF, (not_meta_neq f egress_rid Hm), (not_meta_neq f instance_type Hm), Hm by assumption. rewrite get_copied, Hv. cbn [orb].
    destruct (fst t), (existsb (fld_eqb f) l); reflexivity.
  - intros f Hf. rewrite (A7 f (or_introl Hf)), HF, Hf. unfold sets.
    destruct (fld_eqb f egress_rid) eqn:QR.
    + apply fld_eqb_eq in QR. subst f. rewrite rid_not_type. destruct (fst t); reflexivity.
    + destruct (fld_eqb f instance_type); destruct (fst t); reflexivity.
Qed.

Lemma recirculated_ok p r l fl : e_fl E fl = Some l -> N.of_nat (length (e_deparse E (k_phv p) (content p))) < 2 ^ 64 ->
  exists q, recirculated E (mk_k (k_in p) (k_ilen p) (k_out p) (e_deparse E (k_phv p) (content p)) 0 (k_phv p) r (k_trunc p)) fl = Some q /\ recirculate_ok E p l q.
Proof.
  intros Hfl Hlt. unfold recirculated. rewrite Hfl. cbn [bind].
  match goal with |- context [renew ?x _] => set (q0 := x) end.
  assert (HD : data q0 = e_deparse E (k_phv p) (content p)) by reflexivity. rewrite HD.
  destruct (renew_ok q0 _ junk Hlt) as (r1 & R & RL & U). rewrite R. cbn [bind]. eexists. split; [reflexivity|].
  split; [reflexivity|]. split; [reflexivity|]. split; [reflexivity|]. split; [rewrite N.mod_small by exact Hlt; apply U; reflexivity|]. split; [reflexivity|]. split.
  - cbn [with_phv k_phv with_regs]. unfold q0. cbn [with_phv k_phv]. transitivity (v_valid (copy_fields l (reset_metadata E (e_pool E)) (k_phv p))); [reflexivity|]. rewrite valid_copy. reflexivity.
  - intros f Hf. rewrite field_get. cbn [k_phv with_regs]. rewrite get_set. destruct (fld_eqb f packet_length) eqn:Q; [symmetry; apply held_eq; exact Q|].
    unfold q0. cbn [with_phv k_phv]. rewrite get_set. destruct (fld_eqb f instance_type) eqn:Q2; [symmetry; apply held_eq; exact Q2|].
    rewrite get_copy, get_reset, Hf. reflexivity.
Qed.

Lemma egress_holds port p0 p1 : egress_begin E port p0 = Some p1 -> regs_ok (k_regs (egress_done E p1)) ->
  (forall c, requested E (egress_done E p1) = Some c -> m_mgid_valid c = true -> m_port_valid c = true -> e_repl E (m_mgid c) = []) ->
  (forall v d, N.of_nat (length (e_deparse E v d)) < 2 ^ 64) ->
  (lists_exist (egress_done E p1) Recirculate -> exists effs, egress_one E port p0 = Some effs) /\
  forall effs, egress_one E port p0 = Some effs -> egress_spec_ok E (egress_done E p1) effs.
Proof.
  intros HB HR HS HDP. unfold egress_one. rewrite HB. cbn [bind]. clear HB. set (p := egress_done E p1) in *. clearbody p.
  destruct (get_some _ CloneSession HR) as [v Hv]. destruct (get_some _ CloneFieldList HR) as [fl Hfl]. destruct (get_some _ Recirculate HR) as [rec Hrec].
  destruct (cleared p v HR Hv) as (r & Hr & HrL & Hr0 & HrA).
  rewrite (session_requested p v Hv), Hfl, Hv. cbn [bind]. rewrite Hr. cbn [bind]. cbn [with_regs k_phv k_regs k_in k_ilen k_out k_bytes k_off k_trunc].
  pose proof (HrA Recirculate) as Hrr. rewrite Hrr, Hrec by discriminate. cbn [bind]. clear Hrr.
  change (data (mk_k (k_in p) (k_ilen p) (k_out p) (k_bytes p) (k_off p) (k_phv p) r (k_trunc p))) with (content p).
  set (fate := fun clones : list eff => if get_f (k_phv p) egress_spec mod 2 ^ 32 =? e_drop E then Some clones else _).
  set (want := fun clones effs => exists fate, effs = clones ++ fate /\
    if field p egress_spec mod 2 ^ 32 =? e_drop E then fate = []
    else if negb (rec =? 0) then exists l q, list_of E p Recirculate l /\ recirculate_ok E p l q /\ fate = [Reinsert q]
    else fate = [Transmit (k_out p) (match k_trunc p with None => e_deparse E (k_phv p) (content p) | Some t => firstn (N.to_nat t) (e_deparse E (k_phv p) (content p)) end)]).
  assert (HF : forall cl, (lists_exist p Recirculate -> exists effs, fate cl = Some effs) /\ forall effs, fate cl = Some effs -> want cl effs).
  { intros cl. unfold fate, want. rewrite !field_get. destruct (get_f (k_phv p) egress_spec mod 2 ^ 32 =? e_drop E).
    - split; [intros _; eexists; reflexivity|]. intros effs Q; injection Q as <-. exists []. split; [symmetry; apply app_nil_r|reflexivity].
    - destruct (negb (rec =? 0)) eqn:QR.
      + destruct (clear_rec_ok r HrL) as (r1 & E1 & L1). rewrite E1. cbn [bind]. split.
        * intros [_ L2]. destruct (L2 rec Hrec) as (l & id & Hid & Hl). { apply negb_true_iff, N.eqb_neq in QR. exact QR. }
          rewrite Hrec in Hid. injection Hid as <-. destruct (recirculated_ok p r1 l rec Hl (HDP _ _)) as (q & Hq & _).
          match goal with |- context [recirculated E ?x rec] => change (recirculated E x rec) with (recirculated E (mk_k (k_in p) (k_ilen p) (k_out p) (e_deparse E (k_phv p) (content p)) 0 (k_phv p) r1 (k_trunc p)) rec) end.
          rewrite Hq. cbn [bind]. eexists. reflexivity.
        * intros effs HE. destruct (e_fl E rec) as [l|] eqn:Hl; [|unfold recirculated in HE; rewrite Hl in HE; discriminate HE].
          destruct (recirculated_ok p r1 l rec Hl (HDP _ _)) as (q & Hq & Hok).
          match type of HE with context [recirculated E ?x rec] => change (recirculated E x rec) with (recirculated E (mk_k (k_in p) (k_ilen p) (k_out p) (e_deparse E (k_phv p) (content p)) 0 (k_phv p) r1 (k_trunc p)) rec) in HE end.
          rewrite Hq in HE. cbn [bind] in HE. injection HE as <-.
          exists [Reinsert q]. split; [reflexivity|]. exists l, q. split; [exists rec; split; assumption|]. split; [exact Hok|reflexivity].
      + split; [intros _; eexists; reflexivity|]. intros effs Q; injection Q as <-. eexists. split; [reflexivity|]. unfold sent_bytes. cbn [k_trunc]. destruct (k_trunc p); reflexivity. }
  destruct (requested E p) as [c|] eqn:EC.
  - split.
    + intros [L1 L2]. destruct L1 as (l & id & Hid & Hl); [rewrite EC; discriminate|]. rewrite Hfl in Hid. injection Hid as <-.
      destruct (egress_clone_sent p r c fl l HR HrA Hl (HS c eq_refl)) as (ce & HC & _). first [rewrite HC | unfold with_regs in HC; rewrite HC]. cbn [bind]. apply HF. split; [intros _|exact L2]. exists l. exists fl. split; assumption.
    + intros effs HE. destruct (e_fl E fl) as [l|] eqn:Hl; [|unfold egress_clone in HE; rewrite Hl in HE; discriminate HE].
      destruct (egress_clone_sent p r c fl l HR HrA Hl (HS c eq_refl)) as (ce & HC & S). first [rewrite HC in HE | unfold with_regs in HC; rewrite HC in HE]. cbn [bind] in HE.
      destruct (HF ce) as [_ H2]. destruct (H2 effs HE) as (ft & -> & Hft). exists ce, ft, rec. split; [reflexivity|]. rewrite EC. split; [|split; [exact Hrec|exact Hft]].
      exists l. split; [exists fl; split; assumption|exact S].
  - cbn [bind]. split; [intros L; apply (HF []); exact L|]. intros effs HE. destruct (HF []) as [_ H2]. destruct (H2 effs HE) as (ft & -> & Hft).
    exists [], ft, rec. split; [reflexivity|]. rewrite EC. split; [reflexivity|]. split; [exact Hrec|exact Hft].
Qed.
End P.
