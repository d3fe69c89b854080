(** C56: what psa_switch does with a packet; C57: what pna_nic does with it. *)
From Coq Require Import List Arith NArith Bool Lia.
From Verif Require Import PsaModel PsaSpec PsaProofs.
Import ListNotations.
Local Open Scope N_scope.

Theorem C56_receive E port bytes : sane E -> received_ok E port bytes (receive E port bytes).
Proof. apply receive_holds. Qed.
Print Assumptions C56_receive.

(** Ingress: the packet is parsed and prepared, the ingress pipeline runs, then clones are made of the packet as it came and it is dropped, resubmitted, multicast or sent to one port. *)
Theorem C56_ingress E now p0 : sane E -> k_exit p0 = false -> (forall id c, e_sessions E id = Some c -> one_kind E c) ->
  exists p1 p, ingress_ready E now p0 p1 /\ piped E false p1 p /\ ingress_spec E false p0 p (ingress_one E now p0).
Proof.
  intros HS X K. exists (ingress_begin E now p0), (apply E false (ingress_begin E now p0)).
  assert (X1 : k_exit (ingress_begin E now p0) = false) by (rewrite begin_exit; exact X).
  pose proof (apply_holds E false _ X1) as P. pose proof (ingress_begin_holds E now p0) as R.
  split; [exact R|]. split; [exact P|]. destruct P as (_ & _ & _ & PX & PC & (F & F') & _).
  destruct R as (v0 & v & n & err & _ & _ & _ & _ & _ & (R1 & R2) & _). apply ingress_after; auto.
  - intros c. unfold session. destruct (flag _ _); [|discriminate]. apply K.
  - split; congruence.
  - unfold content, apply. rewrite X1. cbn [with_off k_off k_bytes]. rewrite begin_bytes. reflexivity.
Qed.
Print Assumptions C56_ingress.

(** Egress: the packet is parsed again, the egress pipeline and the deparser run, then clones are made of the packet as it leaves and it is dropped, recirculated or transmitted. *)
Theorem C56_egress E now port p0 : sane E -> k_exit p0 = false -> (forall id c, e_sessions E id = Some c -> one_kind E c) ->
  exists p1 p, egress_ready E false now port p0 p1 /\ piped E true p1 p /\ egress_spec E port p (egress_one E now port p0).
Proof.
  intros HS X K. exists (egress_begin E now port p0), (apply E true (egress_begin E now port p0)).
  assert (X1 : k_exit (egress_begin E now port p0) = false) by (rewrite ebegin_exit; exact X).
  pose proof (apply_holds E true _ X1) as P.
  split; [apply egress_begin_holds|]. split; [exact P|]. destruct P as (_ & _ & _ & PX & _). apply egress_after; auto. intros c. apply K.
Qed.
Print Assumptions C56_egress.

(** A packet whose stacks are empty, like every clone, is parsed in egress like a new one. *)
Theorem C56_egress_parses_afresh E now port p0 : (forall s, v_next (k_phv p0) s = 0%nat) -> egress_ready E true now port p0 (egress_begin E now port p0).
Proof. apply egress_begin_full. Qed.
Print Assumptions C56_egress_parses_afresh.

(** ** Over the life of the switch: the packets in the input buffer and in the egress queues *)
Inductive waits (E : env) : pkt -> Prop :=
| w_new : forall port bytes, waits E (receive E port bytes)
| w_in : forall now p q, waits E p -> In (Reinsert q) (ingress_one E now p) -> waits E q
| w_out : forall now port p q, queued E port p -> In (Reinsert q) (egress_one E now port p) -> waits E q
with queued (E : env) : N -> pkt -> Prop :=
| q_in : forall now p port q, waits E p -> In (Queue port q) (ingress_one E now p) -> queued E port q
| q_out : forall now po p port q, queued E po p -> In (Queue port q) (egress_one E now po p) -> queued E port q.
Scheme waits_min := Minimality for waits Sort Prop with queued_min := Minimality for queued Sort Prop.
Combined Scheme life_min from waits_min, queued_min.

Definition in_path (E : env) (p : pkt) : Prop :=
  exists path, (path = NORMAL \/ path = RESUBMIT \/ path = RECIRCULATE) /\ field p ip_path = held_by E ip_path path.
Definition out_path (E : env) (p : pkt) : Prop :=
  exists path, (path = UNICAST \/ path = MULTICAST \/ path = CLONE_I2E \/ path = CLONE_E2E) /\ field p ep_path = held_by E ep_path path.

Lemma Forall2_In_r {A B} (P : A -> B -> Prop) l m b : Forall2 P l m -> In b m -> exists a, In a l /\ P a b.
Proof. induction 1; intros I; [destruct I|]. destruct I as [<-|I]; [eexists; split; [left; reflexivity|assumption]|]. destruct (IHForall2 I) as (a & Ia & Pa). exists a. split; [right; exact Ia|exact Pa]. Qed.

Lemma ingress_effects E now p : sane E -> (forall id c, e_sessions E id = Some c -> one_kind E c) -> k_exit p = false ->
  (forall q, In (Reinsert q) (ingress_one E now p) -> k_exit q = false /\ in_path E q) /\
  (forall port q, In (Queue port q) (ingress_one E now p) -> k_exit q = false /\ k_out q = port /\ out_path E q) /\
  (forall port b, ~ In (Transmit port b) (ingress_one E now p)).
Proof.
  intros HS K X. destruct (C56_ingress E now p HS X K) as (p1 & p2 & _ & _ & (cl & fa & -> & HC & HF)). pose proof HS as [M _].
  assert (C : Forall (fun e => exists port q, e = Queue port q /\ k_exit q = false /\ k_out q = port /\ out_path E q) cl).
  { destruct (session E p2 io_clone io_session); [|subst cl; constructor]. apply Forall_forall. intros e Ie.
    destruct (Forall2_In_r _ _ _ _ HC Ie) as (t & _ & (q & ((_ & _ & _ & _ & OM) & _) & O & Xq & ->)). exists (snd t), q. repeat (split; [auto|]).
    exists CLONE_I2E. split; [tauto|]. rewrite OM by (apply M; cbn; lia). reflexivity. }
  assert (Q : Forall (fun e => (exists q, e = Reinsert q /\ k_exit q = false /\ in_path E q) \/ exists port q, e = Queue port q /\ k_exit q = false /\ k_out q = port /\ out_path E q) fa).
  { destruct (flag p2 io_drop); [subst fa; constructor|]. destruct (flag p2 io_resubmit).
    - destruct HF as (q & (_ & _ & Xq & _ & _ & _ & _ & OM) & ->). constructor; [|constructor]. left. exists q. repeat (split; [auto|]).
      exists RESUBMIT. split; [tauto|]. rewrite OM by (apply M; cbn; lia). reflexivity.
    - cbn zeta in HF. apply Forall_forall. intros e Ie. right. destruct (negb (phv_of E false p2 io_group mod 2 ^ 32 =? 0)).
      + destruct (Forall2_In_r _ _ _ _ HF Ie) as (t & It & (q & (_ & _ & _ & _ & FF) & O & Xq & ->)). exists (snd t), q. repeat (split; [auto|]).
        exists MULTICAST. split; [tauto|]. rewrite FF by (apply M; cbn; lia). unfold group in It. apply in_map_iff in It. destruct It as (x & <- & _). reflexivity.
      + destruct (Forall2_In_r _ _ _ _ HF Ie) as (t & It & (q & (_ & _ & _ & _ & FF) & O & Xq & ->)). exists (snd t), q. repeat (split; [auto|]).
        exists UNICAST. split; [tauto|]. rewrite FF. reflexivity. }
  rewrite Forall_forall in C, Q. split; [intros q H|split; [intros po0 q H|intros po0 b H]]; rewrite in_app_iff in H.
  all: try (destruct H as [H|H]; [apply C in H|apply Q in H]).
  all: try (destruct H as (po & r & Er & H1 & H2 & H3); injection Er; intros; subst; solve [auto|discriminate]).
  all: try (destruct H as [(r & Er & H1 & H2)|(po & r & Er & H1 & H2 & H3)]; try discriminate Er; injection Er; intros; subst; solve [auto]).
  all: destruct H as (po & r & Er & _); discriminate Er.
Qed.
Lemma egress_effects E now port p : sane E -> (forall id c, e_sessions E id = Some c -> one_kind E c) -> k_exit p = false ->
  (forall q, In (Reinsert q) (egress_one E now port p) -> k_exit q = false /\ in_path E q) /\
  (forall po q, In (Queue po q) (egress_one E now port p) -> k_exit q = false /\ k_out q = po /\ out_path E q) /\
  (forall po b, In (Transmit po b) (egress_one E now port p) -> po = k_out p /\ port <> PORT_RECIRCULATE).
Proof.
  intros HS K X. destruct (C56_egress E now port p HS X K) as (p1 & p2 & RD & PI & (v & bs & cl & fa & _ & -> & HC & HF)). pose proof HS as [M _].
  assert (KO : k_out p2 = k_out p).
  { destruct PI as (_ & _ & _ & _ & _ & _ & ->). destruct RD as (? & ? & ? & ? & _ & _ & _ & _ & _ & _ & _ & _ & -> & _). reflexivity. }
  assert (C : Forall (fun e => exists po q, e = Queue po q /\ k_exit q = false /\ k_out q = po /\ out_path E q) cl).
  { cbn zeta in HC. destruct (if negb (v_f v (fst eo_clone) (snd eo_clone) mod 2 ^ 32 =? 0) then e_sessions E (v_f v (fst eo_session) (snd eo_session)) else None) as [c|]; [|subst cl; constructor]. apply Forall_forall. intros e Ie.
    destruct (Forall2_In_r _ _ _ _ HC Ie) as (t & _ & (q & (_ & _ & _ & _ & OM) & O & Xq & ->)). exists (snd t), q. repeat (split; [auto|]).
    exists CLONE_E2E. split; [tauto|]. rewrite OM by (apply M; cbn; lia). reflexivity. }
  assert (Q : Forall (fun e => (exists q, e = Reinsert q /\ k_exit q = false /\ in_path E q) \/ exists b, e = Transmit (k_out p) b /\ port <> PORT_RECIRCULATE) fa).
  { cbn zeta in HF. destruct (negb (v_f v (fst eo_drop) (snd eo_drop) mod 2 ^ 32 =? 0)); [subst fa; constructor|]. destruct (N.eqb_spec port PORT_RECIRCULATE) as [Er|Er].
    - destruct HF as (q & (_ & _ & _ & Xq & _ & OM) & ->). constructor; [|constructor]. left. exists q. repeat (split; [auto|]).
      exists RECIRCULATE. split; [tauto|]. rewrite OM by (apply M; cbn; lia). reflexivity.
    - subst fa. constructor; [|constructor]. right. rewrite KO. eexists. split; [reflexivity|exact Er]. }
  rewrite Forall_forall in C, Q. split; [intros q H|split; [intros po0 q H|intros po0 b H]]; rewrite in_app_iff in H.
  all: try (destruct H as [H|H]; [apply C in H|apply Q in H]).
  all: try (destruct H as (po' & r & Er & H1 & H2 & H3); injection Er; intros; subst; solve [auto|discriminate]).
  all: try (destruct H as [(r & Er & H1 & H2)|(b' & Er & H1)]; try discriminate Er; injection Er; intros; subst; solve [auto]).
  all: destruct H as (po' & r & Er & _); discriminate Er.
Qed.

(** Every packet that waits for ingress or egress is on one of the paths of the PSA, is not marked for exit, and is transmitted only out of the port it was queued for, never out of the recirculation port. *)
Theorem C56_history E : sane E -> (forall id c, e_sessions E id = Some c -> one_kind E c) ->
  (forall p, waits E p -> k_exit p = false /\ in_path E p) /\
  (forall port p, queued E port p -> k_exit p = false /\ k_out p = port /\ out_path E p /\
     forall now po bytes, In (Transmit po bytes) (egress_one E now port p) -> po = port /\ po <> PORT_RECIRCULATE).
Proof.
  intros HS K.
  assert (G : (forall p, waits E p -> k_exit p = false /\ in_path E p) /\ (forall port p, queued E port p -> k_exit p = false /\ k_out p = port /\ out_path E p)).
  { apply life_min.
    - intros port bytes. destruct (C56_receive E port bytes HS) as (_ & _ & _ & _ & _ & _ & X & OM). split; [exact X|]. exists NORMAL. split; [tauto|].
      destruct HS as [M _]. rewrite OM by (apply M; cbn; lia). reflexivity.
    - intros now p q _ [X _] I. apply (ingress_effects E now p HS K X). exact I.
    - intros now port p q _ (X & _) I. apply (egress_effects E now port p HS K X). exact I.
    - intros now p port q _ [X _] I. apply (ingress_effects E now p HS K X). exact I.
    - intros now po p port q _ (X & _) I. apply (egress_effects E now po p HS K X). exact I. }
  destruct G as [G1 G2]. split; [exact G1|]. intros port p Hq. destruct (G2 port p Hq) as (X & O & P). repeat (split; [assumption|]).
  intros now po bytes I. destruct (egress_effects E now port p HS K X) as (_ & _ & T). destruct (T po bytes I) as [-> N]. rewrite O. split; [reflexivity|exact N].
Qed.
Print Assumptions C56_history.

(** ** A program: two headers (7 and 8) and a stack; ingress clones and resubmits what it is told to by the first byte *)
Definition px_pool : vec := mk_v (fun _ => false) (fun _ _ => 0) (fun _ => 0%nat).
Definition px_parse (b : bool) (v : vec) (d : list N) : vec * nat * N :=
  match d with
  | [] => (v, 0%nat, 1)
  | x :: _ => (mk_v (fun h => Nat.eqb h 7 || v_valid v h) (fun h i => if Nat.eqb h 7 then x else v_f v h i) (fun s => S (v_next v s)), 1%nat, 0)
  end.
Definition px_env (pipe : bool -> vec -> vec) : env := {|
  e_width := fun _ _ => 32; e_meta := fun h => Nat.leb h 6;
  e_sessions := fun id => if id =? 5 then Some (mk_m 9 true 0 false) else if id =? 6 then Some (mk_m 9 true 3 true) else None;
  e_repl := fun g => if g =? 3 then [(1, 4); (2, 5)] else [];
  e_parse := px_parse;
  e_pipe := fun b p => mk_a (pipe b (k_phv p)) (k_len p) (k_trunc p) true None;
  e_deparse := fun b v d => (v, v_f v 7 0 :: d);
  e_pool := px_pool; e_junk := 77 |}.
Definition put (v : vec) (f : nat * nat) (x : N) : vec := mk_v (v_valid v) (fun h i => if Nat.eqb h (fst f) && Nat.eqb i (snd f) then x else v_f v h i) (v_next v).
Lemma px_sane pipe : sane (px_env pipe).
Proof. constructor; [intros h H; apply Nat.leb_le; exact H|split; reflexivity]. Qed.
(** To port 2, cloned to session 5 (port 9) in ingress, the first byte raised by one *)
Definition px_unicast (b : bool) (v : vec) : vec :=
  if b then v else put (put (put (put (put v io_drop 0) io_port 2) io_clone 1) io_session 5) (7, 0)%nat (v_f v 7 0 + 1).
Definition px_in : pkt := receive (px_env px_unicast) 1 [10; 11; 12].
Definition show (e : eff) : N * N * list N * list N :=
  match e with Queue po q => (0, po, data q, map (fun f => field q f) [ep_path; ei_instance; ei_cos])
             | Reinsert q => (1, 0, data q, map (fun f => field q f) [ip_path; ip_port]) | Transmit po b => (2, po, b, []) end.
Example C56_unicast : map show (ingress_one (px_env px_unicast) 100 px_in) = [(0, 9, [10; 11; 12], [3; 0; 0]); (0, 2, [11; 11; 12], [1; 0; 0])].
Proof. vm_compute. reflexivity. Qed.
Example C56_unicast_out : map show (concat (map (fun e => match e with Queue po q => egress_one (px_env px_unicast) 200 po q | _ => [] end) (ingress_one (px_env px_unicast) 100 px_in))) =
  [(2, 9, [10; 11; 12], []); (2, 2, [11; 11; 12], [])].
Proof. vm_compute. reflexivity. Qed.
(** To group 3; egress clones to session 5 and drops *)
Definition px_group (b : bool) (v : vec) : vec :=
  if b then put (put (put v eo_clone 1) eo_session 5) eo_drop 1 else put (put (put v io_drop 0) io_group 3) io_cos 7.
Example C56_multicast : map show (ingress_one (px_env px_group) 100 px_in) = [(0, 4, [10; 11; 12], [2; 1; 7]); (0, 5, [10; 11; 12], [2; 2; 7])].
Proof. vm_compute. reflexivity. Qed.
Example C56_egress_clone : map show (concat (map (fun e => match e with Queue po q => egress_one (px_env px_group) 200 po q | _ => [] end) (ingress_one (px_env px_group) 100 px_in))) =
  [(0, 9, [10; 11; 12], [4; 0; 0]); (0, 9, [10; 11; 12], [4; 0; 0])].
Proof. vm_compute. reflexivity. Qed.
(** To the recirculation port *)
Definition px_recirc (b : bool) (v : vec) : vec := if b then v else put (put v io_drop 0) io_port PORT_RECIRCULATE.
Example C56_recirculate : map show (concat (map (fun e => match e with Queue po q => egress_one (px_env px_recirc) 200 po q | _ => [] end) (ingress_one (px_env px_recirc) 100 px_in))) =
  [(1, 0, [10; 11; 12], [6; PORT_RECIRCULATE])].
Proof. vm_compute. reflexivity. Qed.
Definition px_resubmit (b : bool) (v : vec) : vec := put (put v io_drop 0) io_resubmit 1.

(** A resubmitted packet loses its ingress port (it reads 0) and is parsed with the headers of the first pass still valid. *)
Theorem C56_resubmit_refuted :
  ~ (forall E now p0, sane E -> k_exit p0 = false -> (forall id c, e_sessions E id = Some c -> one_kind E c) ->
      exists p1 p, ingress_ready E now p0 p1 /\ piped E false p1 p /\ ingress_spec E true p0 p (ingress_one E now p0)).
Proof.
  intros H. set (E := mk_env (fun _ _ => 32) (fun h => Nat.leb h 6) (fun _ => None) (fun _ => []) px_parse
    (fun _ p => mk_a (px_resubmit false (k_phv p)) (k_len p) (k_trunc p) false None) (fun _ v d => (v, d)) px_pool 0).
  destruct (H E 0 (receive E 1 [10])) as (p1 & p & _ & P & (cl & fa & EQ & _ & HF)).
  - constructor; [intros h Hh; apply Nat.leb_le; exact Hh|split; reflexivity].
  - reflexivity.
  - intros id c Q. discriminate Q.
  - destruct P as (Pv & _). unfold flag, field in HF. rewrite Pv in HF. change (e_pipe E false p1) with (mk_a (px_resubmit false (k_phv p1)) (k_len p1) (k_trunc p1) false None) in HF.
    cbn [a_phv px_resubmit put v_f fst snd io_drop io_resubmit Nat.eqb andb] in HF. change (negb (0 mod 2 ^ 32 =? 0)) with false in HF. change (negb (1 mod 2 ^ 32 =? 0)) with true in HF. cbn iota in HF.
    destruct HF as (q & (_ & _ & _ & _ & ((U & _) & _ & _)) & ->).
    assert (EV : forall L, L = cl ++ [Reinsert q] -> last L (Transmit 0 []) = Reinsert q) by (intros L ->; apply last_last).
    apply EV in EQ. assert (V : v_valid (k_phv q) 7 = true).
    { revert EQ. clear. intros EQ. assert (L : match last (ingress_one E 0 (receive E 1 [10])) (Transmit 0 []) with Reinsert r => v_valid (k_phv r) 7 | _ => false end = true) by (vm_compute; reflexivity).
      rewrite EQ in L. exact L. }
    rewrite U in V. discriminate V.
Qed.
Print Assumptions C56_resubmit_refuted.

(** A packet sent from ingress to egress keeps the fill levels of its header stacks, so egress parses it with stacks that are not empty. *)
Theorem C56_egress_stacks_refuted :
  ~ (forall E now now' port p0 q, sane E -> waits E p0 -> In (Queue port q) (ingress_one E now p0) -> egress_ready E true now' port q (egress_begin E now' port q)).
Proof.
  intros H. pose (E := px_env px_unicast).
  assert (A : match nth_error (ingress_one E 0 px_in) 1 with
              | Some (Queue po q) => Some (po, content q, v_next (k_phv (egress_begin E 0 2 q)) 0%nat) | _ => None end = Some (2, [11; 11; 12], 2%nat)) by (vm_compute; reflexivity).
  destruct (nth_error (ingress_one E 0 px_in) 1) as [e|] eqn:EN1; [|discriminate A]. destruct e as [po q|q|po b]; try discriminate A. injection A as -> C A.
  assert (PS : sane E) by apply px_sane. assert (W : waits E px_in) by apply w_new. apply nth_error_In in EN1.
  destruct (H E 0 0 2 px_in q PS W EN1) as (v0 & v & n & err & EP & _ & _ & F & _ & _ & _ & _ & _ & _ & EN & _).
  specialize (F eq_refl 0%nat). rewrite C in EP. change (e_parse E true v0 [11; 11; 12]) with (px_parse true v0 [11; 11; 12]) in EP. unfold px_parse in EP. injection EP as <- _ _.
  rewrite EN in A. cbn [v_next] in A. rewrite F in A. discriminate A.
Qed.
Print Assumptions C56_egress_stacks_refuted.

(** When a session has both a multicast group and a port, the clone for the port carries the instance of the last replica. *)
Theorem C56_clone_instance_refuted :
  ~ (forall E now p0, sane E -> waits E p0 ->
      exists p1 p, ingress_ready E now p0 p1 /\ piped E false p1 p /\ ingress_spec E false p0 p (ingress_one E now p0)).
Proof.
  intros H. pose (pipe := fun (b : bool) v => put (put (put v io_clone 1) io_session 6) io_drop 1). pose (E := px_env pipe). pose (p0 := receive E 1 [10; 11; 12]).
  destruct (H E 0 p0) as (p1 & p & _ & P & (cl & fa & EQ & HC & HF)); [apply px_sane|apply w_new|].
  destruct P as (Pv & _).
  assert (F : forall f x, field (mk_k 0 0 0 [] 0 (pipe false (k_phv p1)) 0 None false) f = x -> field p f = x) by (intros f x <-; unfold field; rewrite Pv; reflexivity).
  assert (HS : session E p io_clone io_session = Some (mk_m 9 true 3 true)) by (unfold session, flag; rewrite (F io_clone 1), (F io_session 6) by reflexivity; reflexivity).
  assert (HD : flag p io_drop = true) by (unfold flag; rewrite (F io_drop 1) by reflexivity; reflexivity).
  rewrite HS in HC. rewrite HD in HF. subst fa. rewrite app_nil_r in EQ.
  assert (A : match nth_error (ingress_one E 0 p0) 2 with Some (Queue _ r) => field r ei_instance | _ => 0 end = 2) by (vm_compute; reflexivity).
  rewrite EQ in A. change (targets E (mk_m 9 true 3 true)) with [(Some 1, 4); (Some 2, 5); (None, 9)] in HC.
  inversion HC as [|? e1 ? l1 _ H1 Q1 Q1']; subst cl. inversion H1 as [|? e2 ? l2 _ H2 Q2 Q2']; subst l1.
  inversion H2 as [|? e3 ? l3 (q & ((_ & _ & _ & _ & OM) & _) & _ & _ & Q) _ Q3 Q3']; subst l2. cbn [nth_error] in A. subst e3.
  specialize (OM ei_instance eq_refl). rewrite OM in A. cbn in A. discriminate A.
Qed.
Print Assumptions C56_clone_instance_refuted.

(** ** pna_nic *)
Theorem C57_receive E port bytes : e_meta E 0 = true -> (forall h, v_valid (e_pool E) h = false) /\ (forall s, v_next (e_pool E) s = 0%nat) ->
  pna_received_ok E port bytes (pna_receive E port bytes).
Proof. apply pna_receive_holds. Qed.
Print Assumptions C57_receive.

Lemma deparse_sent E p : [Transmit (k_out (deparse E false p)) (sent_bytes (deparse E false p))] =
  [Transmit (k_out p) (let bs := snd (e_deparse E false (k_phv p) (content p)) in match k_trunc p with None => bs | Some t => firstn (N.to_nat t) bs end)].
Proof. unfold deparse, sent_bytes, data, content. destruct (e_deparse E false (k_phv p) (skipn (k_off p) (k_bytes p))) as [v d]. reflexivity. Qed.
Lemma pna_apply_form E p : k_exit p = false -> k_phv (pna_apply E p) = a_phv (e_pipe E false p) /\ content (pna_apply E p) = content p /\
  k_trunc (pna_apply E p) = a_trunc (e_pipe E false p) /\ k_out (pna_apply E p) = match a_sent (e_pipe E false p) with Some d => d mod 2 ^ 32 | None => k_out p end.
Proof. intros X. unfold pna_apply, apply, content. rewrite X. destruct (a_sent (e_pipe E false p)); auto. Qed.
(** Every packet is parsed, goes through the main control once, and leaves as one packet, out of the port the program sent it to. *)
Theorem C57_main E now p0 : k_exit p0 = false -> exists p1, main_ready E now p0 p1 /\ main_spec E p1 (main_one E now p0).
Proof.
  intros X. exists (main_begin E now p0). split; [apply main_begin_holds|]. unfold main_spec, main_one. rewrite deparse_sent.
  destruct (pna_apply_form E (main_begin E now p0)) as (A1 & A2 & A3 & A4); [rewrite main_exit; exact X|]. rewrite A1, A2, A3, A4.
  eexists. split; [reflexivity|]. split; [intros d ->; reflexivity|intros ->; reflexivity].
Qed.
Print Assumptions C57_main.

(** A packet the program sends nowhere is not dropped: it leaves through port 0. *)
Theorem C57_no_port_refuted :
  ~ (forall E now port bytes, a_sent (e_pipe E false (main_begin E now (pna_receive E port bytes))) = None -> main_one E now (pna_receive E port bytes) = []).
Proof. intros H. specialize (H (px_env px_unicast) 0 1 [10] eq_refl). vm_compute in H. discriminate H. Qed.
Print Assumptions C57_no_port_refuted.
Theorem C57_no_port E now port bytes : a_sent (e_pipe E false (main_begin E now (pna_receive E port bytes))) = None ->
  exists b, main_one E now (pna_receive E port bytes) = [Transmit 0 b].
Proof.
  intros H. unfold main_one. rewrite deparse_sent.
  destruct (pna_apply_form E (main_begin E now (pna_receive E port bytes))) as (_ & _ & _ & A4); [rewrite main_exit; reflexivity|]. rewrite A4, H.
  destruct (main_begin_holds E now (pna_receive E port bytes)) as (? & ? & ? & ? & _ & _ & _ & _ & _ & _ & _ & -> & _). eexists. reflexivity.
Qed.
Print Assumptions C57_no_port.
Example C57_run : map show (main_one (mk_env (fun _ _ => 32) (fun h => Nat.leb h 6) (fun _ => None) (fun _ => []) px_parse
    (fun _ p => mk_a (put (k_phv p) (7, 0)%nat 99) (k_len p) (Some 2) false (Some (2 ^ 32 + 4))) (fun _ v d => (v, v_f v 7 0 :: d)) px_pool 0) 5
    (pna_receive (px_env px_unicast) 1 [10; 11; 12])) = [(2, 4, [99; 11], [])].
Proof. vm_compute. reflexivity. Qed.
