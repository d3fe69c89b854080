(** What a user reads in docs/simple_switch.md 250-445: the after-ingress and after-egress behaviour. *)
From Coq Require Import List Arith NArith Bool.
From Verif Require Import AccessModel SwitchModel.
Import ListNotations.
Local Open Scope N_scope.

Section SPEC.
Variable E : env.

Definition field (p : pkt) (f : nat * nat) : N := v_f (k_phv p) (fst f) (snd f).
Definition held_by (f : nat * nat) (x : N) : N := x mod 2 ^ e_width E (fst f) (snd f).
Definition is_meta (f : nat * nat) : bool := e_meta E (fst f).
(** What is left of the packet to be parsed (before parsing) or its payload (after parsing) *)
Definition content (p : pkt) : list N := skipn (k_off p) (k_bytes p).
(** The per-packet attributes of a new copy: nothing requested, and this length *)
Definition unrequested (p : pkt) (len : N) : Prop :=
  do_get (k_regs p) CloneSession = Some 0 /\ do_get (k_regs p) CloneFieldList = Some 0 /\ do_get (k_regs p) LfFieldList = Some 0 /\
  do_get (k_regs p) Resubmit = Some 0 /\ do_get (k_regs p) Recirculate = Some 0 /\ do_get (k_regs p) PacketLength = Some len.
Definition fld_eqb (a b : nat * nat) : bool := Nat.eqb (fst a) (fst b) && Nat.eqb (snd a) (snd b).
(** Metadata kept by a field list, the rest zero, except those fields for which [over] gives a value *)
Definition metadata_kept (l : list (nat * nat)) (from q : pkt) (over : nat * nat -> option N) : Prop :=
  forall f, is_meta f = true -> field q f = match over f with Some x => held_by f x | None => if existsb (fld_eqb f) l then field from f else 0 end.
(** Values for the fields set by the switch: instance type, and the rid of a replica *)
Definition sets (ty : N) (rid : option N) (f : nat * nat) : option N :=
  if fld_eqb f instance_type then Some ty else if fld_eqb f egress_rid then rid else None.

(** A list of packets to be sent to ports: each is queued at its priority, or discarded when it has no such priority *)
Definition priority_of (p : pkt) : N := if e_has_prio E then field p priority mod 2 ^ 64 else 0.
Definition sent (ok : option N * N -> pkt -> Prop) (t : option N * N) (e : list eff) : Prop :=
  exists q, ok t q /\ k_out q = snd t /\ e = if priority_of q <? e_nq E then [Queue (snd t) (priority_of q) q] else [].
Definition all_sent (ok : option N * N -> pkt -> Prop) (ts : list (option N * N)) (e : list eff) : Prop := exists es, Forall2 (sent ok) ts es /\ e = concat es.
Definition group (mgid : N) : list (option N * N) := map (fun x => (Some (fst x), snd x)) (e_repl E mgid).
(** Where a session sends its clones *)
Definition targets (c : mcfg) : list (option N * N) := (if m_mgid_valid c then group (m_mgid c) else []) ++ (if m_port_valid c then [(None, m_port c)] else []).

(** The clone requested in the packet's attributes *)
Definition requested (p : pkt) : option mcfg :=
  match do_get (k_regs p) CloneSession with Some v => if v =? 0 then None else e_sessions E (v mod 2 ^ 15) | None => None end.
Definition list_of (p : pkt) (a : attr) (l : list (nat * nat)) : Prop := exists id, do_get (k_regs p) a = Some id /\ e_fl E id = Some l.

(** [p0]: the packet taken from the input buffer; [p]: the packet at the end of ingress.
    A clone has the content the packet had when ingress began, parsed again; its metadata are those of the field list; *)
Definition ingress_clone_ok (p0 p : pkt) (len : N) (l : list (nat * nat)) (t : option N * N) (q : pkt) : Prop :=
  k_in q = k_in p0 /\ k_ilen q = k_ilen p0 /\ k_trunc q = None /\ unrequested q len /\
  metadata_kept l p q (sets T_INGRESS_CLONE (fst t)) /\
  exists v n, (forall h i, v_f v h i = if Nat.eqb h 0 && Nat.eqb i 0 then held_by ingress_port (k_in p0) else v_f (e_pool E) h i) /\ v_valid v = v_valid (e_pool E) /\
    (exists v', e_parse E v (content p0) = (v', n) /\ v_valid (k_phv q) = v_valid v' /\
       forall f, is_meta f = false -> v_valid v' (fst f) = true -> field q f = if existsb (fld_eqb f) l then field p f else v_f v' (fst f) (snd f)) /\
    content q = skipn n (content p0).
(** a resubmitted packet has the content, not parsed yet; *)
Definition resubmit_ok (p0 p : pkt) (len : N) (l : list (nat * nat)) (q : pkt) : Prop :=
  k_in q = k_in p0 /\ k_ilen q = k_ilen p0 /\ k_trunc q = None /\ unrequested q len /\ content q = content p0 /\ v_valid (k_phv q) = v_valid (e_pool E) /\
  metadata_kept l p q (fun f => if fld_eqb f packet_length then Some len else if fld_eqb f instance_type then Some T_RESUBMIT else None).
(** replicas and the unicast packet are the packet, *)
Definition same_packet (p q : pkt) (over : nat * nat -> option N) : Prop :=
  k_in q = k_in p /\ k_ilen q = k_ilen p /\ content q = content p /\ v_valid (k_phv q) = v_valid (k_phv p) /\
  forall f, is_meta f = true \/ v_valid (k_phv p) (fst f) = true -> field q f = match over f with Some x => held_by f x | None => field p f end.
Definition replica_ok (p : pkt) (len : N) (t : option N * N) (q : pkt) : Prop :=
  same_packet p q (sets T_REPLICATION (fst t)) /\ unrequested q len /\ k_trunc q = None.
Definition unicast_ok (p : pkt) (t : option N * N) (q : pkt) : Prop :=
  same_packet p q (sets T_NORMAL None) /\ k_trunc q = k_trunc p /\ do_get (k_regs q) CloneSession = Some 0 /\
  forall a, a <> CloneSession -> a <> CloneFieldList -> do_get (k_regs q) a = do_get (k_regs p) a.

Definition fate_ok (p0 p : pkt) (len : N) (fate : list eff) : Prop :=
  exists resub, do_get (k_regs p) Resubmit = Some resub /\
  if negb (resub =? 0) then exists l q, list_of p Resubmit l /\ resubmit_ok p0 p len l q /\ fate = [Reinsert q]
  else if e_has_mcast E && negb (field p mcast_grp mod 2 ^ 32 =? 0)
  then exists plen, do_get (k_regs p) PacketLength = Some plen /\ all_sent (replica_ok p plen) (group (field p mcast_grp mod 2 ^ 32)) fate
  else if field p egress_spec mod 2 ^ 32 =? e_drop E then fate = []
  else sent (unicast_ok p) (None, field p egress_spec mod 2 ^ 32) fate.

Definition digest_ok (p : pkt) (d : list eff) : Prop :=
  exists id, do_get (k_regs p) LfFieldList = Some id /\ if id =? 0 then d = [] else exists q, d = [Digest id q] /\ k_phv q = k_phv p /\ k_in q = k_in p.

(** After ingress *)
Definition ingress_spec (p0 p : pkt) (effs : list eff) : Prop :=
  exists len clones digest fate, do_get (k_regs p0) PacketLength = Some len /\ effs = clones ++ digest ++ fate /\
  match requested p with None => clones = [] | Some c => exists l, list_of p CloneFieldList l /\ all_sent (ingress_clone_ok p0 p len l) (targets c) clones end /\
  digest_ok p digest /\ fate_ok p0 p len fate.

(** Egress begins with the port, with an egress_spec that does not drop, and with the packet's length *)
Definition egress_ready (port : N) (p0 p1 : pkt) : Prop :=
  k_in p1 = k_in p0 /\ k_ilen p1 = k_ilen p0 /\ k_out p1 = k_out p0 /\ k_trunc p1 = k_trunc p0 /\ k_regs p1 = k_regs p0 /\ content p1 = content p0 /\ v_valid (k_phv p1) = v_valid (k_phv p0) /\
  (exists len, do_get (k_regs p0) PacketLength = Some len /\ field p1 packet_length = held_by packet_length len) /\
  field p1 egress_port = held_by egress_port port /\ (1 <= e_width E 0 3 -> e_drop E < 2 ^ 32 -> field p1 egress_spec mod 2 ^ 32 <> e_drop E) /\
  (forall f, f <> egress_port -> f <> egress_spec -> f <> packet_length -> field p1 f = field p0 f).
(** An egress clone has the headers the packet has at the end of egress *)
Definition egress_clone_ok (p : pkt) (l : list (nat * nat)) (t : option N * N) (q : pkt) : Prop :=
  k_in q = k_in p /\ k_ilen q = k_ilen p /\ k_trunc q = None /\ (exists len, do_get (k_regs p) PacketLength = Some len /\ unrequested q len) /\
  content q = content p /\ v_valid (k_phv q) = v_valid (k_phv p) /\
  (forall f, is_meta f = false -> v_valid (k_phv p) (fst f) = true -> field q f = field p f) /\
  metadata_kept l p q (sets T_EGRESS_CLONE (fst t)).
(** A recirculated packet is what the deparser made *)
Definition recirculate_ok (p : pkt) (l : list (nat * nat)) (q : pkt) : Prop :=
  let out := e_deparse E (k_phv p) (content p) in
  k_in q = k_in p /\ k_ilen q = N.of_nat (length out) /\ k_trunc q = None /\ unrequested q (N.of_nat (length out) mod 2 ^ 64) /\
  content q = out /\ v_valid (k_phv q) = v_valid (e_pool E) /\
  metadata_kept l p q (fun f => if fld_eqb f packet_length then Some (N.of_nat (length out)) else if fld_eqb f instance_type then Some T_RECIRC else None).
Definition egress_spec_ok (p : pkt) (effs : list eff) : Prop :=
  exists clones fate rec, effs = clones ++ fate /\
  match requested p with None => clones = [] | Some c => exists l, list_of p CloneFieldList l /\ all_sent (egress_clone_ok p l) (targets c) clones end /\
  do_get (k_regs p) Recirculate = Some rec /\
  if field p egress_spec mod 2 ^ 32 =? e_drop E then fate = []
  else if negb (rec =? 0) then exists l q, list_of p Recirculate l /\ recirculate_ok p l q /\ fate = [Reinsert q]
  else fate = [Transmit (k_out p) (match k_trunc p with None => e_deparse E (k_phv p) (content p) | Some t => firstn (N.to_nat t) (e_deparse E (k_phv p) (content p)) end)].

(** Conditions on the program and the configuration *)
Record sane (p0 : pkt) (p : pkt) : Prop := {
  sn_meta : e_meta E 0 = true /\ e_meta E 1 = true;
  sn_regs0 : length (k_regs p0) = 4%nat /\ Forall (fun v => v < 2 ^ 64) (k_regs p0);
  sn_regs : length (k_regs p) = 4%nat /\ Forall (fun v => v < 2 ^ 64) (k_regs p);
  sn_junk : length (e_junk E) = 4%nat /\ Forall (fun v => v < 2 ^ 64) (e_junk E);
  (* a session does not use both a multicast group and a port *)
  sn_session : forall c, requested p = Some c -> m_mgid_valid c = true -> m_port_valid c = true -> e_repl E (m_mgid c) = [] }.
End SPEC.
