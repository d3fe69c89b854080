(** What the PSA specification (chapter 6, packet paths) says about packets, and its PNA counterpart. *)
From Coq Require Import List Arith NArith Bool.
From Verif Require Import PsaModel.
Import ListNotations.
Local Open Scope N_scope.

Section SPEC.
Variable E : env.

Definition field (p : pkt) (f : nat * nat) : N := v_f (k_phv p) (fst f) (snd f).
Definition held_by (f : nat * nat) (x : N) : N := x mod 2 ^ e_width E (fst f) (snd f).
Definition is_meta (f : nat * nat) : bool := e_meta E (fst f).
(** What is left of the packet to be parsed, or its payload once it was parsed *)
Definition content (p : pkt) : list N := skipn (k_off p) (k_bytes p).
Definition fld_eqb (a b : nat * nat) : bool := Nat.eqb (fst a) (fst b) && Nat.eqb (snd a) (snd b).
(** The value [l] gives to a field *)
Fixpoint given (l : list ((nat * nat) * N)) (f : nat * nat) : option N :=
  match l with [] => None | (g, x) :: r => if fld_eqb f g then Some x else given r f end.
(** Metadata: what [l] says, zero otherwise *)
Definition only_metadata (q : pkt) (l : list ((nat * nat) * N)) : Prop :=
  forall f, is_meta f = true -> field q f = match given l f with Some x => held_by f x | None => 0 end.
(** All fields: what [l] says, the value in [v] otherwise *)
Definition fields_of (q : pkt) (v : nat * nat -> N) (l : list ((nat * nat) * N)) : Prop :=
  forall f, field q f = match given l f with Some x => held_by f x | None => v f end.
(** Set to be parsed: no header is valid and all stacks are empty *)
Definition unparsed (q : pkt) : Prop := (forall h, v_valid (k_phv q) h = false) /\ (forall s, v_next (k_phv q) s = 0%nat).
(** Same origin *)
Definition from (p q : pkt) : Prop := k_in q = k_in p /\ k_ilen q = k_ilen p.

(** A new packet *)
Definition received_ok (port : N) (bytes : list N) (q : pkt) : Prop :=
  k_in q = port /\ k_ilen q = N.of_nat (length bytes) /\ k_len q = N.of_nat (length bytes) /\ content q = bytes /\ unparsed q /\ k_trunc q = None /\ k_exit q = false /\
  only_metadata q [(ip_path, NORMAL); (ip_port, port)].

(** Ingress begins: the packet has been parsed, ingress sees where it comes from, on which path and what the parser reported, and unless the program says otherwise it is dropped *)
Definition ingress_ready (now : N) (p0 p1 : pkt) : Prop :=
  exists v0 v n err, e_parse E false v0 (content p0) = (v, n, err) /\
    (forall f, v_f v0 (fst f) (snd f) = if fld_eqb f ii_time then held_by ii_time now else field p0 f) /\ v_valid v0 = v_valid (k_phv p0) /\ v_next v0 = v_next (k_phv p0) /\
    content p1 = skipn n (content p0) /\ from p0 p1 /\ k_len p1 = k_len p0 /\ k_trunc p1 = k_trunc p0 /\ k_out p1 = k_out p0 /\
    v_valid (k_phv p1) = v_valid v /\ v_next (k_phv p1) = v_next v /\
    fields_of p1 (fun f => v_f v (fst f) (snd f))
      [(ii_port, v_f v 0 0); (ii_path, v_f v 0 1); (ii_err, err); (io_cos, 0); (io_clone, 0); (io_drop, 1); (io_resubmit, 0); (io_group, 0)].

(** Copies sent to ports; [fst t]: the rid of a replica *)
Definition sent (ok : option N * N -> pkt -> Prop) (t : option N * N) (e : eff) : Prop :=
  exists q, ok t q /\ k_out q = snd t /\ k_exit q = false /\ e = Queue (snd t) q.
Definition group (mgid : N) : list (option N * N) := map (fun x => (Some (fst x), snd x)) (e_repl E mgid).
Definition targets (c : mcfg) : list (option N * N) := (if m_mgid_valid c then group (m_mgid c) else []) ++ (if m_port_valid c then [(None, m_port c)] else []).
Definition flag (p : pkt) (f : nat * nat) : bool := negb (field p f mod 2 ^ 32 =? 0).
Definition session (p : pkt) (wanted id : nat * nat) : option mcfg := if flag p wanted then e_sessions E (field p id) else None.

(** A clone is a packet that has not been parsed, with no metadata but its path (and instance) *)
Definition clone_ok (path : N) (p : pkt) (bytes : list N) (t : option N * N) (q : pkt) : Prop :=
  from p q /\ content q = bytes /\ unparsed q /\ k_trunc q = None /\
  only_metadata q ((ep_path, path) :: match fst t with Some rid => [(ei_instance, rid); (ei_cos, 0)] | None => [] end).

(** The packet at the end of ingress, deparsed *)
Definition out_of (b : bool) (p : pkt) : list N := snd (e_deparse E b (k_phv p) (content p)).
Definition phv_of (b : bool) (p : pkt) (f : nat * nat) : N := v_f (fst (e_deparse E b (k_phv p) (content p))) (fst f) (snd f).
Definition unicast_ok (p : pkt) (t : option N * N) (q : pkt) : Prop :=
  from p q /\ content q = out_of false p /\ k_trunc q = k_trunc p /\ k_len q = k_len p /\
  fields_of q (phv_of false p) [(ep_path, UNICAST); (ei_instance, 0); (ei_cos, field p io_cos mod 2 ^ 32)].
Definition replica_ok (p : pkt) (t : option N * N) (q : pkt) : Prop :=
  from p q /\ content q = out_of false p /\ k_trunc q = None /\ k_len q = k_len p /\
  forall f, is_meta f = true -> field q f =
    match given (match fst t with Some rid => [(ep_path, MULTICAST); (ei_instance, rid); (ei_cos, field p io_cos mod 2 ^ 32)] | None => [] end) f with
    | Some x => held_by f x | None => phv_of false p f end.
(** A resubmitted packet has the bytes it came with.  [full]: it is to be parsed afresh, with its ingress port and length *)
Definition resubmit_ok (full : bool) (p0 p q : pkt) : Prop :=
  from p0 q /\ content q = content p0 /\ k_exit q = false /\ k_trunc q = k_trunc p /\
  (if full then unparsed q /\ k_len q = k_len p0 /\ only_metadata q [(ip_path, RESUBMIT); (ip_port, field p0 ip_port)]
   else v_valid (k_phv q) = v_valid (k_phv p) /\ v_next (k_phv q) = v_next (k_phv p) /\ k_len q = k_len p /\ only_metadata q [(ip_path, RESUBMIT)]).

(** After ingress: clones first; then exactly one of drop, resubmit, multicast and unicast *)
Definition ingress_spec (full : bool) (p0 p : pkt) (effs : list eff) : Prop :=
  exists clones fate, effs = clones ++ fate /\
  match session p io_clone io_session with
  | None => clones = []
  | Some c => Forall2 (sent (fun t q => clone_ok CLONE_I2E p0 (content p0) t q /\ k_len q = k_len p0)) (targets c) clones
  end /\
  if flag p io_drop then fate = []
  else if flag p io_resubmit then exists q, resubmit_ok full p0 p q /\ fate = [Reinsert q]
  else
    let mgid := phv_of false p io_group mod 2 ^ 32 in
    if negb (mgid =? 0) then Forall2 (sent (replica_ok p)) (group mgid) fate
    else Forall2 (sent (unicast_ok p)) [(None, phv_of false p io_port mod 2 ^ 32)] fate.

(** Egress begins: no header is valid when the packet is parsed.  [full]: nor is anything in a header stack *)
Definition egress_ready (full : bool) (now port : N) (p0 p1 : pkt) : Prop :=
  exists v0 v n err, e_parse E true v0 (content p0) = (v, n, err) /\
    (forall f, v_f v0 (fst f) (snd f) = match given [(ep_port, port); (ei_time, now)] f with Some x => held_by f x | None => field p0 f end) /\
    (forall h, v_valid v0 h = false) /\ (full = true -> forall s, v_next v0 s = 0%nat) /\
    content p1 = skipn n (content p0) /\ from p0 p1 /\ k_len p1 = k_len p0 /\ k_trunc p1 = k_trunc p0 /\ k_out p1 = k_out p0 /\
    v_valid (k_phv p1) = v_valid v /\ v_next (k_phv p1) = v_next v /\
    fields_of p1 (fun f => v_f v (fst f) (snd f)) [(ei_port, v_f v 3 0); (ei_path, v_f v 3 1); (ei_err, err); (eo_clone, 0); (eo_drop, 0)].
(** The deparser is told the port *)
Definition egress_out (p : pkt) (d : vec * list N) : Prop :=
  exists w, d = e_deparse E true w (content p) /\ v_valid w = v_valid (k_phv p) /\ v_next w = v_next (k_phv p) /\
    forall f, v_f w (fst f) (snd f) = if fld_eqb f ed_port then held_by ed_port (field p ep_port) else field p f.
Definition recirculate_ok (p : pkt) (bytes : list N) (q : pkt) : Prop :=
  from p q /\ content q = bytes /\ unparsed q /\ k_exit q = false /\ k_trunc q = k_trunc p /\
  only_metadata q [(ip_path, RECIRCULATE); (ip_port, PORT_RECIRCULATE)].
(** After egress: clones of the packet as it leaves; then exactly one of drop, recirculate and transmit *)
Definition egress_spec (port : N) (p : pkt) (effs : list eff) : Prop :=
  exists v bytes clones fate, egress_out p (v, bytes) /\ effs = clones ++ fate /\
  let wants f := negb (v_f v (fst f) (snd f) mod 2 ^ 32 =? 0) in
  match (if wants eo_clone then e_sessions E (v_f v (fst eo_session) (snd eo_session)) else None) with
  | None => clones = []
  | Some c => Forall2 (sent (clone_ok CLONE_E2E p bytes)) (targets c) clones
  end /\
  if wants eo_drop then fate = []
  else if port =? PORT_RECIRCULATE then exists q, recirculate_ok p bytes q /\ fate = [Reinsert q]
  else fate = [Transmit (k_out p) (match k_trunc p with None => bytes | Some t => firstn (N.to_nat t) bytes end)].

(** A pipeline has run: it may change the PHV, the length and the truncation, nothing else *)
Definition piped (b : bool) (p1 p : pkt) : Prop :=
  let a := e_pipe E b p1 in k_phv p = a_phv a /\ k_len p = a_len a /\ k_trunc p = a_trunc a /\ k_exit p = false /\ content p = content p1 /\ from p1 p /\ k_out p = k_out p1.

(** Conditions on the program and the configuration *)
Record sane : Prop := {
  sn_meta : forall h, (h <= 6)%nat -> e_meta E h = true;
  (* PHVs in the pool were reset: ~Packet, packet.cpp 96-110 *)
  sn_pool : (forall h, v_valid (e_pool E) h = false) /\ (forall s, v_next (e_pool E) s = 0%nat) }.
(* a session does not use both a multicast group and a port *)
Definition one_kind (c : mcfg) : Prop := m_mgid_valid c = true -> m_port_valid c = true -> e_repl E (m_mgid c) = [].

(** ** pna_nic *)
Definition pna_received_ok (port : N) (bytes : list N) (q : pkt) : Prop :=
  k_in q = port /\ k_ilen q = N.of_nat (length bytes) /\ k_len q = N.of_nat (length bytes) /\ content q = bytes /\ unparsed q /\ k_trunc q = None /\ k_exit q = false /\
  only_metadata q [(mp_port, port)].
Definition main_ready (now : N) (p0 p1 : pkt) : Prop :=
  exists v0 v n err, e_parse E false v0 (content p0) = (v, n, err) /\
    (forall f, v_f v0 (fst f) (snd f) = if fld_eqb f mi_time then held_by mi_time now else field p0 f) /\ v_valid v0 = v_valid (k_phv p0) /\ v_next v0 = v_next (k_phv p0) /\
    content p1 = skipn n (content p0) /\ from p0 p1 /\ k_len p1 = k_len p0 /\ k_out p1 = k_out p0 /\ v_valid (k_phv p1) = v_valid v /\ v_next (k_phv p1) = v_next v /\
    fields_of p1 (fun f => v_f v (fst f) (snd f)) [(mi_recirculated, v_f v 0 0); (mi_err, err); (mi_cos, 0); (mi_port, v_f v 0 1)].
(** One packet in, one packet out, to the port it was sent to by the program *)
Definition main_spec (p1 : pkt) (effs : list eff) : Prop :=
  let a := e_pipe E false p1 in
  let bytes := snd (e_deparse E false (a_phv a) (content p1)) in
  exists port, effs = [Transmit port (match a_trunc a with None => bytes | Some t => firstn (N.to_nat t) bytes end)] /\
    (forall d, a_sent a = Some d -> port = d mod 2 ^ 32) /\ (a_sent a = None -> port = k_out p1).
End SPEC.
