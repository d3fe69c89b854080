(** Model of what simple_switch does with a packet around ingress and egress: one iteration of ingress_thread and of egress_thread
    (targets/simple_switch/simple_switch.cpp 473-636, 639-764), enqueue 398-419, copy_field_list_and_set_type 422-433, multicast 454-470, the
    mirroring sessions 68-107, the clone, resubmit and recirculate primitives (primitives.cpp 265-318), and the clone_* functions of Packet (packet.cpp 138-200).

    The program is arbitrary: parser, ingress and egress pipelines, deparser, field lists, multicast groups and mirroring sessions are fields of [env].
    Simplifications.  A PHV is a validity per header and a value per field (storage of values: C23; stacks, unions: C26, C27; copies of PHVs: C49).
    Header 0 is standard_metadata and header 1 is intrinsic_metadata.  Timestamps and queueing metadata are not modelled (with_queueing_metadata is false).
    parser_error and checksum_error (499-507) belong to [e_ingress].  An effect is a call to a queue or to the learn engine; what the queues do is the subject of C17-C19 and C44.
    [None]: an exception (no such field list). *)
From Coq Require Import List Arith NArith ZArith Bool.
From Verif Require Import Base PhvModel AccessModel.
Import ListNotations.
Local Open Scope N_scope.

Record vec := mk_v { v_valid : nat -> bool; v_f : nat -> nat -> N }.
(** Packet (packet.h 350-390): ingress port, ingress length, egress port, buffer and how much of it was consumed, PHV, registers, truncated length *)
Record pkt := mk_k { k_in : N; k_ilen : N; k_out : N; k_bytes : list N; k_off : nat; k_phv : vec; k_regs : regs; k_trunc : option N }.
(** simple_switch.h 61-66 *)
Record mcfg := mk_m { m_port : N; m_port_valid : bool; m_mgid : N; m_mgid_valid : bool }.
Inductive eff := Queue (port prio : N) (p : pkt) | Digest (id : N) (p : pkt) | Reinsert (p : pkt) | Transmit (port : N) (bytes : list N).

Record env := mk_env {
  e_drop : N;                                   (* drop_port *)
  e_nq : N;                                     (* nb_queues_per_port *)
  e_meta : nat -> bool;                         (* is_metadata *)
  e_width : nat -> nat -> N;                    (* field widths *)
  e_has_mcast : bool; e_has_prio : bool;        (* phv->has_field(...) *)
  e_sessions : N -> option mcfg;                (* mirroring_get_session *)
  e_repl : N -> list (N * N);                   (* pre->replicate: rid and port *)
  e_fl : N -> option (list (nat * nat));        (* get_field_list *)
  e_parse : vec -> list N -> vec * nat;         (* PHV after parsing, bytes consumed *)
  e_ingress : pkt -> vec * regs * option N;     (* PHV, registers and truncation after the pipeline *)
  e_egress : pkt -> vec * regs * option N;
  e_deparse : vec -> list N -> list N;
  e_pool : vec;                                 (* a PHV as the pool hands it out *)
  e_junk : regs                                 (* registers of a new Packet: not initialised *)
}.

(** standard_metadata and intrinsic_metadata fields *)
Definition ingress_port : nat * nat := (0, 0)%nat.
Definition packet_length : nat * nat := (0, 1)%nat.
Definition instance_type : nat * nat := (0, 2)%nat.
Definition egress_spec : nat * nat := (0, 3)%nat.
Definition egress_port : nat * nat := (0, 4)%nat.
Definition mcast_grp : nat * nat := (1, 0)%nat.
Definition egress_rid : nat * nat := (1, 1)%nat.
Definition priority : nat * nat := (1, 2)%nat.
(** simple_switch.h 147-155 *)
Definition T_NORMAL : N := 0.
Definition T_INGRESS_CLONE : N := 1.
Definition T_EGRESS_CLONE : N := 2.
Definition T_RECIRC : N := 4.
Definition T_REPLICATION : N := 5.
Definition T_RESUBMIT : N := 6.

Section MODEL.
Variable E : env.

Definition get_f (v : vec) (f : nat * nat) : N := v_f v (fst f) (snd f).
(** Field assignment without a width check (copy of a value of the same field), and Field::set *)
Definition put_f (v : vec) (f : nat * nat) (x : N) : vec :=
  mk_v (v_valid v) (fun h i => if Nat.eqb h (fst f) && Nat.eqb i (snd f) then x else v_f v h i).
Definition set_f (v : vec) (f : nat * nat) (x : N) : vec := put_f v f (x mod 2 ^ e_width E (fst f) (snd f)).
(** PHV::reset_metadata, phv.cpp 50-56 *)
Definition reset_metadata (v : vec) : vec := mk_v (v_valid v) (fun h i => if e_meta E h then 0 else v_f v h i).
(** PHV::copy_headers into a PHV from the pool, phv.cpp 70-77 *)
Definition copied_phv (src : vec) : vec := mk_v (v_valid src) (fun h i => if v_valid src h || e_meta E h then v_f src h i else v_f (e_pool E) h i).
(** FieldList::copy_fields_between_phvs, field_lists.h 95-111 *)
Definition copy_fields (l : list (nat * nat)) (dst src : vec) : vec := fold_left (fun d f => put_f d f (get_f src f)) l dst.

Definition data (p : pkt) : list N := skipn (k_off p) (k_bytes p).
Definition with_phv (p : pkt) (v : vec) : pkt := mk_k (k_in p) (k_ilen p) (k_out p) (k_bytes p) (k_off p) v (k_regs p) (k_trunc p).
Definition with_regs (p : pkt) (r : regs) : pkt := mk_k (k_in p) (k_ilen p) (k_out p) (k_bytes p) (k_off p) (k_phv p) r (k_trunc p).
Definition with_off (p : pkt) (n : nat) : pkt := mk_k (k_in p) (k_ilen p) (k_out p) (k_bytes p) n (k_phv p) (k_regs p) (k_trunc p).
Definition with_out (p : pkt) (o : N) : pkt := mk_k (k_in p) (k_ilen p) o (k_bytes p) (k_off p) (k_phv p) (k_regs p) (k_trunc p).
(** clone_no_phv 180-200, clone_with_phv 138-150, clone_with_phv_reset_metadata 158-169 *)
Definition clone_no_phv (p : pkt) : pkt := mk_k (k_in p) (k_ilen p) 0 (data p) 0 (e_pool E) (e_junk E) None.
Definition clone_with_phv (p : pkt) : pkt := with_phv (clone_no_phv p) (copied_phv (k_phv p)).
Definition clone_reset_metadata (p : pkt) : pkt := with_phv (clone_no_phv p) (reset_metadata (copied_phv (k_phv p))).

(** enqueue 398-419 *)
Definition prio_of (v : vec) : N := if e_has_prio E then get_f v priority mod 2 ^ 64 else 0.
Definition enqueue (port : N) (p : pkt) : list eff :=
  let p := with_out p port in
  if e_nq E <=? prio_of (k_phv p) then [] else [Queue port (prio_of (k_phv p)) p].
(** clear_all then the length: 465-467, 553-555, 604-606, 710-712, 750-752 *)
Definition renew (p : pkt) (len : N) : option pkt := r <- clear_all (k_regs p) ;; r' <- do_set r PacketLength len ;; Some (with_regs p r').
(** multicast 454-470; the rid is written to the packet itself before each copy *)
Fixpoint replicate (p : pkt) (len : N) (l : list (N * N)) : option (pkt * list eff) :=
  match l with
  | [] => Some (p, [])
  | (rid, port) :: r =>
      let p := with_phv p (set_f (k_phv p) egress_rid rid) in
      q <- renew (clone_with_phv p) len ;;
      rest <- replicate p len r ;;
      Some (fst rest, enqueue port q ++ snd rest)
  end.
Definition multicast (p : pkt) (mgid : N) : option (pkt * list eff) := len <- do_get (k_regs p) PacketLength ;; replicate p len (e_repl E mgid).
(** the clone sent where the session says: 571-579, 713-721 *)
Definition send_clone (c : mcfg) (q : pkt) : option (list eff) :=
  r <- (if m_mgid_valid c then multicast q (m_mgid c) else Some (q, [])) ;;
  Some (snd r ++ (if m_port_valid c then enqueue (m_port c) (fst r) else [])).
(** the session named by the register: MIRROR_SESSION_ID_MASK, register_access.h 40 *)
Definition session_of (r : regs) : option (option mcfg) :=
  v <- do_get r CloneSession ;; Some (if v =? 0 then None else e_sessions E (N.land v 0x7FFF)).
(** 539-540, 691-692 *)
Definition clear_clone (r : regs) : option regs := r1 <- do_set r CloneSession 0 ;; do_set r1 CloneFieldList 0.

(** ingress_thread: parse and run the pipeline 488-514 *)
Definition ingress_done (p0 : pkt) : pkt :=
  let (v1, n) := e_parse E (k_phv p0) (data p0) in
  let p1 := with_off (with_phv p0 v1) (k_off p0 + n) in
  let '(v2, r2, t2) := e_ingress E p1 in
  mk_k (k_in p1) (k_ilen p1) (k_out p1) (k_bytes p1) (k_off p1) v2 r2 t2.
(** 536-582 *)
Definition ingress_clone (p0 p : pkt) (c : mcfg) (fl len : N) : option (list eff) :=
  q <- renew (clone_no_phv (with_off p (k_off p0))) len ;;
  let (v1, n) := e_parse E (set_f (k_phv q) ingress_port (k_in p)) (data q) in
  l <- e_fl E fl ;;
  let v := copy_fields l (reset_metadata v1) (k_phv p) in
  send_clone c (with_off (with_phv q (set_f v instance_type T_INGRESS_CLONE)) n).
(** 589-611 *)
Definition resubmitted (p0 p : pkt) (fl len : N) : option pkt :=
  let q := clone_no_phv (with_off p (k_off p0)) in
  l <- e_fl E fl ;;
  let v := set_f (copy_fields l (reset_metadata (k_phv q)) (k_phv p)) instance_type T_RESUBMIT in
  q <- renew (with_phv q v) len ;;
  Some (with_phv q (set_f (k_phv q) packet_length len)).
Definition ingress_one (p0 : pkt) : option (list eff) :=
  len <- do_get (k_regs p0) PacketLength ;;
  let p := ingress_done p0 in
  ses <- session_of (k_regs p) ;;
  fl <- do_get (k_regs p) CloneFieldList ;;
  learn <- do_get (k_regs p) LfFieldList ;;
  v <- do_get (k_regs p) CloneSession ;;
  let mgid := if e_has_mcast E then get_f (k_phv p) mcast_grp mod 2 ^ 32 else 0 in
  let spec := get_f (k_phv p) egress_spec mod 2 ^ 32 in
  r <- (if v =? 0 then Some (k_regs p) else clear_clone (k_regs p)) ;;
  let p := with_regs p r in
  clones <- match ses with None => Some [] | Some c => ingress_clone p0 p c fl len end ;;
  let digest := if 0 <? learn then [Digest learn p] else [] in
  resub <- do_get (k_regs p) Resubmit ;;
  fate <- (if negb (resub =? 0) then q <- resubmitted p0 p resub len ;; Some [Reinsert q]
           else if negb (mgid =? 0) then r <- multicast (with_phv p (set_f (k_phv p) instance_type T_REPLICATION)) mgid ;; Some (snd r)
           else if spec =? e_drop E then Some []
           else Some (enqueue spec (with_phv p (set_f (k_phv p) instance_type T_NORMAL)))) ;;
  Some (clones ++ digest ++ fate).

(** egress_thread 675-684 *)
Definition egress_begin (port : N) (p0 : pkt) : option pkt :=
  len <- do_get (k_regs p0) PacketLength ;;
  Some (with_phv p0 (set_f (set_f (set_f (k_phv p0) egress_port port) egress_spec ((e_drop E + 1) mod 2 ^ 32)) packet_length len)).
Definition egress_done (p1 : pkt) : pkt :=
  let '(v, r, t) := e_egress E p1 in mk_k (k_in p1) (k_ilen p1) (k_out p1) (k_bytes p1) (k_off p1) v r t.
(** 689-723 *)
Definition egress_clone (p : pkt) (c : mcfg) (fl : N) : option (list eff) :=
  let q := clone_reset_metadata p in
  l <- e_fl E fl ;;
  let q := with_phv q (set_f (copy_fields l (k_phv q) (k_phv p)) instance_type T_EGRESS_CLONE) in
  len <- do_get (k_regs p) PacketLength ;;
  q <- renew q len ;;
  send_clone c q.
(** 736-762 *)
Definition recirculated (p : pkt) (fl : N) : option pkt :=
  l <- e_fl E fl ;;
  let q := clone_no_phv p in
  let q := with_phv q (set_f (copy_fields l (reset_metadata (k_phv q)) (k_phv p)) instance_type T_RECIRC) in
  let len := N.of_nat (length (data q)) in
  q <- renew q len ;;
  Some (mk_k (k_in q) len (k_out q) (k_bytes q) (k_off q) (set_f (k_phv q) packet_length len) (k_regs q) (k_trunc q)).
(** get_data_size, packet.h 167-170, and what transmit_thread 379-392 sends *)
Definition sent_bytes (p : pkt) : list N := match k_trunc p with None => data p | Some t => firstn (N.to_nat t) (data p) end.
Definition egress_one (port : N) (p0 : pkt) : option (list eff) :=
  p1 <- egress_begin port p0 ;;
  let p := egress_done p1 in
  ses <- session_of (k_regs p) ;;
  fl <- do_get (k_regs p) CloneFieldList ;;
  v <- do_get (k_regs p) CloneSession ;;
  r <- (if v =? 0 then Some (k_regs p) else clear_clone (k_regs p)) ;;
  let p := with_regs p r in
  clones <- match ses with None => Some [] | Some c => egress_clone p c fl end ;;
  if get_f (k_phv p) egress_spec mod 2 ^ 32 =? e_drop E then Some clones
  else
    let p := mk_k (k_in p) (k_ilen p) (k_out p) (e_deparse E (k_phv p) (data p)) 0 (k_phv p) (k_regs p) (k_trunc p) in
    rec <- do_get (k_regs p) Recirculate ;;
    if negb (rec =? 0) then r <- do_set (k_regs p) Recirculate 0 ;; q <- recirculated (with_regs p r) rec ;; Some (clones ++ [Reinsert q])
    else Some (clones ++ [Transmit (k_out p) (sent_bytes p)]).
End MODEL.

(** The primitives, primitives.cpp 265-318; MIRROR_SESSION_ID_VALID_MASK is 2^15 *)
Definition prim_clone (r : regs) (session fl : N) : option regs := r1 <- do_set r CloneSession (N.lor (u16 session) 0x8000) ;; do_set r1 CloneFieldList fl.
Definition prim_resubmit (r : regs) (fl : N) : option regs := do_set r Resubmit fl.
Definition prim_recirculate (r : regs) (fl : N) : option regs := do_set r Recirculate fl.
(** Mirroring sessions 68-107; ids are ints; the map is an association list *)
Definition sessions := list (Z * mcfg).
Inductive sop := SAdd (id : Z) (c : mcfg) | SDel (id : Z) | SGet (id : Z).
Inductive sout := SBool (b : bool) | SCfg (c : option mcfg).
Definition s_erase (m : sessions) (id : Z) : sessions := filter (fun x => negb (Z.eqb (fst x) id)) m.
Definition s_find (m : sessions) (id : Z) : option mcfg := option_map snd (find (fun x => Z.eqb (fst x) id) m).
Definition s_step (m : sessions) (o : sop) : sessions * sout :=
  match o with
  | SAdd id c => if (0 <=? id)%Z && (id <=? 32767)%Z then ((id, c) :: s_erase m id, SBool true) else (m, SBool false)
  | SDel id => if (0 <=? id)%Z && (id <=? 32767)%Z then (s_erase m id, SBool (match s_find m id with Some _ => true | None => false end)) else (m, SBool false)
  | SGet id => (m, SCfg (s_find m id))
  end.
Fixpoint s_run (m : sessions) (l : list sop) : sessions * list sout :=
  match l with [] => (m, []) | o :: r => let (m1, x) := s_step m o in let (m2, xs) := s_run m1 r in (m2, x :: xs) end.
