(** Model of what psa_switch and pna_nic do with a packet: receive_, one iteration of ingress_thread and of egress_thread, multicast and enqueue
    (targets/psa_switch/psa_switch.cpp 184-211, 320-361, 363-508, 510-617), and one iteration of main_thread (targets/pna_nic/pna_nic.cpp 75-100, 160-199).

    The program is arbitrary: parsers, pipelines, deparsers, multicast groups and mirroring sessions are fields of [env].
    Simplifications.  A PHV is a validity per header, a value per field and a fill level per header stack (storage of values: C23; stacks: C26; copies of PHVs: C49).
    The mirroring sessions are the code of simple_switch again (C43_sessions); a clone_session_id fits an int.  SSWITCH_PRIORITY_QUEUEING_ON is not defined (with it enqueue does not compile: no phv).
    The queues and buffers are the subject of C15-C18.  An effect is a call to one of them. *)
From Coq Require Import List Arith NArith Bool.
Import ListNotations.
Local Open Scope N_scope.

Record vec := mk_v { v_valid : nat -> bool; v_f : nat -> nat -> N; v_next : nat -> nat }.
(** Packet (packet.h 344-390): ports, ingress length, buffer and how much of it was consumed, PHV, register 0, truncation, exit flag *)
Record pkt := mk_k { k_in : N; k_ilen : N; k_out : N; k_bytes : list N; k_off : nat; k_phv : vec; k_len : N; k_trunc : option N; k_exit : bool }.
(** psa_switch.h 63-68 *)
Record mcfg := mk_m { m_port : N; m_port_valid : bool; m_mgid : N; m_mgid_valid : bool }.
Inductive eff := Queue (port : N) (p : pkt) | Reinsert (p : pkt) | Transmit (port : N) (bytes : list N).

(** What a pipeline may change *)
Record after := mk_a { a_phv : vec; a_len : N; a_trunc : option N; a_exit : bool;
  a_sent : option N (* pna_nic: the port of the last send_to_port, pna_nic/primitives.cpp 63-68 *) }.
Record env := mk_env {
  e_width : nat -> nat -> N;
  e_meta : nat -> bool;
  e_sessions : N -> option mcfg;                     (* mirroring_get_session *)
  e_repl : N -> list (N * N);                        (* pre->replicate: rid and port *)
  e_parse : bool -> vec -> list N -> vec * nat * N;  (* ingress_parser (false), egress_parser (true): PHV, bytes consumed, error code *)
  e_pipe : bool -> pkt -> after;                     (* ingress (false), egress (true) *)
  e_deparse : bool -> vec -> list N -> vec * list N; (* ingress_deparser (false), egress_deparser (true): PHV, packet data *)
  e_pool : vec;                                      (* a PHV as the pool hands it out *)
  e_junk : N                                         (* register 0 of a new Packet: not initialised *)
}.

(** The required fields, 136-168: psa_ingress_parser_input_metadata 0, psa_ingress_input_metadata 1, psa_ingress_output_metadata 2,
    psa_egress_parser_input_metadata 3, psa_egress_input_metadata 4, psa_egress_output_metadata 5, psa_egress_deparser_input_metadata 6 *)
Definition ip_port : nat * nat := (0, 0)%nat.
Definition ip_path : nat * nat := (0, 1)%nat.
Definition ii_port : nat * nat := (1, 0)%nat.
Definition ii_path : nat * nat := (1, 1)%nat.
Definition ii_time : nat * nat := (1, 2)%nat.
Definition ii_err : nat * nat := (1, 3)%nat.
Definition io_cos : nat * nat := (2, 0)%nat.
Definition io_clone : nat * nat := (2, 1)%nat.
Definition io_session : nat * nat := (2, 2)%nat.
Definition io_drop : nat * nat := (2, 3)%nat.
Definition io_resubmit : nat * nat := (2, 4)%nat.
Definition io_group : nat * nat := (2, 5)%nat.
Definition io_port : nat * nat := (2, 6)%nat.
Definition ep_port : nat * nat := (3, 0)%nat.
Definition ep_path : nat * nat := (3, 1)%nat.
Definition ei_cos : nat * nat := (4, 0)%nat.
Definition ei_port : nat * nat := (4, 1)%nat.
Definition ei_path : nat * nat := (4, 2)%nat.
Definition ei_instance : nat * nat := (4, 3)%nat.
Definition ei_time : nat * nat := (4, 4)%nat.
Definition ei_err : nat * nat := (4, 5)%nat.
Definition eo_clone : nat * nat := (5, 0)%nat.
Definition eo_session : nat * nat := (5, 1)%nat.
Definition eo_drop : nat * nat := (5, 2)%nat.
Definition ed_port : nat * nat := (6, 0)%nat.
(** psa_switch.h 216-224, 211 *)
Definition NORMAL : N := 0.
Definition UNICAST : N := 1.
Definition MULTICAST : N := 2.
Definition CLONE_I2E : N := 3.
Definition CLONE_E2E : N := 4.
Definition RESUBMIT : N := 5.
Definition RECIRCULATE : N := 6.
Definition PORT_RECIRCULATE : N := 0xfffffffa.

Section MODEL.
Variable E : env.

Definition get_f (v : vec) (f : nat * nat) : N := v_f v (fst f) (snd f).
(** Data::get_uint, data.h 184-187 *)
Definition get_uint (v : vec) (f : nat * nat) : N := get_f v f mod 2 ^ 32.
(** Field::set *)
Definition set_f (v : vec) (f : nat * nat) (x : N) : vec :=
  mk_v (v_valid v) (fun h i => if Nat.eqb h (fst f) && Nat.eqb i (snd f) then x mod 2 ^ e_width E (fst f) (snd f) else v_f v h i) (v_next v).
(** PHV::reset, reset_header_stacks, reset_metadata, phv.cpp 32-56.  The values a VL header loses are not read before it is extracted again. *)
Definition reset (v : vec) : vec := mk_v (fun _ => false) (v_f v) (v_next v).
Definition reset_header_stacks (v : vec) : vec := mk_v (v_valid v) (v_f v) (fun _ => 0%nat).
Definition reset_metadata (v : vec) : vec := mk_v (v_valid v) (fun h i => if e_meta E h then 0 else v_f v h i) (v_next v).
(** PHV::copy_headers into a PHV from the pool, phv.cpp 70-90 *)
Definition copied_phv (src : vec) : vec :=
  mk_v (v_valid src) (fun h i => if v_valid src h || e_meta E h then v_f src h i else v_f (e_pool E) h i) (v_next src).

Definition data (p : pkt) : list N := skipn (k_off p) (k_bytes p).
Definition with_phv (p : pkt) (v : vec) : pkt := mk_k (k_in p) (k_ilen p) (k_out p) (k_bytes p) (k_off p) v (k_len p) (k_trunc p) (k_exit p).
Definition with_off (p : pkt) (n : nat) : pkt := mk_k (k_in p) (k_ilen p) (k_out p) (k_bytes p) n (k_phv p) (k_len p) (k_trunc p) (k_exit p).
Definition with_out (p : pkt) (o : N) : pkt := mk_k (k_in p) (k_ilen p) o (k_bytes p) (k_off p) (k_phv p) (k_len p) (k_trunc p) (k_exit p).
Definition with_len (p : pkt) (n : N) : pkt := mk_k (k_in p) (k_ilen p) (k_out p) (k_bytes p) (k_off p) (k_phv p) n (k_trunc p) (k_exit p).
Definition with_data (p : pkt) (d : list N) : pkt := mk_k (k_in p) (k_ilen p) (k_out p) d 0 (k_phv p) (k_len p) (k_trunc p) (k_exit p).
Definition setp (p : pkt) (f : nat * nat) (x : N) : pkt := with_phv p (set_f (k_phv p) f x).
(** clone_no_phv 180-200, clone_with_phv 138-150 of packet.cpp *)
Definition clone_no_phv (p : pkt) : pkt := mk_k (k_in p) (k_ilen p) 0 (data p) 0 (e_pool E) (e_junk E) None false.
Definition clone_with_phv (p : pkt) : pkt := with_phv (clone_no_phv p) (copied_phv (k_phv p)).

(** Parser::parse, parser.cpp 1122-1160, and the error code it leaves in the packet *)
Definition parse (b : bool) (p : pkt) : pkt * N :=
  let '(v, n, err) := e_parse E b (k_phv p) (data p) in (with_off (with_phv p v) (k_off p + n), err).
(** Pipeline::apply: nothing is run once the exit flag is set; then Packet::reset_exit *)
Definition apply (b : bool) (p : pkt) : pkt :=
  let p := if k_exit p then p
           else let a := e_pipe E b p in mk_k (k_in p) (k_ilen p) (k_out p) (k_bytes p) (k_off p) (a_phv a) (a_len a) (a_trunc a) (a_exit a) in
  mk_k (k_in p) (k_ilen p) (k_out p) (k_bytes p) (k_off p) (k_phv p) (k_len p) (k_trunc p) false.
(** Deparser::deparse, deparser.cpp 55-91 *)
Definition deparse (b : bool) (p : pkt) : pkt := let (v, d) := e_deparse E b (k_phv p) (data p) in with_data (with_phv p v) d.

(** receive_ 184-211; the packet id is that of C41 *)
Definition receive (port : N) (bytes : list N) : pkt :=
  let len := N.of_nat (length bytes) in
  let p := mk_k port len 0 bytes 0 (reset_metadata (e_pool E)) (e_junk E) None false in
  with_len (setp (setp p ip_path NORMAL) ip_port port) len.

(** enqueue 320-337 *)
Definition enqueue (port : N) (p : pkt) : list eff := [Queue port (with_out p port)].
(** multicast 339-361: the fields are written to the packet itself before each copy *)
Fixpoint replicate (p : pkt) (path cos : N) (l : list (N * N)) : pkt * list eff :=
  match l with
  | [] => (p, [])
  | (rid, port) :: r =>
      let p := setp (setp (setp p ei_cos cos) ei_instance rid) ep_path path in
      let rest := replicate p path cos r in
      (fst rest, enqueue port (with_len (clone_with_phv p) (k_len p)) ++ snd rest)
  end.
Definition multicast (p : pkt) (mgid path cos : N) : pkt * list eff := replicate p path cos (e_repl E mgid).
(** The copies a session asks for: 440-451, 575-586 *)
Definition send_clone (c : mcfg) (path : N) (q : pkt) : list eff :=
  let r := if m_mgid_valid c then multicast q (m_mgid c) path 0 else (q, []) in
  snd r ++ (if m_port_valid c then enqueue (m_port c) (fst r) else []).

(** ingress_thread up to ingress_mau->apply: 372-415 *)
Definition ingress_begin (now : N) (p0 : pkt) : pkt :=
  let p := setp p0 ii_time now in
  let (p, err) := parse false p in
  let p := setp p ii_port (get_f (k_phv p) ip_port) in
  let p := setp p ii_path (get_f (k_phv p) ip_path) in
  let p := setp p ii_err err in
  let p := setp p io_cos 0 in
  let p := setp p io_clone 0 in
  let p := setp p io_drop 1 in
  let p := setp p io_resubmit 0 in
  setp p io_group 0.
(** 422-459 *)
Definition ingress_clones (p0 p : pkt) : list eff :=
  if get_uint (k_phv p) io_clone =? 0 then []
  else match e_sessions E (get_f (k_phv p) io_session) with
       | None => []
       | Some c =>
           let q := with_len (clone_no_phv (with_off p (k_off p0))) (k_len p0) in
           let q := with_phv q (reset_metadata (k_phv q)) in
           send_clone c CLONE_I2E (setp q ep_path CLONE_I2E)
       end.
(** 461-507 *)
Definition ingress_fate (p0 p : pkt) : list eff :=
  let cos := get_uint (k_phv p) io_cos in
  if negb (get_uint (k_phv p) io_drop =? 0) then []
  else if negb (get_uint (k_phv p) io_resubmit =? 0) then
    let q := with_off p (k_off p0) in
    let q := with_phv q (reset_metadata (k_phv q)) in
    [Reinsert (setp q ip_path RESUBMIT)]
  else
    let p := deparse false p in
    let mgid := get_uint (k_phv p) io_group in
    if negb (mgid =? 0) then snd (multicast p mgid MULTICAST cos)
    else
      let p := setp (setp (setp p ei_instance 0) ei_cos cos) ep_path UNICAST in
      enqueue (get_uint (k_phv p) io_port) p.
Definition ingress_one (now : N) (p0 : pkt) : list eff :=
  let p := apply false (ingress_begin now p0) in ingress_clones p0 p ++ ingress_fate p0 p.

(** egress_thread up to egress_mau->apply: 525-550 *)
Definition egress_begin (now port : N) (p0 : pkt) : pkt :=
  let p := with_phv p0 (reset (k_phv p0)) in
  let p := setp p ep_port port in
  let p := setp p ei_time now in
  let (p, err) := parse true p in
  let p := setp p ei_port (get_f (k_phv p) ep_port) in
  let p := setp p ei_path (get_f (k_phv p) ep_path) in
  let p := setp p ei_err err in
  let p := setp p eo_clone 0 in
  setp p eo_drop 0.
(** 555-560 *)
Definition egress_end (p : pkt) : pkt := deparse true (setp p ed_port (get_f (k_phv p) ep_port)).
(** 562-592 *)
Definition egress_clones (p : pkt) : list eff :=
  if get_uint (k_phv p) eo_clone =? 0 then []
  else match e_sessions E (get_f (k_phv p) eo_session) with
       | None => []
       | Some c =>
           let q := clone_no_phv p in
           let q := with_phv q (reset_metadata (k_phv q)) in
           send_clone c CLONE_E2E (setp q ep_path CLONE_E2E)
       end.
(** get_data_size, packet.h 167-170, and what transmit_thread 299-313 sends *)
Definition sent_bytes (p : pkt) : list N := match k_trunc p with None => data p | Some t => firstn (N.to_nat t) (data p) end.
(** 594-616 *)
Definition egress_fate (port : N) (p : pkt) : list eff :=
  if negb (get_uint (k_phv p) eo_drop =? 0) then []
  else if port =? PORT_RECIRCULATE then
    let p := with_phv p (reset_metadata (reset_header_stacks (reset (k_phv p)))) in
    [Reinsert (setp (setp p ip_port PORT_RECIRCULATE) ip_path RECIRCULATE)]
  else [Transmit (k_out p) (sent_bytes p)].
Definition egress_one (now port : N) (p0 : pkt) : list eff :=
  let p := egress_end (apply true (egress_begin now port p0)) in egress_clones p ++ egress_fate port p.
End MODEL.

(** ** pna_nic: pna_main_parser_input_metadata 0 (recirculated, input_port), pna_main_input_metadata 1
    (recirculated, timestamp, parser_error, class_of_service, input_port); the main parser, control and deparser are [false] of [env] *)
Definition mp_recirculated : nat * nat := (0, 0)%nat.
Definition mp_port : nat * nat := (0, 1)%nat.
Definition mi_recirculated : nat * nat := (1, 0)%nat.
Definition mi_time : nat * nat := (1, 1)%nat.
Definition mi_err : nat * nat := (1, 2)%nat.
Definition mi_cos : nat * nat := (1, 3)%nat.
Definition mi_port : nat * nat := (1, 4)%nat.
Section PNA.
Variable E : env.
(** receive_ 75-100 *)
Definition pna_receive (port : N) (bytes : list N) : pkt :=
  let len := N.of_nat (length bytes) in
  let p := mk_k port len 0 bytes 0 (reset_metadata E (e_pool E)) (e_junk E) None false in
  with_len (setp E (setp E p mp_recirculated 0) mp_port port) len.
(** main_thread 160-199 *)
Definition main_begin (now : N) (p0 : pkt) : pkt :=
  let p := setp E p0 mi_time now in
  let (p, err) := parse E false p in
  let p := setp E p mi_recirculated (get_f (k_phv p) mp_recirculated) in
  let p := setp E p mi_err err in
  let p := setp E p mi_cos 0 in
  setp E p mi_port (get_f (k_phv p) mp_port).
Definition pna_apply (p : pkt) : pkt :=
  let q := apply E false p in
  if k_exit p then q else match a_sent (e_pipe E false p) with Some d => with_out q (d mod 2 ^ 32) | None => q end.
Definition main_one (now : N) (p0 : pkt) : list eff :=
  let p := deparse E false (pna_apply (main_begin now p0)) in [Transmit (k_out p) (sent_bytes p)].
End PNA.
