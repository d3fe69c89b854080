(** Model of the properties and direct resources of table entries in the PI layer: time to live
    (set_ttl, _pi_table_entry_get_remaining_ttl), direct counters and direct meters
    (PI/src/pi_tables_imp.cpp, pi_counter_imp.cpp, pi_meter_imp.cpp, direct_res_spec.cpp).
    The match unit is that of MatchUnitModel.v and the meters are those of MeterModel.v.
    Simplifications: keys are bmv2's internal keys and action entries are abstract values (the
    encoding of the former is in PiTblModel.v); a rate (double in the code) is an element of an
    abstract type, with the conversions of direct_res_spec.cpp as parameters; a packet does not
    execute the entry's meter (see MeterModel.v: this changes no rate); the calls run one at a
    time, except in the last section; the clock does not run backwards.  A failed assertion or an index out of range is
    [None]. *)
From Coq Require Import List Arith NArith ZArith Bool.
From Verif Require Import Base EntryListModel MatchUnitModel MeterModel.
Import ListNotations.

(** pi_meter_spec_t: cir, cburst, pir, pburst (64, 32, 64 and 32 bits) *)
Record mspec := mkMS { ms_cir : N; ms_cb : N; ms_pir : N; ms_pb : N }.
Definition max64 : N := (2 ^ 64 - 1)%N.
Definition max32 : N := (2 ^ 32 - 1)%N.

(** pi_direct_res_config_one_t: a counter, with the units that are valid, or a meter *)
Inductive rcfg := RCounter (bytes pkts : option N) | RMeter (s : mspec).

(** Errors: those of the match unit (and ERROR), the switched-off features, and
    NOT_IMPLEMENTED_BY_TARGET *)
Inductive rerr := EUnit (c : mcode) | EError | ENoCounters | ENoMeters | ENoAgeing | ENotImpl.

Section Res.
Context {V RT : Type}.
(** [static_cast<double>(r) / 1000000.], [static_cast<uint64_t>(info_rate * 1000000.)], and [>] on
    doubles *)
Variables (conv : N -> RT) (back : option RT -> N) (gt : RT -> RT -> bool).
Variables (kd : mkind) (nbytes : nat).
Variables (with_counters with_meters with_ageing : bool).

(** The table with its array of direct meters *)
Record rst := mkRS { r_u : munit V; r_m : list (@meter RT) }.
(** The meter array has one meter for each entry, each with two rates *)
Definition r_new (size : nat) (cache mbytes : bool) : rst :=
  mkRS (mu_new kd size cache) (repeat (mt_new mbytes 2) size).

(** pi_entry_handle_t is 64 bits, bmv2's entry_handle_t is 32 *)
Definition r_h32 (h : N) : N := (h mod 2 ^ 32)%N.
(** get_default_handle, common.h:83-85 *)
Definition default_handle : N := max64.

(** A call that answers with an error code *)
Definition r_code (s : rst) (r : option (munit V * mout V)) : option (rst * option rerr) :=
  match r with
  | Some (u, MCode MSuccess) => Some (mkRS u (r_m s), None)
  | Some (u, MCode c) => Some (mkRS u (r_m s), Some (EUnit c))
  | _ => None
  end.

(** set_ttl 141-152 (set_indirect_ttl is the same) and MatchTableAbstract::set_entry_ttl
    (match_tables.cpp:290-295) *)
Definition r_set_ttl (s : rst) (h : N) (t : option (N * N)) : option (rst * option rerr) :=
  match t with
  | None => Some (s, None)
  | Some (now, ns) =>
      if negb with_ageing then Some (s, Some ENoAgeing)
      else r_code s (mu_step kd nbytes (r_u s) (MTtl now (r_h32 h) ((ns / 1000000) mod 2 ^ 32)))
  end.

(** mt_write_counters, mt_read_counters (match_tables.cpp:222-254) *)
Definition r_write (s : rst) (h b p : N) : option (rst * option rerr) :=
  if negb with_counters then Some (s, Some ENoCounters)
  else r_code s (mu_step kd nbytes (r_u s) (MWrite (r_h32 h) b p)).
Definition r_read (s : rst) (h : N) : option (rst * (rerr + N * N)) :=
  if negb with_counters then Some (s, inl ENoCounters)
  else match mu_step kd nbytes (r_u s) (MQuery (r_h32 h)) with
       | Some (u, MCnt b p) => Some (mkRS u (r_m s), inr (b, p))
       | Some (u, MCode c) => Some (mkRS u (r_m s), inl (EUnit c))
       | _ => None
       end.

(** is_valid_handle, then get_meter, which looks at the low bits of the handle only
    (match_tables.cpp:256-288, match_units.cpp:702-704) *)
Definition r_on_meter {A} (s : rst) (h : N) (err : rerr -> A) (f : @meter RT -> @meter RT * A)
  : option (rst * A) :=
  if negb with_meters then Some (s, err ENoMeters)
  else match mu_step kd nbytes (r_u s) (MValid (r_h32 h)) with
       | Some (u, MBool false) => Some (mkRS u (r_m s), err (EUnit MInvalid))
       | Some (u, MBool true) =>
           let i := handle_internal (r_h32 h) in
           match nth_error (r_m s) i with
           | Some m => Some (mkRS u (list_set (r_m s) i (fst (f m))), snd (f m))
           | None => None
           end
       | _ => None
       end.

(** convert_from_meter_spec 39-73 *)
Definition is_default (m : mspec) : bool :=
  (ms_cir m =? max64)%N && (ms_cb m =? max32)%N && (ms_pir m =? max64)%N && (ms_pb m =? max32)%N.
Definition from_spec (m : mspec) : list (RT * N) :=
  if is_default m then [] else [(conv (ms_cir m), ms_cb m); (conv (ms_pir m), ms_pb m)].
(** convert_to_meter_spec 75-106; [rates.at] throws on a short list *)
Definition to_spec (l : list (option RT * N)) : option mspec :=
  match l with
  | [] => Some (mkMS max64 max32 max64 max32)
  | (r0, b0) :: (r1, b1) :: _ => Some (mkMS (back r0) (b0 mod 2 ^ 32) (back r1) (b1 mod 2 ^ 32))
  | _ => None
  end.

(** mt_set_meter_rates or mt_reset_meter_rates, pi_meter_imp.cpp:131-138, pi_tables_imp.cpp:684-697 *)
Definition r_set_meter (s : rst) (h : N) (m : mspec) : option (rst * option rerr) :=
  match from_spec m with
  | [] => r_on_meter s h Some (fun x => (mt_reset x, None))
  | rates => r_on_meter s h Some
      (fun x => let '(x', c) := mt_set_rates gt x rates in
                (x', match c with MtOk => None | _ => Some EError end))
  end.
Definition r_get_meter (s : rst) (h : N) : option (rst * (rerr + mspec)) :=
  match r_on_meter s h (fun e => inl e) (fun x => (x, inr (mt_get_rates x))) with
  | Some (s', inl e) => Some (s', inl e)
  | Some (s', inr l) => match to_spec l with Some m => Some (s', inr m) | None => None end
  | None => None
  end.

(** convert_from_counter_data 19-29: 0 for a unit that is not valid *)
Definition or_zero (x : option N) : N := match x with Some v => v | None => 0%N end.

(** set_direct_resources 663-704 *)
Definition r_one (s : rst) (h : N) (c : rcfg) : option (rst * option rerr) :=
  match c with
  | RCounter b p => r_write s h (or_zero b) (or_zero p)
  | RMeter m => r_set_meter s h m
  end.
Fixpoint r_cfgs (s : rst) (h : N) (l : list rcfg) : option (rst * option rerr) :=
  match l with
  | [] => Some (s, None)
  | c :: r => match r_one s h c with
              | Some (s', None) => r_cfgs s' h r
              | other => other
              end
  end.
(** The end of _pi_table_entry_add and _pi_table_entry_modify: time to live, then resources *)
Definition r_finish (s : rst) (h : N) (t : option (N * N)) (l : list rcfg) : option (rst * option rerr) :=
  match r_set_ttl s h t with
  | Some (s', None) => r_cfgs s' h l
  | other => other
  end.

(** are_both_values_set and merge_current_value, pi_counter_imp.cpp:27-46 *)
Definition merged (x : option N) (cur : N) : N := match x with Some v => v | None => cur end.

(** _pi_table_entry_get_remaining_ttl 1080-1107 with set_entry_common_info
    (match_tables.cpp:328-341): all in 32-bit arithmetic *)
Definition remaining (timeout idle : N) : N :=
  if (timeout =? 0)%N then max64
  else if (idle <? timeout)%N then (((timeout - idle) * 1000) mod 2 ^ 32 * 1000) mod 2 ^ 32
  else 0%N.

(** A time to live is given as the clock when it is set and a number of nanoseconds *)
Inductive rop :=
| RAdd (now : N) (k : mkey) (v : V) (t : option (N * N)) (l : list rcfg)
| RMod (h : N) (v : V) (t : option (N * N)) (l : list rcfg)
| RDel (h : N)
| RPacket (ts len : N) (key : list N)
| RReadC (h : N)
| RWriteC (h : N) (bytes pkts : option N)
| RReadM (h : N)
| RSetM (h : N) (m : mspec)
| RTtl (now : N) (h : N).

Inductive rout :=
| RHandle (h : N) | ROk | RErr (e : rerr)
| RCnt (bytes pkts : N) | RSpec (m : mspec) | RLeft (ns : N)
| RMiss | RHit (h : N) (v : V).

Definition r_done (ok : rout) (r : option (rst * option rerr)) : option (rst * rout) :=
  match r with
  | Some (s, None) => Some (s, ok)
  | Some (s, Some e) => Some (s, RErr e)
  | None => None
  end.
Definition with_u (s : rst) (u : munit V) : rst := mkRS u (r_m s).

Definition r_step (s : rst) (o : rop) : option (rst * rout) :=
  match o with
  | RAdd now k v t l =>                                    (* 758-800, add_entry 168-189 *)
      match mu_step kd nbytes (r_u s) (MAdd now k v) with
      | Some (u, MHandle h) => r_done (RHandle h) (r_finish (with_u s u) h t l)
      | Some (u, MCode c) => Some (with_u s u, RErr (EUnit c))
      | _ => None
      end
  | RMod h v t l =>                                        (* 919-950, modify_entry 245-259 *)
      match mu_step kd nbytes (r_u s) (MMod (r_h32 h) v) with
      | Some (u, MCode MSuccess) => r_done ROk (r_finish (with_u s u) h t l)
      | Some (u, MCode c) => Some (with_u s u, RErr (EUnit c))
      | _ => None
      end
  | RDel h => r_done ROk (r_code s (mu_step kd nbytes (r_u s) (MDel (r_h32 h))))
  | RPacket ts len key =>
      match mu_step kd nbytes (r_u s) (MLookup ts len key) with
      | Some (u, MMiss) => Some (with_u s u, RMiss)
      | Some (u, MFound h (Some v)) => Some (with_u s u, RHit h v)
      | _ => None
      end
  | RReadC h =>                                            (* pi_counter_imp.cpp:113-139 *)
      if (h =? default_handle)%N then Some (s, RErr ENotImpl)
      else match r_read s h with
           | Some (s', inr (b, p)) => Some (s', RCnt b p)
           | Some (s', inl e) => Some (s', RErr e)
           | None => None
           end
  | RWriteC h b p =>                                       (* pi_counter_imp.cpp:141-177 *)
      if (h =? default_handle)%N then Some (s, RErr ENotImpl)
      else match b, p with
           | Some b', Some p' => r_done ROk (r_write s h b' p')
           | _, _ => match r_read s h with
                     | Some (s', inr (cb, cp)) => r_done ROk (r_write s' h (merged b cb) (merged p cp))
                     | Some (s', inl e) => Some (s', RErr e)
                     | None => None
                     end
           end
  | RReadM h =>                                            (* pi_meter_imp.cpp:86-110 *)
      if (h =? default_handle)%N then Some (s, RErr ENotImpl)
      else match r_get_meter s h with
           | Some (s', inr m) => Some (s', RSpec m)
           | Some (s', inl e) => Some (s', RErr e)
           | None => None
           end
  | RSetM h m =>                                           (* pi_meter_imp.cpp:112-142 *)
      if (h =? default_handle)%N then Some (s, RErr ENotImpl)
      else r_done ROk (r_set_meter s h m)
  | RTtl now h =>                                          (* 1080-1107 *)
      match mu_step kd nbytes (r_u s) (MGetEntry (r_h32 h)) with
      | Some (u, MEntry _ _) =>
          match nth_error (mu_meta u) (handle_internal (r_h32 h)) with
          | Some m =>
              let '(timeout, idle) := if with_ageing then (m_ttl m, ((now - m_ts m) mod 2 ^ 32)%N)
                                      else (0%N, 0%N) in
              Some (with_u s u, RLeft (remaining timeout idle))
          | None => None
          end
      | Some (u, MCode c) => Some (with_u s u, RErr (EUnit c))
      | _ => None
      end
  end.

Fixpoint r_run (s : rst) (ops : list rop) : option (rst * list rout) :=
  match ops with
  | [] => Some (s, [])
  | o :: r => match r_step s o with
              | Some (s', x) => match r_run s' r with
                                | Some (s'', xs) => Some (s'', x :: xs) | None => None end
              | None => None
              end
  end.
End Res.
Arguments rst : clear implicits.
Arguments rop : clear implicits.
Arguments rout : clear implicits.

(** ** Counter writes while packets are counted *)

(** One counter (of an array or of an entry), one PI write that gives some of the units, and any
    number of packets.  Each step is one atomic operation; the write is _pi_counter_write
    (pi_counter_imp.cpp:84-111): read both units if one is not given, then store both
    (Counter::query_counter, write_counter, counters.cpp:25-47).  A packet adds its length, then one
    (counters.h:51-54); these are separate events here, in any order. *)
Inductive wpc := WIdle | WReadP (b : N) | WSetB (b p : N) | WSetP (p : N) | WDone.
Record wst := mkWS { w_bytes : N; w_pkts : N; w_pc : wpc }.
Inductive wev := WStep | WAddB (len : N) | WAddP.

Definition w_step (bytes pkts : option N) (s : wst) (e : wev) : wst :=
  match e with
  | WStep =>
      match w_pc s with
      | WIdle => match bytes, pkts with
                 | Some b, Some p => mkWS b (w_pkts s) (WSetP p)
                 | _, _ => mkWS (w_bytes s) (w_pkts s) (WReadP (w_bytes s))
                 end
      | WReadP b => mkWS (w_bytes s) (w_pkts s) (WSetB (merged bytes b) (merged pkts (w_pkts s)))
      | WSetB b p => mkWS b (w_pkts s) (WSetP p)
      | WSetP p => mkWS (w_bytes s) p WDone
      | WDone => s
      end
  | WAddB len => mkWS ((w_bytes s + len) mod 2 ^ 64)%N (w_pkts s) (w_pc s)
  | WAddP => mkWS (w_bytes s) ((w_pkts s + 1) mod 2 ^ 64)%N (w_pc s)
  end.
Definition w_run (bytes pkts : option N) (s : wst) (es : list wev) : wst :=
  fold_left (w_step bytes pkts) es s.
