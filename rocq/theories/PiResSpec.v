(** Specification of the properties and direct resources of table entries: a table of numbered
    places (MatchUnitSpec.v) in which each place also has a meter.  Two facts of the code show
    here: the timeout and the meter belong to the place, so that a new entry finds those of the
    entry that was there before; and what failed late is not undone. *)
From Coq Require Import List Arith NArith ZArith Bool.
From Verif Require Import Bits EntryListModel EntryListSpec MatchUnitModel MatchUnitSpec PiResModel.
Import ListNotations.

(** The meter of a place: not set, or set to these numbers. *)
Definition smeter := option mspec.

Section Spec.
Context {V : Type}.
Record atab := mkAT { a_tab : stab V; a_met : nat -> smeter }.
Definition a_empty : atab := mkAT tab_empty (fun _ => None).

(** [again n]: what a rate of [n] per second reads back as; [above c p]: the switch takes rate [c]
    to be above rate [p]. *)
Variables (again : N -> N) (above : N -> N -> bool).
Variables (kd : mkind) (nbytes size : nat).
Variables (counters meters ageing : bool).

Definition put_ent (t : stab V) (i : nat) (e : sent V) : stab V :=
  mkTab (set_slot (slot_of t) i (Some e)) (gen t) (ttl t).

(** Nanoseconds to whole milliseconds, on 32 bits. *)
Definition ms_of (ns : N) : N := (ns / 10 ^ 6) mod 2 ^ 32.

(** All the numbers at their maximum: the request to unset the meter. *)
Definition unset (m : mspec) : Prop := m = mkMS (2 ^ 64 - 1) (2 ^ 32 - 1) (2 ^ 64 - 1) (2 ^ 32 - 1).
Definition read_back (m : mspec) : mspec := mkMS (again (ms_cir m)) (ms_cb m) (again (ms_pir m)) (ms_pb m).
Definition swapped (m : mspec) : mspec := mkMS (ms_pir m) (ms_pb m) (ms_cir m) (ms_cb m).

(** Setting the meter of a place: the result and the new meter. *)
Inductive meter_set (old : smeter) (m : mspec) : option rerr -> smeter -> Prop :=
| mset_unset : unset m -> meter_set old m None None
| mset_ok : ~ unset m -> above (ms_cir m) (ms_pir m) = false ->
    meter_set old m None (Some (read_back m))
| mset_bad : ~ unset m -> above (ms_cir m) (ms_pir m) = true ->
    (* refused, but a meter that was set now has the refused numbers, exchanged *)
    meter_set old m (Some EError)
      (match old with None => None | Some _ => Some (swapped (read_back m)) end).

Definition put_met (f : nat -> smeter) (i : nat) (m : smeter) : nat -> smeter :=
  fun j => if j =? i then m else f j.

(** One piece of configuration of the entry at place [i]. *)
Inductive one_cfg (i : nat) : atab -> rcfg -> option rerr -> atab -> Prop :=
| oc_no_counter : forall a b p, counters = false -> one_cfg i a (RCounter b p) (Some ENoCounters) a
| oc_counter : forall a b p e, counters = true -> slot_of (a_tab a) i = Some e ->
    (* a unit not given becomes 0 *)
    one_cfg i a (RCounter b p) None
      (mkAT (put_ent (a_tab a) i (mkSent (s_key e) (s_val e) (s_ts e)
               (match b with Some x => x | None => 0%N end)
               (match p with Some x => x | None => 0%N end))) (a_met a))
| oc_no_meter : forall a m, meters = false -> one_cfg i a (RMeter m) (Some ENoMeters) a
| oc_meter : forall a m r x, meters = true -> slot_of (a_tab a) i <> None ->
    meter_set (a_met a i) m r x ->
    one_cfg i a (RMeter m) r (mkAT (a_tab a) (put_met (a_met a) i x)).

(** The configuration stops at the first error. *)
Inductive all_cfg (i : nat) : atab -> list rcfg -> option rerr -> atab -> Prop :=
| ac_nil : forall a, all_cfg i a [] None a
| ac_cons : forall a c l a' r a'', one_cfg i a c None a' -> all_cfg i a' l r a'' ->
    all_cfg i a (c :: l) r a''
| ac_stop : forall a c l e a', one_cfg i a c (Some e) a' -> all_cfg i a (c :: l) (Some e) a'.

Inductive finish (i : nat) : atab -> option (N * N) -> list rcfg -> option rerr -> atab -> Prop :=
| fi_none : forall a l r a', all_cfg i a l r a' -> finish i a None l r a'
| fi_off : forall a x l, ageing = false -> finish i a (Some x) l (Some ENoAgeing) a
| fi_ttl : forall a now ns e l r a', ageing = true -> slot_of (a_tab a) i = Some e ->
    all_cfg i (mkAT (mkTab (set_slot (slot_of (a_tab a)) i
                              (Some (mkSent (s_key e) (s_val e) now (s_bytes e) (s_pkts e))))
                           (gen (a_tab a)) (fun j => if j =? i then ms_of ns else ttl (a_tab a) j))
                    (a_met a)) l r a' ->
    finish i a (Some (now, ns)) l r a'.

Definition done (ok : rout V) (r : option rerr) : rout V := match r with None => ok | Some e => RErr e end.

(** The time left, in nanoseconds, of an entry with a timeout of [t] ms idle for [idle] ms (on 32
    bits): exact up to 4294 ms, the low 32 bits of it beyond. *)
Definition time_left (t idle : N) : N :=
  if (t =? 0)%N then (2 ^ 64 - 1)%N
  else if (idle mod 2 ^ 32 <? t)%N
  then (if (t - idle mod 2 ^ 32 <=? 4294)%N then (t - idle mod 2 ^ 32) * 10 ^ 6
        else ((t - idle mod 2 ^ 32) * 10 ^ 6) mod 2 ^ 32)%N
  else 0%N.

(** The handle kept for the default entry. *)
Definition dflt : N := (2 ^ 64 - 1)%N.

Inductive r_spec : atab -> rop V -> rout V -> atab -> Prop :=
| rs_add_no : forall a now k v t l c, mspec_step kd nbytes size (a_tab a) (MAdd now k v) (MCode c) (a_tab a) ->
    r_spec a (RAdd now k v t l) (RErr (EUnit c)) a
| rs_add : forall a now k v t l h T r a',
    mspec_step kd nbytes size (a_tab a) (MAdd now k v) (MHandle h) T ->
    finish (h_slot h) (mkAT T (a_met a)) t l r a' ->
    r_spec a (RAdd now k v t l) (done (RHandle h) r) a'
| rs_mod_no : forall a h v t l c, resolves (a_tab a) h (inl c) ->
    r_spec a (RMod h v t l) (RErr (EUnit c)) a
| rs_mod : forall a h v t l i e r a', resolves (a_tab a) h (inr (i, e)) ->
    finish i (mkAT (put_ent (a_tab a) i (mkSent (s_key e) v (s_ts e) (s_bytes e) (s_pkts e))) (a_met a)) t l r a' ->
    r_spec a (RMod h v t l) (done ROk r) a'
| rs_del_no : forall a h c, resolves (a_tab a) h (inl c) -> r_spec a (RDel h) (RErr (EUnit c)) a
| rs_del : forall a h T, mspec_step kd nbytes size (a_tab a) (MDel h) (MCode MSuccess) T ->
    r_spec a (RDel h) ROk (mkAT T (a_met a))
| rs_miss : forall a ts len key, lookup_answer kd nbytes (a_tab a) key None ->
    r_spec a (RPacket ts len key) RMiss a
| rs_hit : forall a ts len key i e, lookup_answer kd nbytes (a_tab a) key (Some (i, e)) ->
    r_spec a (RPacket ts len key) (RHit (handle_of (a_tab a) i) (s_val e))
      (mkAT (put_ent (a_tab a) i (mkSent (s_key e) (s_val e) ts
               ((s_bytes e + len) mod 2 ^ 64)%N ((s_pkts e + 1) mod 2 ^ 64)%N)) (a_met a))
(* counters: the place counts, not the generation *)
| rs_readc_d : forall a, r_spec a (RReadC dflt) (RErr ENotImpl) a
| rs_readc_off : forall a h, h <> dflt -> counters = false -> r_spec a (RReadC h) (RErr ENoCounters) a
| rs_readc_no : forall a h, h <> dflt -> counters = true -> slot_of (a_tab a) (h_slot h) = None ->
    r_spec a (RReadC h) (RErr (EUnit MInvalid)) a
| rs_readc : forall a h e, h <> dflt -> counters = true -> slot_of (a_tab a) (h_slot h) = Some e ->
    r_spec a (RReadC h) (RCnt (s_bytes e) (s_pkts e)) a
| rs_writec_d : forall a b p, r_spec a (RWriteC dflt b p) (RErr ENotImpl) a
| rs_writec_off : forall a h b p, h <> dflt -> counters = false -> r_spec a (RWriteC h b p) (RErr ENoCounters) a
| rs_writec_no : forall a h b p, h <> dflt -> counters = true -> slot_of (a_tab a) (h_slot h) = None ->
    r_spec a (RWriteC h b p) (RErr (EUnit MInvalid)) a
| rs_writec : forall a h b p e, h <> dflt -> counters = true -> slot_of (a_tab a) (h_slot h) = Some e ->
    (* a unit not given keeps its value *)
    r_spec a (RWriteC h b p) ROk
      (mkAT (put_ent (a_tab a) (h_slot h) (mkSent (s_key e) (s_val e) (s_ts e)
               (match b with Some x => x | None => s_bytes e end)
               (match p with Some x => x | None => s_pkts e end))) (a_met a))
| rs_readm_d : forall a, r_spec a (RReadM dflt) (RErr ENotImpl) a
| rs_readm_off : forall a h, h <> dflt -> meters = false -> r_spec a (RReadM h) (RErr ENoMeters) a
| rs_readm_no : forall a h, h <> dflt -> meters = true -> slot_of (a_tab a) (h_slot h) = None ->
    r_spec a (RReadM h) (RErr (EUnit MInvalid)) a
| rs_readm_unset : forall a h m, h <> dflt -> meters = true -> slot_of (a_tab a) (h_slot h) <> None ->
    a_met a (h_slot h) = None -> unset m -> r_spec a (RReadM h) (RSpec m) a
| rs_readm : forall a h m, h <> dflt -> meters = true -> slot_of (a_tab a) (h_slot h) <> None ->
    a_met a (h_slot h) = Some m -> r_spec a (RReadM h) (RSpec m) a
| rs_setm_d : forall a m, r_spec a (RSetM dflt m) (RErr ENotImpl) a
| rs_setm_off : forall a h m, h <> dflt -> meters = false -> r_spec a (RSetM h m) (RErr ENoMeters) a
| rs_setm_no : forall a h m, h <> dflt -> meters = true -> slot_of (a_tab a) (h_slot h) = None ->
    r_spec a (RSetM h m) (RErr (EUnit MInvalid)) a
| rs_setm : forall a h m r x, h <> dflt -> meters = true -> slot_of (a_tab a) (h_slot h) <> None ->
    meter_set (a_met a (h_slot h)) m r x ->
    r_spec a (RSetM h m) (done ROk r) (mkAT (a_tab a) (put_met (a_met a) (h_slot h) x))
| rs_ttl_no : forall a now h c, resolves (a_tab a) h (inl c) -> r_spec a (RTtl now h) (RErr (EUnit c)) a
| rs_ttl_off : forall a now h i e, ageing = false -> resolves (a_tab a) h (inr (i, e)) ->
    r_spec a (RTtl now h) (RLeft (2 ^ 64 - 1)) a
| rs_ttl : forall a now h i e, ageing = true -> resolves (a_tab a) h (inr (i, e)) ->
    r_spec a (RTtl now h) (RLeft (time_left (ttl (a_tab a) i) (now - s_ts e))) a.

Inductive r_spec_run : atab -> list (rop V) -> list (rout V) -> atab -> Prop :=
| rr_nil : forall a, r_spec_run a [] [] a
| rr_cons : forall a o x a' os xs a'', r_spec a o x a' -> r_spec_run a' os xs a'' ->
    r_spec_run a (o :: os) (x :: xs) a''.

(** Well-formed calls: keys are keys of the table, handles fit 32 bits or are the default entry's,
    burst sizes fit 32 bits. *)
Definition spec_ok (m : mspec) : Prop := (ms_cb m < 2 ^ 32)%N /\ (ms_pb m < 2 ^ 32)%N.
Definition cfg_ok (c : rcfg) : Prop := match c with RCounter _ _ => True | RMeter m => spec_ok m end.
Definition rop_ok (o : rop V) : Prop :=
  match o with
  | RAdd _ k _ _ l => key_ok kd nbytes k /\ Forall cfg_ok l
  | RMod h _ _ l => (h < 2 ^ 32)%N /\ Forall cfg_ok l
  | RDel h | RTtl _ h => (h < 2 ^ 32)%N
  | RReadC h | RWriteC h _ _ | RReadM h => (h < 2 ^ 32)%N \/ h = dflt
  | RSetM h m => ((h < 2 ^ 32)%N \/ h = dflt) /\ spec_ok m
  | RPacket _ _ key => bytes_ok key /\ length key = nbytes
  end.
End Spec.
Arguments atab : clear implicits.

(** ** Counting packets while a counter is written *)
Fixpoint sum_bytes (es : list wev) : N :=
  match es with
  | [] => 0
  | WAddB n :: r => n + sum_bytes r
  | _ :: r => sum_bytes r
  end%N.
Fixpoint sum_pkts (es : list wev) : N :=
  match es with
  | [] => 0
  | WAddP :: r => 1 + sum_pkts r
  | _ :: r => sum_pkts r
  end%N.
(** Only packets. *)
Definition traffic (es : list wev) : Prop := ~ In WStep es.
