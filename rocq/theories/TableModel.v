(** Model of direct match tables: MatchTableAbstract and MatchTable,
    src/bm_sim/match_tables.cpp:75-360 and 352-640, over the match units of MatchUnitModel.v and
    the key builder of KeyBuilderModel.v.
    Not modelled here: direct meters (255-288), (de)serialisation, logging, the clock fields of
    get_entry (318-331). *)
From Coq Require Import List Arith NArith ZArith Bool.
From Verif Require Import Base EntryListModel MatchUnitModel KeyBuilderModel.
Import ListNotations.

(** match_tables.h:29-41, ActionEntry: the action (an id; [None] is the empty action), its
    data and the next control-flow node ([None] is the end of the pipeline). *)
Record aentry := mkA { a_fn : option nat; a_data : list N; a_next : option nat }.

(** Static configuration of a table, set when the JSON is loaded. *)
Record tcfg := mkCfg {
  c_params : nat -> nat;                 (* ActionFn::get_num_params *)
  c_next : nat -> option (option nat);   (* next_nodes; [None]: no such key *)
  c_hit : option (option nat);           (* next_node_hit, when has_next_node_hit *)
  c_miss : option (option nat);          (* next_node_miss, when has_next_node_miss *)
  c_default : aentry;                    (* default_default_entry *)
  c_const_entry : bool;                  (* const_default_entry *)
  c_const_action : option nat;           (* const_default_action *)
  c_counters : bool; c_ageing : bool }.

(** match_tables.cpp:303-308, 310-315: [at] throws on a missing key *)
Definition next_node (c : tcfg) (fn : nat) : option (option nat) :=
  match c_hit c with Some n => Some n | None => c_next c fn end.
Definition next_node_default (c : tcfg) (fn : nat) : option (option nat) :=
  match c_miss c with Some n => Some n | None => c_next c fn end.

Record table := mkT { t_unit : munit aentry; t_default : aentry; t_imm : bool }.

Inductive tcode :=
| TCUnit (c : mcode) | TCNoKey | TCBadKey | TCImmutable | TCBadData | TCConstEntry | TCConstAction
| TCNoDefault | TCCountersDisabled | TCAgeingDisabled.

Definition tc_of (x : mcode) : tcode := match x with MBadKey => TCBadKey | c => TCUnit c end.

(** What the caller gets for one entry (get_entry_, 502-517) *)
Record tentry := mkTE { te_handle : N; te_params : list param; te_prio : Z; te_act : aentry }.

Inductive tout :=
| TCode (c : tcode)
| THandle (h : N)
| TEntry (e : tentry)
| TEntries (l : list tentry)
| TDefault (fn : nat) (data : list N)
| TApplied (hit : option N) (fn : option nat) (data : list N) (next : option nat)
    (* apply_action: the entry index given to the packet, the action executed, the returned node *)
| TCnt (bytes pkts : N)
| THandles (l : list N)
| TNum (n : nat)
| TBool (b : bool)
| TDone.

Definition t_new (kd : mkind) (c : tcfg) (size : nat) (cache : bool) : table :=
  mkT (mu_new kd size cache) (c_default c) false.

Definition on_unit (t : table) (r : option (munit aentry * mout aentry)) : option (table * tout) :=
  match r with
  | None => None
  | Some (u, x) =>
      let t' := mkT u (t_default t) (t_imm t) in
      match x with
      | MCode c => Some (t', TCode (tc_of c))
      | MHandle h => Some (t', THandle h)
      | MCnt b p => Some (t', TCnt b p)
      | MHandles l => Some (t', THandles l)
      | MNum n => Some (t', TNum n)
      | MBool b => Some (t', TBool b)
      | MDone => Some (t', TDone)
      | _ => None (* not produced by the calls below *)
      end
  end.

(** add_entry, match_tables.cpp:372-413; match_units.cpp:796-806 and the start of add_entry_
    (941-945) *)
Definition t_add (kd : mkind) (c : tcfg) (kb : kbuilder) (t : table) (now : N) (ps : list param)
    (prio : Z) (fn : nat) (data : list N) : option (table * tout) :=
  if t_imm t then Some (t, TCode TCImmutable)
  else if negb (length data =? c_params c fn) then Some (t, TCode TCBadData)
  else match next_node c fn with
       | None => None
       | Some nn =>
           if kb_nbytes kb =? 0 then Some (t, TCode TCNoKey)
           else match kb_build_entry kd kb ps prio with
                | None => None
                | Some BBadKey => Some (t, TCode TCBadKey)
                | Some (BEntry k) => on_unit t (mu_add kd (t_unit t) now k (mkA (Some fn) data nn))
                end
       end.

(** delete_entry, 415-434 *)
Definition t_delete (kd : mkind) (t : table) (h : N) : option (table * tout) :=
  if t_imm t then Some (t, TCode TCImmutable) else on_unit t (mu_delete kd (t_unit t) h).

(** modify_entry, 436-464 *)
Definition t_modify (c : tcfg) (t : table) (h : N) (fn : nat) (data : list N)
  : option (table * tout) :=
  if t_imm t then Some (t, TCode TCImmutable)
  else if negb (length data =? c_params c fn) then Some (t, TCode TCBadData)
  else match next_node c fn with
       | None => None
       | Some nn => on_unit t (mu_modify (t_unit t) h (mkA (Some fn) data nn))
       end.

(** set_default_action, 466-489 *)
Definition t_set_default (c : tcfg) (t : table) (fn : nat) (data : list N) : option (table * tout) :=
  if c_const_entry c then Some (t, TCode TCConstEntry)
  else if match c_const_action c with Some f => negb (f =? fn) | None => false end
  then Some (t, TCode TCConstAction)
  else if negb (length data =? c_params c fn) then Some (t, TCode TCBadData)
  else match next_node_default c fn with
       | None => None
       | Some nn => Some (mkT (t_unit t) (mkA (Some fn) data nn) (t_imm t), TCode (TCUnit MSuccess))
       end.

(** get_entry_, 502-517 and match_units.cpp:1016-1032; 876-883 for the priority *)
Definition kind_prio (kd : mkind) (k : mkey) : Z :=
  match kd with KExact | KLpm => (-1)%Z | _ => k_prio k end.
Definition t_get_entry (kd : mkind) (kb : kbuilder) (t : table) (h : N) : option (tcode + tentry) :=
  match mu_get_entry (t_unit t) h with
  | Some (_, MCode c) => Some (inl (tc_of c))
  | Some (_, MEntry k (Some v)) =>
      match kb_to_params kd kb k with
      | Some ps => Some (inr (mkTE h ps (kind_prio kd k) v))
      | None => None
      end
  | _ => None
  end.
Definition t_get (kd : mkind) (kb : kbuilder) (t : table) (h : N) : option (table * tout) :=
  match t_get_entry kd kb t h with
  | Some (inl c) => Some (t, TCode c)
  | Some (inr e) => Some (t, TEntry e)
  | None => None
  end.

(** get_entry_from_key, 550-558; match_units.cpp:1034-1051 *)
Definition t_get_key (kd : mkind) (kb : kbuilder) (t : table) (ps : list param) (prio : Z)
  : option (table * tout) :=
  match kb_build_entry kd kb ps prio with
  | None => None
  | Some BBadKey => Some (t, TCode TCBadKey)
  | Some (BEntry k) =>
      match mu_retrieve kd (t_unit t) k with
      | Some (_, MCode c) => Some (t, TCode (tc_of c))
      | Some (_, MHandle h) => t_get kd kb t h
      | _ => None
      end
  end.

(** get_entries, 560-575 *)
Fixpoint t_get_all (kd : mkind) (kb : kbuilder) (t : table) (hs : list N) : option (list tentry) :=
  match hs with
  | [] => Some []
  | h :: r => match t_get_entry kd kb t h, t_get_all kd kb t r with
              | Some (inr e), Some l => Some (e :: l)
              | _, _ => None (* the assertion on rc *)
              end
  end.
Definition t_entries (kd : mkind) (kb : kbuilder) (t : table) : option (table * tout) :=
  match mu_iter (t_unit t) with
  | Some (_, MHandles hs) => match t_get_all kd kb t hs with
                             | Some l => Some (t, TEntries l) | None => None end
  | _ => None
  end.

(** apply_action 85-131 and lookup 361-370: the entry index set on the packet is the low 24 bits
    of the handle on a hit, INVALID_ENTRY_INDEX otherwise *)
Definition t_apply (kd : mkind) (kb : kbuilder) (t : table) (ts len : N) (phv : nat -> pfield)
  : option (table * tout) :=
  match mu_lookup kd (kb_nbytes kb) (t_unit t) ts len (kb_key kb phv) with
  | Some (u, MMiss) =>
      let e := t_default t in
      Some (mkT u (t_default t) (t_imm t), TApplied None (a_fn e) (a_data e) (a_next e))
  | Some (u, MFound h (Some e)) =>
      Some (mkT u (t_default t) (t_imm t),
            TApplied (Some (N.land h 16777215)) (a_fn e) (a_data e) (a_next e))
  | _ => None
  end.

(** reset_state 133-137, reset_state_ 600-605 (mt_clear_entries, context.cpp:40-51) *)
Definition t_clear (c : tcfg) (t : table) (reset_default : bool) : table :=
  mkT (mu_reset (t_unit t)) (if reset_default then c_default c else t_default t) (t_imm t).

Inductive top :=
| TAdd (now : N) (ps : list param) (prio : Z) (fn : nat) (data : list N)
| TDel (h : N)
| TMod (h : N) (fn : nat) (data : list N)
| TSetDefault (fn : nat) (data : list N)
| TResetDefault
| TGetDefault
| TGet (h : N)
| TGetKey (ps : list param) (prio : Z)
| TGetAll
| TApply (ts len : N) (phv : nat -> pfield)
| TClear (reset_default : bool)
| TSetImmutable
| TQuery (h : N) | TWrite (h b p : N) | TResetC
| TTtl (now : N) (h ttl : N) | TSweep (now : N) | TCount.

Definition t_step (kd : mkind) (c : tcfg) (kb : kbuilder) (t : table) (o : top)
  : option (table * tout) :=
  match o with
  | TAdd now ps prio fn data => t_add kd c kb t now ps prio fn data
  | TDel h => t_delete kd t h
  | TMod h fn data => t_modify c t h fn data
  | TSetDefault fn data => t_set_default c t fn data
  (* reset_default_entry, 491-500 *)
  | TResetDefault => Some (mkT (t_unit t) (c_default c) (t_imm t), TCode (TCUnit MSuccess))
  (* get_default_entry, 577-584 *)
  | TGetDefault => match a_fn (t_default t) with
                   | None => Some (t, TCode TCNoDefault)
                   | Some fn => Some (t, TDefault fn (a_data (t_default t)))
                   end
  | TGet h => t_get kd kb t h
  | TGetKey ps prio => t_get_key kd kb t ps prio
  | TGetAll => t_entries kd kb t
  | TApply ts len phv => t_apply kd kb t ts len phv
  | TClear rd => Some (t_clear c t rd, TDone)
  (* set_immutable_entries, 619-622 *)
  | TSetImmutable => Some (mkT (t_unit t) (t_default t) true, TDone)
  (* 222-253, 290-295, 297-301 *)
  | TQuery h => if c_counters c then on_unit t (mu_query (t_unit t) h)
                else Some (t, TCode TCCountersDisabled)
  | TWrite h b p => if c_counters c then on_unit t (mu_write (t_unit t) h b p)
                    else Some (t, TCode TCCountersDisabled)
  | TResetC => if c_counters c
               then on_unit t (Some (mu_reset_counters (t_unit t), MCode MSuccess))
               else Some (t, TCode TCCountersDisabled)
  | TTtl now h ttl => if c_ageing c then on_unit t (mu_set_ttl (t_unit t) now h ttl)
                      else Some (t, TCode TCAgeingDisabled)
  | TSweep now => on_unit t (mu_sweep (t_unit t) now)
  | TCount => on_unit t (Some (t_unit t, MNum (mu_num (t_unit t))))
  end.

Fixpoint t_run (kd : mkind) (c : tcfg) (kb : kbuilder) (t : table) (ops : list top)
  : option (table * list tout) :=
  match ops with
  | [] => Some (t, [])
  | o :: r => match t_step kd c kb t o with
              | Some (t', x) => match t_run kd c kb t' r with
                                | Some (t'', xs) => Some (t'', x :: xs) | None => None end
              | None => None
              end
  end.
