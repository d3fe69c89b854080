(** Model of MatchUnitAbstract_ / MatchUnitGeneric<K, V>: src/bm_sim/match_units.cpp:621-1060,
    include/bm/bm_sim/match_units.h, over the lookup structures of
    src/bm_sim/lookup_structures.cpp.  Keys are the internal keys (after
    build_entry_from_match_key, see KeyBuilderModel.v).  (De)serialisation is in
    SerialModel.v. *)
From Coq Require Import List Arith NArith ZArith Bool.
From Verif Require Import Base HandleMgrModel LpmModel EntryListModel.
Import ListNotations.

(** ** Lookup structures *)
Inductive lstruct :=
| LSExact (m : list (list N * nat))   (* ExactMap: unordered_map, lookup_structures.cpp:88-134 *)
| LSLpm (t : node nat)                (* LPMTrieStructure, 36-86 *)
| LSList (l : elist).                 (* TernaryMap / RangeMap, 380-480 *)

Fixpoint em_find (m : list (list N * nat)) (key : list N) : option nat :=
  match m with
  | [] => None
  | (k, h) :: r => if bytes_eqb k key then Some h else em_find r key
  end.
Fixpoint em_remove (m : list (list N * nat)) (key : list N) : list (list N * nat) :=
  match m with
  | [] => []
  | (k, h) :: r => if bytes_eqb k key then em_remove r key else (k, h) :: em_remove r key
  end.

(** LookupStructureFactory::create, lookup_structures.cpp:484-520 (default factory);
    [cache] is enable_ternary_cache *)
Definition ls_new (kd : mkind) (size : nat) (cache : bool) : lstruct :=
  match kd with
  | KExact => LSExact []
  | KLpm => LSLpm empty_node
  | KTernary | KRange => LSList (el_new size cache)
  end.

(** lookup: 53-56, 95-104, 384-397, 429-453; outer [None] is undefined behaviour *)
Definition ls_lookup (kd : mkind) (nbytes : nat) (s : lstruct) (key : list N)
  : option (lstruct * option nat) :=
  match s with
  | LSExact m => Some (s, em_find m key)
  | LSLpm t => match trie_lookup t key nbytes None with Some r => Some (s, r) | None => None end
  | LSList l => match el_lookup (list_cmp kd nbytes) l key with
                | Some (l', r) => Some (LSList l', r) | None => None end
  end.

(** entry_exists / retrieve_handle: 58-68, 106-117, 399-406, 455-462 *)
Definition ls_retrieve (kd : mkind) (s : lstruct) (k : mkey) : option (option nat) :=
  match s with
  | LSExact m => Some (em_find m (k_data k))
  | LSLpm t => trie_retrieve t (k_data k) (k_plen k)
  | LSList l => el_find_entry (key_eqb kd) l k
  end.

(** add_entry: 70-74, 119-122, 408-411, 464-467 *)
Definition ls_add (s : lstruct) (k : mkey) (h : nat) : option lstruct :=
  match s with
  | LSExact m => Some (LSExact ((k_data k, h) :: em_remove m (k_data k)))
  | LSLpm t => match trie_insert t (k_data k) (k_plen k) h with
               | Some t' => Some (LSLpm t') | None => None end
  | LSList l => match el_add l k h with Some l' => Some (LSList l') | None => None end
  end.

(** delete_entry: 76-78, 124-126, 413-415, 469-471.  delete_prefix's boolean is ignored. *)
Definition ls_delete (kd : mkind) (s : lstruct) (k : mkey) : option lstruct :=
  match s with
  | LSExact m => Some (LSExact (em_remove m (k_data k)))
  | LSLpm t => match trie_delete t (k_data k) (k_plen k) with
               | Some (Some t') => Some (LSLpm t')
               | Some None => Some (LSLpm t)
               | None => None end
  | LSList l => match el_delete (key_eqb kd) l k with Some l' => Some (LSList l') | None => None end
  end.

(** clear: 80-82, 128-130, 417-419, 473-475 *)
Definition ls_clear (s : lstruct) : lstruct :=
  match s with
  | LSExact _ => LSExact []
  | LSLpm _ => LSLpm empty_node
  | LSList l => LSList (el_clear l)
  end.

(** ** Handles: match_units.cpp:31-33.  entry_handle_t is uint32_t. *)
Definition handle_version (h : N) : N := N.shiftr h 24.
Definition handle_internal (h : N) : nat := N.to_nat (N.land h 16777215).
(** the 64-bit value of the macro HANDLE_SET *)
Definition handle_set64 (v : N) (i : nat) : N :=
  N.lor (N.shiftl (N.land v 255) 24) (N.of_nat i).
(** stored in an entry_handle_t *)
Definition handle_set (v : N) (i : nat) : N := (handle_set64 v i mod 2 ^ 32)%N.

Section Unit.
Context {V : Type}.

(** match_units.h:205-217.  Clock values are milliseconds. *)
Record emeta := mkMeta { m_ts : N; m_ttl : N; m_bytes : N; m_pkts : N; m_ver : N }.
Definition meta_new : emeta := mkMeta 0 0 0 0 0.

(** match_units.h:446-452.  [e_val = None]: default-constructed value. *)
Record mentry := mkEnt { e_key : mkey; e_ver : N; e_val : option V }.
Definition ent_new : mentry := mkEnt (mkKey [] [] 0 0 []) 0 None.

Record munit := mkMU {
  mu_size : nat; mu_num : nat; mu_hm : hmgr;
  mu_meta : list emeta; mu_ents : list mentry; mu_ls : lstruct }.

(** match_units.cpp:631-643 and match_units.h:454-460.  The clamp of an oversized table at
    639 assigns the constructor's parameter, not the member, so it has no effect. *)
Definition mu_new (kd : mkind) (size : nat) (cache : bool) : munit :=
  mkMU size 0 hm_empty (repeat meta_new size) (repeat ent_new size) (ls_new kd size cache).

Inductive mcode := MSuccess | MDuplicate | MFull | MInvalid | MExpired | MBadKey.

Inductive mout :=
| MCode (c : mcode)
| MHandle (h : N)                                  (* SUCCESS and *handle *)
| MValue (v : option V)                            (* SUCCESS and the value *)
| MEntry (k : mkey) (v : option V)
| MFound (h : N) (v : option V)
| MMiss
| MHandles (l : list N)
| MNum (n : nat)
| MBool (b : bool)
| MCnt (bytes pkts : N)
| MDone.

Definition set_meta (u : munit) (i : nat) (m : emeta) : munit :=
  mkMU (mu_size u) (mu_num u) (mu_hm u) (list_set (mu_meta u) i m) (mu_ents u) (mu_ls u).
Definition with_ls (u : munit) (s : lstruct) : munit :=
  mkMU (mu_size u) (mu_num u) (mu_hm u) (mu_meta u) (mu_ents u) s.

(** add_entry 796-806, add_entry_ 941-971, get_and_set_handle 646-655.  Indexing a vector out
    of range is undefined behaviour ([None]).  The NO_TABLE_KEY case is in TableModel. *)
Definition mu_add (kd : mkind) (u : munit) (now : N) (k : mkey) (v : V) : option (munit * mout) :=
  match ls_retrieve kd (mu_ls u) k with
  | None => None
  | Some (Some _) => Some (u, MCode MDuplicate)
  | Some None =>
      if mu_size u <=? mu_num u then Some (u, MCode MFull) else
      match hm_get_handle (mu_hm u) with
      | None => None
      | Some (hm', i) =>
          match nth_error (mu_ents u) i with
          | None => None
          | Some old =>
              let ver := e_ver old in
              let handle := handle_set ver i in
              let ents' := list_set (mu_ents u) i (mkEnt k ver (Some v)) in
              match ls_add (mu_ls u) k i with
              | None => None
              | Some ls' =>
                  let mi := handle_internal handle in
                  match nth_error (mu_meta u) mi with
                  | None => None
                  | Some m =>
                      let m' := mkMeta now (m_ttl m) 0 0 (handle_version handle) in
                      Some (mkMU (mu_size u) (S (mu_num u)) hm' (list_set (mu_meta u) mi m')
                                 ents' ls', MHandle handle)
                  end
              end
          end
      end
  end.

(** The check shared by 975-1020: valid_handle_, then the version comparison. *)
Inductive mresolve := RErr (c : mcode) | ROk (i : nat) (e : mentry).
Definition mu_resolve (u : munit) (h : N) : option mresolve :=
  let i := handle_internal h in
  match hm_valid_handle (mu_hm u) i with
  | None => None
  | Some false => Some (RErr MInvalid)
  | Some true =>
      match nth_error (mu_ents u) i with
      | None => None
      | Some e => if (handle_version h =? e_ver e)%N then Some (ROk i e)
                  else Some (RErr MExpired)
      end
  end.

(** delete_entry_ 975-986, unset_handle 658-664 *)
Definition mu_delete (kd : mkind) (u : munit) (h : N) : option (munit * mout) :=
  match mu_resolve u h with
  | None => None
  | Some (RErr c) => Some (u, MCode c)
  | Some (ROk i e) =>
      let ver' := handle_version (handle_set64 (e_ver e + 1) i) in
      let ents' := list_set (mu_ents u) i (mkEnt (e_key e) ver' (e_val e)) in
      match ls_delete kd (mu_ls u) (e_key e) with
      | None => None
      | Some ls' =>
          match hm_release_handle (mu_hm u) i with
          | None => None
          | Some (hm', false) =>
              Some (mkMU (mu_size u) (mu_num u) hm' (mu_meta u) ents' ls', MCode MInvalid)
          | Some (hm', true) =>
              Some (mkMU (mu_size u) (mu_num u - 1) hm' (mu_meta u) ents' ls', MCode MSuccess)
          end
      end
  end.

(** modify_entry_ 990-1000 *)
Definition mu_modify (u : munit) (h : N) (v : V) : option (munit * mout) :=
  match mu_resolve u h with
  | None => None
  | Some (RErr c) => Some (u, MCode c)
  | Some (ROk i e) =>
      Some (mkMU (mu_size u) (mu_num u) (mu_hm u) (mu_meta u)
                 (list_set (mu_ents u) i (mkEnt (e_key e) (e_ver e) (Some v))) (mu_ls u),
            MCode MSuccess)
  end.

(** get_value_ 1003-1013 and get_entry_ 1016-1032 *)
Definition mu_get_value (u : munit) (h : N) : option (munit * mout) :=
  match mu_resolve u h with
  | None => None
  | Some (RErr c) => Some (u, MCode c)
  | Some (ROk i e) => Some (u, MValue (e_val e))
  end.
Definition mu_get_entry (u : munit) (h : N) : option (munit * mout) :=
  match mu_resolve u h with
  | None => None
  | Some (RErr c) => Some (u, MCode c)
  | Some (ROk i e) => Some (u, MEntry (e_key e) (e_val e))
  end.

(** retrieve_handle_ 1034-1051 *)
Definition mu_retrieve (kd : mkind) (u : munit) (k : mkey) : option (munit * mout) :=
  match ls_retrieve kd (mu_ls u) k with
  | None => None
  | Some None => Some (u, MCode MBadKey)
  | Some (Some i) => match nth_error (mu_ents u) i with
                     | None => None
                     | Some e => Some (u, MHandle (handle_set (e_ver e) i))
                     end
  end.

(** lookup 777-793 after the structure answered, and lookup_key 900-910: [ts] and [len] are the
    packet's ingress timestamp (ms) and ingress length; counter arithmetic is modulo 2^64
    (counters.h:54-57) *)
Definition mu_hit (u : munit) (ts len : N) (r : option nat) : option (munit * mout) :=
  match r with
  | None => Some (u, MMiss)
  | Some i =>
      match nth_error (mu_ents u) i with
      | None => None
      | Some e =>
          let h := handle_set (e_ver e) i in
          let mi := handle_internal h in
          match nth_error (mu_meta u) mi with
          | None => None
          | Some m =>
              Some (set_meta u mi
                      (mkMeta ts (m_ttl m) ((m_bytes m + len) mod 2 ^ 64)
                              ((m_pkts m + 1) mod 2 ^ 64) (m_ver m)),
                    MFound h (e_val e))
          end
      end
  end.
Definition mu_lookup (kd : mkind) (nbytes : nat) (u : munit) (ts len : N) (key : list N)
  : option (munit * mout) :=
  match ls_lookup kd nbytes (mu_ls u) key with
  | None => None
  | Some (ls', r) => mu_hit (with_ls u ls') ts len r
  end.

(** Operations that only check valid_handle, not the version: set_entry_ttl 707-716,
    query_counters / write_counters (match_tables.cpp:222-253) *)
Definition mu_on_meta (u : munit) (h : N) (f : emeta -> emeta * mout) : option (munit * mout) :=
  let i := handle_internal h in
  match hm_valid_handle (mu_hm u) i with
  | None => None
  | Some false => Some (u, MCode MInvalid)
  | Some true => match nth_error (mu_meta u) i with
                 | None => None
                 | Some m => Some (set_meta u i (fst (f m)), snd (f m))
                 end
  end.
Definition mu_set_ttl (u : munit) (now : N) (h ttl : N) :=
  mu_on_meta u h (fun m => (mkMeta now ttl (m_bytes m) (m_pkts m) (m_ver m), MCode MSuccess)).
Definition mu_query (u : munit) (h : N) :=
  mu_on_meta u h (fun m => (m, MCnt (m_bytes m) (m_pkts m))).
Definition mu_write (u : munit) (h b p : N) :=
  mu_on_meta u h (fun m => (mkMeta (m_ts m) (m_ttl m) b p (m_ver m), MCode MSuccess)).
(** reset_counters 687-693 *)
Definition mu_reset_counters (u : munit) : munit :=
  mkMU (mu_size u) (mu_num u) (mu_hm u)
       (map (fun m => mkMeta (m_ts m) (m_ttl m) 0 0 (m_ver m)) (mu_meta u))
       (mu_ents u) (mu_ls u).

(** handles_begin .. handles_end, 606-629: versions come from entry_meta *)
Fixpoint map_handles (metas : list emeta) (l : list nat) : option (list N) :=
  match l with
  | [] => Some []
  | i :: r => match nth_error metas i, map_handles metas r with
              | Some m, Some t => Some (handle_set (m_ver m) i :: t)
              | _, _ => None
              end
  end.
Definition mu_iter (u : munit) : option (munit * mout) :=
  match hm_iterate (mu_hm u) with
  | None => None
  | Some l => match map_handles (mu_meta u) l with
              | Some hs => Some (u, MHandles hs) | None => None end
  end.

(** sweep_entries 719-732; [None]: the assertion on the clock fails *)
Fixpoint sweep (metas : list emeta) (now : N) (l : list nat) : option (list N) :=
  match l with
  | [] => Some []
  | i :: r =>
      match nth_error metas i, sweep metas now r with
      | Some m, Some t =>
          if (m_ts m <=? now)%N then
            Some (if (0 <? m_ttl m)%N && (m_ttl m <=? now - m_ts m)%N
                  then handle_set (m_ver m) i :: t else t)
          else None
      | _, _ => None
      end
  end.
Definition mu_sweep (u : munit) (now : N) : option (munit * mout) :=
  match hm_iterate (mu_hm u) with
  | None => None
  | Some l => match sweep (mu_meta u) now l with
              | Some hs => Some (u, MHandles hs) | None => None end
  end.

(** reset_state 864-870 and reset_state_ 1069-1073 *)
Definition mu_reset (u : munit) : munit :=
  mkMU (mu_size u) 0 (hm_clear (mu_hm u)) (repeat meta_new (mu_size u))
       (repeat ent_new (mu_size u)) (ls_clear (mu_ls u)).

(** ** Histories *)
Inductive mop :=
| MAdd (now : N) (k : mkey) (v : V)
| MDel (h : N)
| MMod (h : N) (v : V)
| MGet (h : N)
| MGetEntry (h : N)
| MRetr (k : mkey)
| MLookup (ts len : N) (key : list N)
| MTtl (now : N) (h ttl : N)
| MSweep (now : N)
| MQuery (h : N)
| MWrite (h b p : N)
| MResetC
| MIter
| MCount
| MValid (h : N)
| MReset.

Definition mu_step (kd : mkind) (nbytes : nat) (u : munit) (o : mop) : option (munit * mout) :=
  match o with
  | MAdd now k v => mu_add kd u now k v
  | MDel h => mu_delete kd u h
  | MMod h v => mu_modify u h v
  | MGet h => mu_get_value u h
  | MGetEntry h => mu_get_entry u h
  | MRetr k => mu_retrieve kd u k
  | MLookup ts len key => mu_lookup kd nbytes u ts len key
  | MTtl now h ttl => mu_set_ttl u now h ttl
  | MSweep now => mu_sweep u now
  | MQuery h => mu_query u h
  | MWrite h b p => mu_write u h b p
  | MResetC => Some (mu_reset_counters u, MCode MSuccess)
  | MIter => mu_iter u
  | MCount => Some (u, MNum (mu_num u))
  | MValid h => match hm_valid_handle (mu_hm u) (handle_internal h) with
                | Some b => Some (u, MBool b) | None => None end
  | MReset => Some (mu_reset u, MDone)
  end.

Fixpoint mu_run (kd : mkind) (nbytes : nat) (u : munit) (ops : list mop)
  : option (munit * list mout) :=
  match ops with
  | [] => Some (u, [])
  | o :: r => match mu_step kd nbytes u o with
              | Some (u', x) => match mu_run kd nbytes u' r with
                                | Some (u'', xs) => Some (u'', x :: xs) | None => None end
              | None => None
              end
  end.

(** ** Concurrent schedules.
    Packet lookups hold the table's shared lock (match_tables.cpp:90) and interleave with each
    other; table updates hold it exclusively (387, 421, 449, 246, 293, 135) and so run only
    when no lookup is in progress; queries hold it shared.  A lookup is two steps: the cache
    probe, then the scan with the cache update (each under the cache's own mutex,
    lookup_structures.cpp:150, 161).  Statistics updates are single steps.
    The lock-free reset_counters (236-240) is modelled as holding the lock exclusively. *)
Inductive cev :=
| COp (o : mop)                            (* any API call other than a lookup *)
| CStart (tid : nat) (ts len : N) (key : list N)
| CEnd (tid : nat).

Definition read_only (o : mop) : bool :=
  match o with
  | MGet _ | MGetEntry _ | MRetr _ | MSweep _ | MQuery _ | MIter | MCount | MValid _ => true
  | _ => false
  end.
Definition is_lookup (o : mop) : bool := match o with MLookup _ _ _ => true | _ => false end.

Record cstate := mkC { c_unit : munit; c_pend : list (nat * (N * N * list N)) }.

Fixpoint pend_find (l : list (nat * (N * N * list N))) (tid : nat) :=
  match l with
  | [] => None
  | (t, x) :: r => if t =? tid then Some x else pend_find r tid
  end.
Fixpoint pend_remove (l : list (nat * (N * N * list N))) (tid : nat) :=
  match l with
  | [] => []
  | (t, x) :: r => if t =? tid then r else (t, x) :: pend_remove r tid
  end.

Definition ls_probe (s : lstruct) (key : list N) : lstruct * option nat :=
  match s with
  | LSList l => let '(l', r) := el_probe l key in (LSList l', r)
  | _ => (s, None)
  end.
Definition ls_finish (kd : mkind) (nbytes : nat) (s : lstruct) (key : list N)
  : option (lstruct * option nat) :=
  match s with
  | LSList l => match el_finish (list_cmp kd nbytes) l key with
                | Some (l', r) => Some (LSList l', r) | None => None end
  | _ => ls_lookup kd nbytes s key
  end.

(** One step of the schedule: the new state and, when an API call completes, the call and its
    answer.  A call that has to wait for the lock leaves everything unchanged. *)
Definition c_step (kd : mkind) (nbytes : nat) (c : cstate) (e : cev)
  : option (cstate * option (mop * mout)) :=
  match e with
  | COp o =>
      if is_lookup o then Some (c, None)
      else if negb (read_only o) && negb (length (c_pend c) =? 0) then Some (c, None)
      else match mu_step kd nbytes (c_unit c) o with
           | Some (u', x) => Some (mkC u' (c_pend c), Some (o, x))
           | None => None
           end
  | CStart tid ts len key =>
      match pend_find (c_pend c) tid with
      | Some _ => Some (c, None)
      | None =>
          let '(ls', r) := ls_probe (mu_ls (c_unit c)) key in
          let u1 := with_ls (c_unit c) ls' in
          match r with
          | None => Some (mkC u1 ((tid, (ts, len, key)) :: c_pend c), None)
          | Some i =>
              match mu_hit u1 ts len (Some i) with
              | Some (u', x) => Some (mkC u' (c_pend c), Some (MLookup ts len key, x))
              | None => None
              end
          end
      end
  | CEnd tid =>
      match pend_find (c_pend c) tid with
      | None => Some (c, None)
      | Some (ts, len, key) =>
          match ls_finish kd nbytes (mu_ls (c_unit c)) key with
          | None => None
          | Some (ls', r) =>
              match mu_hit (with_ls (c_unit c) ls') ts len r with
              | Some (u', x) =>
                  Some (mkC u' (pend_remove (c_pend c) tid), Some (MLookup ts len key, x))
              | None => None
              end
          end
      end
  end.

(** The completed calls with their answers, in order of completion. *)
Fixpoint c_run (kd : mkind) (nbytes : nat) (c : cstate) (es : list cev)
  : option (cstate * list (mop * mout)) :=
  match es with
  | [] => Some (c, [])
  | e :: r =>
      match c_step kd nbytes c e with
      | None => None
      | Some (c', x) =>
          match c_run kd nbytes c' r with
          | None => None
          | Some (c'', xs) => Some (c'', match x with Some y => y :: xs | None => xs end)
          end
      end
  end.
End Unit.
Arguments cev : clear implicits.
Arguments cstate : clear implicits.
Arguments munit : clear implicits.
Arguments mentry : clear implicits.
Arguments mout : clear implicits.
Arguments mop : clear implicits.
