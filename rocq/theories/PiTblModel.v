(** Model of the PI calls on match tables (PI/src/pi_tables_imp.cpp): the encoding of match keys,
    the inversion of priorities, and adding, modifying, deleting and fetching entries by handle or
    by key.
    The match units and the key builder behind them are those of MatchUnitModel.v and
    KeyBuilderModel.v.  Simplifications: an action entry is an abstract value (its encoding is in
    action_helpers.cpp and not modelled here); time to live and direct resources are left out; the
    table has a key (adding to a table without one is refused, see TableModel.v); the calls run one
    at a time.  A failed assertion, and a read past the end of the client's key, are
    [None]. *)
From Coq Require Import List Arith NArith ZArith Bool.
From Verif Require Import Base EntryListModel MatchUnitModel KeyBuilderModel.
Import ListNotations.

(** ** Match keys on the wire *)

(** pi_p4info_match_type_t and the width of a match field, as read at 70-73 *)
Inductive pmt := PValid | PExact | PLpm | PTernary | POptional | PRange.
Record pif := mkPif { pi_mt : pmt; pi_bw : nat }.

(** 73 *)
Definition pi_nbytes (f : pif) : nat := (pi_bw f + 7) / 8.

(** [std::string(mk_data, n); mk_data += n] *)
Definition take (n : nat) (l : list N) : option (list N * list N) :=
  if n <=? length l then Some (firstn n l, skipn n l) else None.

(** retrieve_uint32 and emit_uint32 belong to the PI library and copy the four bytes of a uint32_t
    (a little-endian machine is assumed) *)
Definition retrieve_uint32 (l : list N) : option (N * list N) :=
  match l with
  | a :: b :: c :: d :: r => Some ((a + 256 * (b + 256 * (c + 256 * d)))%N, r)
  | _ => None
  end.
Definition emit_uint32 (v : N) : list N :=
  [v mod 256; (v / 256) mod 256; (v / 65536) mod 256; (v / 16777216) mod 256]%N.

(** BM_MAX_PRIORITY 39-43: pi_priority_t is 32 bits and int has 31, so the pivot is the largest
    int *)
Definition bm_max_priority : N := 2147483647.
(** PriorityInverter 45-57 *)
Definition pi_to_bm (p : N) : option Z :=
  if (p <=? bm_max_priority)%N then Some (Z.of_N bm_max_priority - Z.of_N p)%Z else None.
Definition bm_to_pi (p : Z) : option N :=
  if (0 <=? p)%Z && (p <=? Z.of_N bm_max_priority)%Z
  then Some (bm_max_priority - Z.to_N p)%N else None.

(** uint32_t to int, when the prefix length is passed to MatchKeyParam *)
Definition to_int (v : N) : Z := if (v <? 2147483648)%N then Z.of_N v else (Z.of_N v - 4294967296)%Z.
Definition to_uint32 (v : Z) : N := Z.to_N (v mod 4294967296).

(** build_key 59-121: the loop body for each match type *)
Fixpoint build_key (fs : list pif) (data : list N) (pi_prio : N) (ps : list param) (prio : Z)
  : option (list param * Z) :=
  match fs with
  | [] => Some (ps, prio)
  | f :: r =>
      let n := pi_nbytes f in
      match pi_mt f with
      | PValid =>
          match data with
          | b :: d => build_key r d pi_prio (ps ++ [mkParam TValid [if (b =? 0)%N then 0%N else 1%N] [] 0]) prio
          | [] => None
          end
      | PExact =>
          match take n data with
          | Some (k, d) => build_key r d pi_prio (ps ++ [mkParam TExact k [] 0]) prio
          | None => None
          end
      | PLpm =>
          match take n data with
          | Some (k, d) =>
              match retrieve_uint32 d with
              | Some (pl, d') => build_key r d' pi_prio (ps ++ [mkParam TLpm k [] (to_int pl)]) prio
              | None => None
              end
          | None => None
          end
      | PTernary | POptional =>
          match take n data with
          | Some (k, d) =>
              match take n d, pi_to_bm pi_prio with
              | Some (m, d'), Some p => build_key r d' pi_prio (ps ++ [mkParam TTernary k m 0]) p
              | _, _ => None
              end
          | None => None
          end
      | PRange =>
          match take n data with
          | Some (k, d) =>
              match take n d, pi_to_bm pi_prio with
              | Some (m, d'), Some p => build_key r d' pi_prio (ps ++ [mkParam TRange k m 0]) p
              | _, _ => None
              end
          | None => None
          end
      end
  end.
Definition pi_build_key (fs : list pif) (data : list N) (pi_prio : N) : option (list param * Z) :=
  build_key fs data pi_prio [] 0%Z.

(** emit_match_key 439-461 *)
Definition emit_param (p : param) : list N :=
  match p_type p with
  | TExact => p_key p
  | TLpm => p_key p ++ emit_uint32 (to_uint32 (p_plen p))
  | TTernary | TRange => p_key p ++ p_mask p
  | TValid => [match p_key p with [1%N] => 1%N | _ => 0%N end]
  end.
Definition emit_match_key (ps : list param) : list N := flat_map emit_param ps.

(** emit_entries 486-494: bmv2 reports -1 for the tables that have no priorities *)
Definition emit_priority (p : Z) : option N := if (p =? -1)%Z then Some 0%N else bm_to_pi p.
(** match_units.cpp:872-884: get_priority *)
Definition entry_priority (kd : mkind) (k : mkey) : Z :=
  match kd with KExact | KLpm => (-1)%Z | KTernary | KRange => k_prio k end.

(** ** Calls *)
Section Calls.
Context {V : Type}.

Inductive xop :=
| XAdd (now : N) (key : list N) (prio : N) (v : V)    (* _pi_table_entry_add *)
| XMod (h : N) (v : V)                                (* _pi_table_entry_modify *)
| XDel (h : N)                                        (* _pi_table_entry_delete *)
| XDelKey (key : list N) (prio : N)                   (* _pi_table_entry_delete_wkey *)
| XModKey (key : list N) (prio : N) (v : V)           (* _pi_table_entry_modify_wkey *)
| XFetch (h : N)                                      (* _pi_table_entries_fetch_one *)
| XFetchKey (key : list N) (prio : N)                 (* _pi_table_entries_fetch_wkey *)
| XPacket (ts len : N) (phv : nat -> pfield).         (* a packet reaches the table *)

Inductive xout :=
| XHandle (h : N) | XOk | XErr (c : mcode) | XUnsupported
| XEntry (h prio : N) (key : list N) (v : V) | XNoEntry
| XMiss | XHit (h : N) (v : V).

Variables (kd : mkind) (pfs : list pif) (fs : list kfield).
Let nb := kb_nbytes (kb_build fs).

(** pi_entry_handle_t is 64 bits, bmv2's entry_handle_t is 32 *)
Definition h32 (h : N) : N := (h mod 2 ^ 32)%N.

(** Build the bmv2 key; [inl] when bmv2 refuses it with BAD_MATCH_KEY *)
Definition x_key (key : list N) (prio : N) : option (unit + mkey) :=
  match pi_build_key pfs key prio with
  | None => None
  | Some (ps, p) => match kb_build_entry kd (kb_build fs) ps p with
                    | None => None
                    | Some BBadKey => Some (inl tt)
                    | Some (BEntry k) => Some (inr k)
                    end
  end.

(** get_entry 597-630 and emit_entries 463-565, for one entry *)
Definition x_fetch (u : munit V) (h : N) : option (munit V * xout) :=
  match mu_step kd nb u (MGetEntry (h32 h)) with
  | Some (u', MEntry k (Some v)) =>
      match kb_to_params kd (kb_build fs) k, emit_priority (entry_priority kd k) with
      | Some ps, Some p => Some (u', XEntry h p (emit_match_key ps) v)
      | _, _ => None
      end
  | Some (u', MCode c) => Some (u', XErr c)
  | _ => None
  end.
(** _pi_table_entry_delete 878-898, _pi_table_entry_modify 919-950 *)
Definition x_code (r : option (munit V * mout V)) : option (munit V * xout) :=
  match r with
  | Some (u', MCode MSuccess) => Some (u', XOk)
  | Some (u', MCode c) => Some (u', XErr c)
  | _ => None
  end.
Definition x_del (u : munit V) (h : N) := x_code (mu_step kd nb u (MDel (h32 h))).
Definition x_mod (u : munit V) (h : N) (v : V) := x_code (mu_step kd nb u (MMod (h32 h) v)).

(** get_entry_handle_from_key 706-752, then the call on the handle *)
Definition x_with_key (u : munit V) (key : list N) (prio : N)
    (none : mcode -> xout) (f : munit V -> N -> option (munit V * xout))
  : option (munit V * xout) :=
  match x_key key prio with
  | None => None
  | Some (inl _) => Some (u, none MBadKey)
  | Some (inr k) =>
      match mu_step kd nb u (MRetr k) with
      | Some (u', MHandle h) => f u' h
      | Some (u', MCode c) => Some (u', none c)
      | _ => None
      end
  end.

Definition too_high (prio : N) : bool := (bm_max_priority <? prio)%N.

Definition x_step (u : munit V) (o : xop) : option (munit V * xout) :=
  match o with
  | XAdd now key prio v =>                                       (* 758-800 *)
      if too_high prio then Some (u, XUnsupported)
      else match x_key key prio with
           | None => None
           | Some (inl _) => Some (u, XErr MBadKey)
           | Some (inr k) =>
               match mu_step kd nb u (MAdd now k v) with
               | Some (u', MHandle h) => Some (u', XHandle h)
               | Some (u', MCode c) => Some (u', XErr c)
               | _ => None
               end
           end
  | XMod h v => x_mod u h v
  | XDel h => x_del u h
  | XDelKey key prio =>                                          (* 904-917 *)
      if too_high prio then Some (u, XUnsupported) else x_with_key u key prio XErr x_del
  | XModKey key prio v =>                                        (* 952-966 *)
      if too_high prio then Some (u, XUnsupported)
      else x_with_key u key prio XErr (fun u h => x_mod u h v)
  | XFetch h => x_fetch u h
  | XFetchKey key prio =>                                        (* 1006-1035: no check of the priority *)
      x_with_key u key prio (fun _ => XNoEntry) x_fetch
  | XPacket ts len phv =>                                        (* MatchTableAbstract::apply_action *)
      match mu_step kd nb u (MLookup ts len (kb_key (kb_build fs) phv)) with
      | Some (u', MMiss) => Some (u', XMiss)
      | Some (u', MFound h (Some v)) => Some (u', XHit h v)
      | _ => None
      end
  end.

(** The results of a sequence of calls; the list stops short if the process dies. *)
Fixpoint x_run (u : munit V) (ops : list xop) : munit V * list xout :=
  match ops with
  | [] => (u, [])
  | o :: r => match x_step u o with
              | Some (u', x) => let '(u'', xs) := x_run u' r in (u'', x :: xs)
              | None => (u, [])
              end
  end.
End Calls.
Arguments xop : clear implicits.
Arguments xout : clear implicits.
