(** Specification of a direct match table, purely in terms of the calls made, their results, the
    match parameters given to the API and the field values of the packet. *)
From Coq Require Import List Arith NArith ZArith Bool Sorted.
From Verif Require Import Bits Bytes EntryListModel KeyBuilderModel KeyBuilderSpec TableModel MatchUnitModel.
Import ListNotations.

(** The rows a client of the API believes to be installed, from its calls and their results. *)
Record row := mkRow { r_handle : N; r_params : list param; r_prio : Z; r_fn : nat; r_data : list N;
  r_bytes : N; r_pkts : N }.

Definition put (f : nat -> option row) (i : nat) (o : option row) : nat -> option row :=
  fun j => if j =? i then o else f j.

(** Handles: the slot number is in the low 24 bits. *)
Definition slot_num (h : N) : nat := N.to_nat (h mod 2 ^ 24).

Definition ok_code (x : tout) : bool := match x with TCode (TCUnit MSuccess) => true | _ => false end.

Definition set_counts (r : row) (b p : N) : row :=
  mkRow (r_handle r) (r_params r) (r_prio r) (r_fn r) (r_data r) b p.

(** Each row counts the packets and bytes that hit it, in 64-bit counters. *)
Definition row_step (s : nat -> option row) (o : top) (x : tout) : nat -> option row :=
  match o, x with
  | TAdd _ ps prio fn data, THandle h => put s (slot_num h) (Some (mkRow h ps prio fn data 0 0))
  | TDel h, _ => if ok_code x then put s (slot_num h) None else s
  | TMod h fn data, _ =>
      if ok_code x
      then put s (slot_num h)
             (match s (slot_num h) with
              | Some r => Some (mkRow (r_handle r) (r_params r) (r_prio r) fn data (r_bytes r) (r_pkts r)) | None => None end)
      else s
  | TApply _ len _, TApplied (Some i) _ _ _ =>
      put s (N.to_nat i)
        (match s (N.to_nat i) with
         | Some r => Some (set_counts r ((r_bytes r + len) mod 2 ^ 64) ((r_pkts r + 1) mod 2 ^ 64))
         | None => None end)
  | TWrite h b p, _ =>
      if ok_code x
      then put s (slot_num h)
             (match s (slot_num h) with Some r => Some (set_counts r b p) | None => None end)
      else s
  | TResetC, _ =>
      if ok_code x
      then fun i => match s i with Some r => Some (set_counts r 0 0) | None => None end
      else s
  | TClear _, _ => fun _ => None
  | _, _ => s
  end.

(** The default action and data a client believes to have set; [None]: the initial default. *)
Definition dflt_step (d : option (nat * list N)) (o : top) (x : tout) : option (nat * list N) :=
  match o with
  | TSetDefault fn data => if ok_code x then Some (fn, data) else d
  | TResetDefault | TClear true => None
  | _ => d
  end.

Definition imm_step (im : bool) (o : top) : bool := match o with TSetImmutable => true | _ => im end.

Definition no_rows : nat -> option row := fun _ => None.

Section Spec.
Variables (kd : mkind) (c : tcfg) (fs : list kfield) (size : nat).

(** The packet satisfies every parameter of the row. *)
Definition row_matches (r : row) (phv : nat -> pfield) : Prop :=
  Forall2 (fun f p => param_holds f p phv) fs (r_params r).

(** The prefix length of the (single) prefix parameter of a row. *)
Definition prefix_len (r : row) : Z :=
  fold_right (fun x acc => if is_lpm (fst x) then p_plen (snd x) else acc) 0%Z
             (combine fs (r_params r)).

(** Row [r] in slot [i] wins over [r'] in slot [i'] when both match: longest prefix in an LPM
    table, lowest priority number then lowest slot in ternary and range tables; in an exact table
    two different rows never match the same packet. *)
Definition wins (i : nat) (r : row) (i' : nat) (r' : row) : Prop :=
  match kd with
  | KExact => i = i'
  | KLpm => (prefix_len r' <= prefix_len r)%Z
  | KTernary | KRange => (r_prio r < r_prio r')%Z \/ (r_prio r = r_prio r' /\ i <= i')
  end.

(** The next node: the one configured for hits (for misses), or else the one of the action. *)
Definition node_on_hit (fn : nat) : option (option nat) :=
  match c_hit c with Some n => Some n | None => c_next c fn end.
Definition node_on_miss (fn : nat) : option (option nat) :=
  match c_miss c with Some n => Some n | None => c_next c fn end.

(** What applying the table to a packet must do. *)
Definition apply_spec (rows : nat -> option row) (d : option (nat * list N)) (phv : nat -> pfield)
    (x : tout) : Prop :=
  (exists i r nn, rows i = Some r /\ row_matches r phv /\
     (forall i' r', rows i' = Some r' -> row_matches r' phv -> wins i r i' r') /\
     node_on_hit (r_fn r) = Some nn /\
     x = TApplied (Some (N.of_nat i)) (Some (r_fn r)) (r_data r) nn)
  \/
  ((forall i r, rows i = Some r -> ~ row_matches r phv) /\
   match d with
   | Some (fn, data) => exists nn, node_on_miss fn = Some nn /\
       x = TApplied None (Some fn) data nn
   | None => x = TApplied None (a_fn (c_default c)) (a_data (c_default c)) (a_next (c_default c))
   end).

(** What a client reads back for a row: its parameters in canonical form. *)
Definition reads_back (r : row) (e : tentry) : Prop :=
  te_handle e = r_handle r /\
  te_params e = map (fun x => canon kd (fst x) (snd x)) (combine fs (r_params r)) /\
  te_prio e = match kd with KExact | KLpm => (-1)%Z | _ => r_prio r end /\
  a_fn (te_act e) = Some (r_fn r) /\ a_data (te_act e) = r_data r.

(** [l] lists the occupied slots in order. *)
Definition live_rows (rows : nat -> option row) (l : list nat) : Prop :=
  StronglySorted lt l /\ forall i, In i l <-> rows i <> None.

(** Priorities only tell rows apart in ternary and range tables. *)
Definition prio_same (a b : Z) : Prop :=
  match kd with KExact | KLpm => True | _ => a = b end.

(** Row [r] covers exactly the packets that parameters [ps] describe. *)
Definition covers_same (r : row) (ps : list param) : Prop :=
  forall phv, phv_ok fs phv ->
    (row_matches r phv <-> Forall2 (fun f p => param_holds f p phv) fs ps).

(** The result [x] of call [o], when the rows are [rows], the default [d] and [im] tells whether
    the table was made immutable. *)
Definition call_spec (rows : nat -> option row) (d : option (nat * list N)) (im : bool)
    (o : top) (x : tout) : Prop :=
  match o with
  | TAdd _ ps prio fn data =>
      if im then x = TCode TCImmutable
      else if negb (length data =? c_params c fn) then x = TCode TCBadData
      else if key_bytes fs =? 0 then x = TCode TCNoKey
      else (~ Forall2 param_acceptable fs ps /\ x = TCode TCBadKey) \/
           (Forall2 param_acceptable fs ps /\
             ((x = TCode (TCUnit MDuplicate) /\
               exists i r, rows i = Some r /\ covers_same r ps /\ prio_same (r_prio r) prio) \/
              (x = TCode (TCUnit MFull) /\ exists l, live_rows rows l /\ length l = size) \/
              (exists h, x = THandle h /\ slot_num h < size /\ rows (slot_num h) = None /\
               forall i r, rows i = Some r -> r_params r = ps -> ~ prio_same (r_prio r) prio)))
  | TDel h =>
      if im then x = TCode TCImmutable
      else match rows (slot_num h) with
           | None => x = TCode (TCUnit MInvalid)
           | Some r => x = TCode (TCUnit (if (h =? r_handle r)%N then MSuccess else MExpired))
           end
  | TMod h fn data =>
      if im then x = TCode TCImmutable
      else if negb (length data =? c_params c fn) then x = TCode TCBadData
      else match rows (slot_num h) with
           | None => x = TCode (TCUnit MInvalid)
           | Some r => x = TCode (TCUnit (if (h =? r_handle r)%N then MSuccess else MExpired))
           end
  | TSetDefault fn data =>
      if c_const_entry c then x = TCode TCConstEntry
      else if match c_const_action c with Some f => negb (f =? fn) | None => false end
      then x = TCode TCConstAction
      else if negb (length data =? c_params c fn) then x = TCode TCBadData
      else x = TCode (TCUnit MSuccess)
  | TGetDefault =>
      match d with
      | Some (fn, data) => x = TDefault fn data
      | None => match a_fn (c_default c) with
                | Some fn => x = TDefault fn (a_data (c_default c))
                | None => x = TCode TCNoDefault
                end
      end
  | TGet h =>
      match rows (slot_num h) with
      | None => x = TCode (TCUnit MInvalid)
      | Some r => if (h =? r_handle r)%N then exists e, x = TEntry e /\ reads_back r e
                  else x = TCode (TCUnit MExpired)
      end
  | TGetKey ps prio =>
      (~ Forall2 param_acceptable fs ps /\ x = TCode TCBadKey) \/
      (Forall2 param_acceptable fs ps /\
       ((x = TCode TCBadKey /\
         forall i r, rows i = Some r -> r_params r = ps -> ~ prio_same (r_prio r) prio) \/
        exists e r, x = TEntry e /\ rows (slot_num (te_handle e)) = Some r /\ reads_back r e /\
          covers_same r ps /\ prio_same (r_prio r) prio))
  | TGetAll =>
      exists l, x = TEntries l /\ StronglySorted lt (map (fun e => slot_num (te_handle e)) l) /\
        (forall i, rows i <> None -> In i (map (fun e => slot_num (te_handle e)) l)) /\
        forall e, In e l -> exists r, rows (slot_num (te_handle e)) = Some r /\ reads_back r e
  | TApply _ _ phv => apply_spec rows d phv x
  (* counters are addressed by slot number: the generation of the handle is not looked at *)
  | TQuery h =>
      if c_counters c
      then match rows (slot_num h) with
           | None => x = TCode (TCUnit MInvalid)
           | Some r => x = TCnt (r_bytes r) (r_pkts r)
           end
      else x = TCode TCCountersDisabled
  | TWrite h b p =>
      if c_counters c
      then match rows (slot_num h) with
           | None => x = TCode (TCUnit MInvalid)
           | Some r => x = TCode (TCUnit MSuccess)
           end
      else x = TCode TCCountersDisabled
  | TResetC => x = if c_counters c then TCode (TCUnit MSuccess) else TCode TCCountersDisabled
  | TTtl _ h _ =>
      if c_ageing c
      then match rows (slot_num h) with
           | None => x = TCode (TCUnit MInvalid)
           | Some r => x = TCode (TCUnit MSuccess)
           end
      else x = TCode TCAgeingDisabled
  | TSweep _ => exists l, x = THandles l /\
      forall h, In h l -> exists r, rows (slot_num h) = Some r /\ h = r_handle r
  | TCount => exists l, x = TNum (length l) /\ live_rows rows l
  | _ => True
  end.

(** Every call of the history answers as it should. *)
Fixpoint history_ok (rows : nat -> option row) (d : option (nat * list N)) (im : bool)
    (ops : list top) (outs : list tout) : Prop :=
  match ops, outs with
  | [], [] => True
  | o :: os, x :: xs => call_spec rows d im o x /\
      history_ok (row_step rows o x) (dflt_step d o x) (imm_step im o) os xs
  | _, _ => False
  end.

(** Well-formed calls: C++ typing of the arguments, packets whose fields fit their declared
    width, actions known to the table, clocks that do not go back. *)
Definition top_time (o : top) : N :=
  match o with TAdd now _ _ _ _ => now | TApply ts _ _ => ts | TTtl now _ _ => now | _ => 0%N end.
Fixpoint tops_ok (last : N) (ops : list top) : Prop :=
  match ops with
  | [] => True
  | o :: r =>
      match o with
      | TAdd _ ps _ fn _ => Forall param_typed ps /\ node_on_hit fn <> None
      | TGetKey ps _ => Forall param_typed ps
      | TMod h fn _ => (h < 2 ^ 32)%N /\ node_on_hit fn <> None
      | TSetDefault fn _ => node_on_miss fn <> None
      | TDel h | TGet h | TQuery h | TWrite h _ _ | TTtl _ h _ => (h < 2 ^ 32)%N
      | TApply _ _ phv => phv_ok fs phv
      | TSweep now => (last <= now)%N
      | _ => True
      end /\ tops_ok (N.max last (top_time o)) r
  end.
End Spec.
