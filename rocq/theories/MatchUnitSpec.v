(** Specification of a match table's entry store, independent of handle managers, linked
    lists, caches and tries: a finite set of numbered slots holding (key, value, statistics). *)
From Coq Require Import List Arith NArith ZArith Bool.
From Verif Require Import Bits EntryListModel EntryListSpec MatchUnitModel.
Import ListNotations.

Section Spec.
Context {V : Type}.

Record sent := mkSent { s_key : mkey; s_val : V; s_ts : N; s_bytes : N; s_pkts : N }.

(** [slot_of t i]: the entry in slot [i]; [gen t i]: how many entries of slot [i] were deleted
    since the last reset; [ttl t i]: the timeout attached to slot [i]. *)
Record stab := mkTab { slot_of : nat -> option sent; gen : nat -> nat; ttl : nat -> N }.

Definition tab_empty : stab := mkTab (fun _ => None) (fun _ => 0) (fun _ => 0%N).

Definition set_slot (f : nat -> option sent) (i : nat) (o : option sent) : nat -> option sent :=
  fun j => if j =? i then o else f j.

(** A handle is an 8-bit generation number and a 24-bit slot number. *)
Definition h_slot (h : N) : nat := N.to_nat (h mod 2 ^ 24).
Definition h_gen (h : N) : N := (h / 2 ^ 24)%N.
Definition handle_of (t : stab) (i : nat) : N :=
  (N.of_nat (gen t i mod 256) * 2 ^ 24 + N.of_nat i)%N.

(** What a handle designates. *)
Inductive resolves (t : stab) (h : N) : mcode + nat * sent -> Prop :=
| rs_invalid : slot_of t (h_slot h) = None -> resolves t h (inl MInvalid)
| rs_expired : forall e, slot_of t (h_slot h) = Some e ->
    h_gen h <> N.of_nat (gen t (h_slot h) mod 256) -> resolves t h (inl MExpired)
| rs_ok : forall e, slot_of t (h_slot h) = Some e ->
    h_gen h = N.of_nat (gen t (h_slot h) mod 256) -> resolves t h (inr (h_slot h, e)).

(** Two keys the table considers the same. *)
Definition same_key (kd : mkind) (a b : mkey) : Prop :=
  match kd with
  | KExact => k_data a = k_data b
  | KLpm => firstn (k_plen a) (bits_of_bytes (k_data a)) =
            firstn (k_plen b) (bits_of_bytes (k_data b))
  | KTernary => k_data a = k_data b /\ k_mask a = k_mask b /\ k_prio a = k_prio b
  | KRange => k_data a = k_data b /\ k_mask a = k_mask b /\ k_prio a = k_prio b /\
              k_widths a = k_widths b
  end.

(** Entry [e] in slot [i] is preferred to [e'] in slot [i'] when both match. *)
Definition preferred (kd : mkind) (i : nat) (e : sent) (i' : nat) (e' : sent) : Prop :=
  match kd with
  | KExact => i = i'
  | KLpm => k_plen (s_key e') <= k_plen (s_key e)
  | KTernary | KRange =>
      (k_prio (s_key e) < k_prio (s_key e'))%Z \/
      (k_prio (s_key e) = k_prio (s_key e') /\ i <= i')
  end.

(** The slot chosen by a lookup. *)
Definition lookup_answer (kd : mkind) (nbytes : nat) (t : stab) (key : list N)
           (r : option (nat * sent)) : Prop :=
  match r with
  | None => forall i e, slot_of t i = Some e -> ~ key_matches kd nbytes (s_key e) key
  | Some (i, e) => slot_of t i = Some e /\ key_matches kd nbytes (s_key e) key /\
      forall i' e', slot_of t i' = Some e' -> key_matches kd nbytes (s_key e') key ->
                    preferred kd i e i' e'
  end.

(** [l] enumerates the live slots in increasing order. *)
Definition enumerates (t : stab) (l : list nat) : Prop :=
  Sorted.StronglySorted lt l /\ forall i, In i l <-> slot_of t i <> None.

(** An entry is timed out at [now]. *)
Definition aged (t : stab) (now : N) (i : nat) : Prop :=
  exists e, slot_of t i = Some e /\ (0 < ttl t i)%N /\ (s_ts e + ttl t i <= now)%N.

Variables (kd : mkind) (nbytes size : nat).

Inductive mspec_step : stab -> mop V -> mout V -> stab -> Prop :=
| ms_add_dup : forall t now k v i e,
    slot_of t i = Some e -> same_key kd (s_key e) k ->
    mspec_step t (MAdd now k v) (MCode MDuplicate) t
| ms_add_full : forall t now k v l,
    (forall i e, slot_of t i = Some e -> ~ same_key kd (s_key e) k) ->
    enumerates t l -> length l = size ->
    mspec_step t (MAdd now k v) (MCode MFull) t
| ms_add : forall t now k v i,
    (forall i' e, slot_of t i' = Some e -> ~ same_key kd (s_key e) k) ->
    i < size -> slot_of t i = None -> (forall j, j < i -> slot_of t j <> None) ->
    mspec_step t (MAdd now k v) (MHandle (handle_of t i))
      (mkTab (set_slot (slot_of t) i (Some (mkSent k v now 0 0))) (gen t) (ttl t))
| ms_del_err : forall t h c, resolves t h (inl c) -> mspec_step t (MDel h) (MCode c) t
| ms_del : forall t h i e, resolves t h (inr (i, e)) ->
    mspec_step t (MDel h) (MCode MSuccess)
      (mkTab (set_slot (slot_of t) i None)
             (fun j => if j =? i then S (gen t i) else gen t j) (ttl t))
| ms_mod_err : forall t h v c, resolves t h (inl c) -> mspec_step t (MMod h v) (MCode c) t
| ms_mod : forall t h v i e, resolves t h (inr (i, e)) ->
    mspec_step t (MMod h v) (MCode MSuccess)
      (mkTab (set_slot (slot_of t) i (Some (mkSent (s_key e) v (s_ts e) (s_bytes e) (s_pkts e))))
             (gen t) (ttl t))
| ms_get_err : forall t h c, resolves t h (inl c) -> mspec_step t (MGet h) (MCode c) t
| ms_get : forall t h i e, resolves t h (inr (i, e)) ->
    mspec_step t (MGet h) (MValue (Some (s_val e))) t
| ms_gete_err : forall t h c, resolves t h (inl c) -> mspec_step t (MGetEntry h) (MCode c) t
| ms_gete : forall t h i e, resolves t h (inr (i, e)) ->
    mspec_step t (MGetEntry h) (MEntry (s_key e) (Some (s_val e))) t
| ms_retr_no : forall t k, (forall i e, slot_of t i = Some e -> ~ same_key kd (s_key e) k) ->
    mspec_step t (MRetr k) (MCode MBadKey) t
| ms_retr : forall t k i e, slot_of t i = Some e -> same_key kd (s_key e) k ->
    mspec_step t (MRetr k) (MHandle (handle_of t i)) t
| ms_miss : forall t ts len key, lookup_answer kd nbytes t key None ->
    mspec_step t (MLookup ts len key) MMiss t
| ms_hit : forall t ts len key i e, lookup_answer kd nbytes t key (Some (i, e)) ->
    mspec_step t (MLookup ts len key) (MFound (handle_of t i) (Some (s_val e)))
      (mkTab (set_slot (slot_of t) i
               (Some (mkSent (s_key e) (s_val e) ts ((s_bytes e + len) mod 2 ^ 64)%N
                             ((s_pkts e + 1) mod 2 ^ 64)%N)))
             (gen t) (ttl t))
(* the next three only look at the slot number of the handle *)
| ms_ttl_err : forall t now h x, slot_of t (h_slot h) = None ->
    mspec_step t (MTtl now h x) (MCode MInvalid) t
| ms_ttl : forall t now h x e, slot_of t (h_slot h) = Some e ->
    mspec_step t (MTtl now h x) (MCode MSuccess)
      (mkTab (set_slot (slot_of t) (h_slot h)
               (Some (mkSent (s_key e) (s_val e) now (s_bytes e) (s_pkts e))))
             (gen t) (fun j => if j =? h_slot h then x else ttl t j))
| ms_query_err : forall t h, slot_of t (h_slot h) = None ->
    mspec_step t (MQuery h) (MCode MInvalid) t
| ms_query : forall t h e, slot_of t (h_slot h) = Some e ->
    mspec_step t (MQuery h) (MCnt (s_bytes e) (s_pkts e)) t
| ms_write_err : forall t h b p, slot_of t (h_slot h) = None ->
    mspec_step t (MWrite h b p) (MCode MInvalid) t
| ms_write : forall t h b p e, slot_of t (h_slot h) = Some e ->
    mspec_step t (MWrite h b p) (MCode MSuccess)
      (mkTab (set_slot (slot_of t) (h_slot h)
               (Some (mkSent (s_key e) (s_val e) (s_ts e) b p))) (gen t) (ttl t))
| ms_resetc : forall t,
    mspec_step t MResetC (MCode MSuccess)
      (mkTab (fun i => match slot_of t i with
                       | Some e => Some (mkSent (s_key e) (s_val e) (s_ts e) 0 0)
                       | None => None end) (gen t) (ttl t))
| ms_sweep : forall t now l l', enumerates t l ->
    Sorted.StronglySorted lt l' -> (forall i, In i l' <-> aged t now i) ->
    mspec_step t (MSweep now) (MHandles (map (handle_of t) l')) t
| ms_iter : forall t l, enumerates t l ->
    mspec_step t MIter (MHandles (map (handle_of t) l)) t
| ms_count : forall t l, enumerates t l -> mspec_step t MCount (MNum (length l)) t
| ms_valid_y : forall t h, slot_of t (h_slot h) <> None -> mspec_step t (MValid h) (MBool true) t
| ms_valid_n : forall t h, slot_of t (h_slot h) = None -> mspec_step t (MValid h) (MBool false) t
| ms_reset : forall t, mspec_step t MReset MDone tab_empty.

Inductive mspec_run : stab -> list (mop V) -> list (mout V) -> stab -> Prop :=
| mr_nil : forall t, mspec_run t [] [] t
| mr_cons : forall t o x t' os xs t'',
    mspec_step t o x t' -> mspec_run t' os xs t'' -> mspec_run t (o :: os) (x :: xs) t''.

(** Well-formed calls: keys come from the key builder, handles are 32-bit, the clock read by a
    sweep is not before any time recorded earlier ([last]). *)
Definition key_ok (k : mkey) : Prop :=
  bytes_ok (k_data k) /\ length (k_data k) = nbytes /\
  match kd with
  | KExact => True
  | KLpm => k_plen k <= 8 * nbytes
  | KTernary => length (k_mask k) = nbytes /\ bytes_ok (k_mask k) /\
      forall i, i < nbytes -> N.land (nth i (k_data k) 0%N) (nth i (k_mask k) 0%N) = nth i (k_data k) 0%N
  | KRange => length (k_mask k) = nbytes /\ bytes_ok (k_mask k) /\
      fold_right Nat.add 0 (k_widths k) <= nbytes /\
      forall i, fold_right Nat.add 0 (k_widths k) <= i < nbytes ->
        N.land (nth i (k_data k) 0%N) (nth i (k_mask k) 0%N) = nth i (k_data k) 0%N
  end.

Definition op_time (o : mop V) : N :=
  match o with MAdd now _ _ => now | MLookup ts _ _ => ts | MTtl now _ _ => now | _ => 0%N end.

Fixpoint ops_ok (last : N) (ops : list (mop V)) : Prop :=
  match ops with
  | [] => True
  | o :: r =>
      match o with
      | MAdd _ k _ | MRetr k => key_ok k
      | MLookup _ _ key => bytes_ok key /\ length key = nbytes
      | MDel h | MMod h _ | MGet h | MGetEntry h | MTtl _ h _ | MQuery h | MWrite h _ _
      | MValid h => (h < 2 ^ 32)%N
      | MSweep now => (last <= now)%N
      | _ => True
      end /\ ops_ok (N.max last (op_time o)) r
  end.

(** Well-formed schedules: as [ops_ok]. *)
Fixpoint evs_ok (last : N) (es : list (cev V)) : Prop :=
  match es with
  | [] => True
  | COp o :: r => ops_ok last [o] /\ evs_ok (N.max last (op_time o)) r
  | CStart _ ts _ key :: r => (bytes_ok key /\ length key = nbytes) /\ evs_ok (N.max last ts) r
  | CEnd _ :: r => evs_ok last r
  end.
End Spec.
Arguments sent : clear implicits.
Arguments stab : clear implicits.
