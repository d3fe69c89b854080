(** Specification of an action profile shared by several indirect tables: members, groups (sets
    of members) and, per table, the entries and the default, each of which designates a member or
    a group.  No reference counts: a member or group may go exactly when nothing designates it. *)
From Coq Require Import List Arith NArith ZArith Bool Sorted.
From Verif Require Import Bits EntryListModel MatchUnitModel MatchUnitSpec TableModel TableSpec ProfileModel.
Import ListNotations.

Definition upd {A} (f : nat -> option A) (i : nat) (o : option A) : nat -> option A :=
  fun j => if j =? i then o else f j.
Fixpoint replace {A} (l : list A) (j : nat) (x : A) : list A :=
  match l, j with [], _ => [] | _ :: r, O => x :: r | a :: r, S j => a :: replace r j x end.

Record wst := mkWst {
  m_of : nat -> option (nat * list N);       (* members: action and data *)
  g_of : nat -> option (list nat);           (* groups: increasing list of members *)
  tabs : list (stab idx * option idx) }.     (* tables: entries and default *)

Definition wst0 (n : nat) : wst := mkWst (fun _ => None) (fun _ => None) (repeat (tab_empty, None) n).

Definition set_m (s : wst) (m : nat) (o : option (nat * list N)) : wst :=
  mkWst (upd (m_of s) m o) (g_of s) (tabs s).
Definition set_g (s : wst) (g : nat) (o : option (list nat)) : wst :=
  mkWst (m_of s) (upd (g_of s) g o) (tabs s).
Definition set_t (s : wst) (j : nat) (t : stab idx * option idx) : wst :=
  mkWst (m_of s) (g_of s) (replace (tabs s) j t).

(** What still designates [x]. *)
Inductive designated (s : wst) (x : idx) : Prop :=
| by_entry : forall j t d i e, nth_error (tabs s) j = Some (t, d) ->
    slot_of t i = Some e -> s_val e = x -> designated s x
| by_default : forall j t, nth_error (tabs s) j = Some (t, Some x) -> designated s x
| by_group : forall m g l, x = Mbr m -> g_of s g = Some l -> In m l -> designated s x.

(** A target an entry may not be pointed at. *)
Inductive bad_target (s : wst) : idx -> pcode -> Prop :=
| bt_mbr : forall m, m_of s m = None -> bad_target s (Mbr m) PInvalidMbr
| bt_grp : forall g, g_of s g = None -> bad_target s (Grp g) PInvalidGrp
| bt_empty : forall g, g_of s g = Some [] -> bad_target s (Grp g) PEmptyGrp.
Inductive good_target (s : wst) : idx -> Prop :=
| gt_mbr : forall m a, m_of s m = Some a -> good_target s (Mbr m)
| gt_grp : forall g l, g_of s g = Some l -> l <> [] -> good_target s (Grp g).
Definition exists_target (s : wst) (x : idx) : Prop :=
  match x with Mbr m => m_of s m <> None | Grp g => g_of s g <> None end.

(** The member that serves a packet whose selector hash is [h]. *)
Definition pick (l : list nat) (hash : option N) : nat :=
  let h := match hash with None => 0%N | Some h => (h mod 2 ^ 32)%N end in
  nth (N.to_nat (h mod N.of_nat (length l))) l 0.
Inductive serves (s : wst) (hash : option N) : idx -> nat * list N -> Prop :=
| sv_mbr : forall m a, m_of s m = Some a -> serves s hash (Mbr m) a
| sv_grp : forall g l a, g_of s g = Some l -> l <> [] -> m_of s (pick l hash) = Some a ->
    serves s hash (Grp g) a.

Section Spec.
Variables (np : nat -> nat) (cs : list itcfg).

Inductive pspec_step (s : wst) : pop -> pout -> wst -> Prop :=
| ps_addm_bad : forall fn data, length data <> np fn ->
    pspec_step s (PAddMember fn data) (PErr PBadData) s
| ps_addm_full : forall fn data, length data = np fn ->
    (forall k, (N.of_nat k < 2 ^ 24)%N -> m_of s k <> None) ->
    pspec_step s (PAddMember fn data) PExhausted s
| ps_addm : forall fn data m, length data = np fn ->
    m_of s m = None -> (forall k, k < m -> m_of s k <> None) -> (N.of_nat m < 2 ^ 24)%N ->
    pspec_step s (PAddMember fn data) (PNewMbr m) (set_m s m (Some (fn, data)))
| ps_delm_bad : forall m, m_of s m = None -> pspec_step s (PDelMember m) (PErr PInvalidMbr) s
| ps_delm_used : forall m, m_of s m <> None -> designated s (Mbr m) ->
    pspec_step s (PDelMember m) (PErr PMbrUsed) s
| ps_delm : forall m, m_of s m <> None -> ~ designated s (Mbr m) ->
    pspec_step s (PDelMember m) POk (set_m s m None)
| ps_modm_data : forall m fn data, length data <> np fn ->
    pspec_step s (PModMember m fn data) (PErr PBadData) s
| ps_modm_bad : forall m fn data, length data = np fn -> m_of s m = None ->
    pspec_step s (PModMember m fn data) (PErr PInvalidMbr) s
| ps_modm : forall m fn data, length data = np fn -> m_of s m <> None ->
    pspec_step s (PModMember m fn data) POk (set_m s m (Some (fn, data)))
| ps_addg_full : (forall k, (N.of_nat k < 2 ^ 24)%N -> g_of s k <> None) ->
    pspec_step s PAddGroup PExhausted s
| ps_addg : forall g, g_of s g = None -> (forall k, k < g -> g_of s k <> None) ->
    (N.of_nat g < 2 ^ 24)%N ->
    pspec_step s PAddGroup (PNewGrp g) (set_g s g (Some []))
| ps_delg_bad : forall g, g_of s g = None -> pspec_step s (PDelGroup g) (PErr PInvalidGrp) s
| ps_delg_used : forall g, g_of s g <> None -> designated s (Grp g) ->
    pspec_step s (PDelGroup g) (PErr PGrpUsed) s
| ps_delg : forall g, g_of s g <> None -> ~ designated s (Grp g) ->
    pspec_step s (PDelGroup g) POk (set_g s g None)
| ps_join_mbr : forall m g, m_of s m = None -> pspec_step s (PJoin m g) (PErr PInvalidMbr) s
| ps_join_grp : forall m g, m_of s m <> None -> g_of s g = None ->
    pspec_step s (PJoin m g) (PErr PInvalidGrp) s
| ps_join_in : forall m g l, m_of s m <> None -> g_of s g = Some l -> In m l ->
    pspec_step s (PJoin m g) (PErr PAlreadyIn) s
| ps_join : forall m g l l', m_of s m <> None -> g_of s g = Some l -> ~ In m l ->
    StronglySorted lt l' -> (forall x, In x l' <-> x = m \/ In x l) ->
    pspec_step s (PJoin m g) POk (set_g s g (Some l'))
| ps_leave_mbr : forall m g, m_of s m = None -> pspec_step s (PLeave m g) (PErr PInvalidMbr) s
| ps_leave_grp : forall m g, m_of s m <> None -> g_of s g = None ->
    pspec_step s (PLeave m g) (PErr PInvalidGrp) s
| ps_leave_out : forall m g l, m_of s m <> None -> g_of s g = Some l -> ~ In m l ->
    pspec_step s (PLeave m g) (PErr PNotIn) s
| ps_leave : forall m g l l', m_of s m <> None -> g_of s g = Some l -> In m l ->
    StronglySorted lt l' -> (forall x, In x l' <-> x <> m /\ In x l) ->
    pspec_step s (PLeave m g) POk (set_g s g (Some l'))
| ps_getm_bad : forall m, m_of s m = None -> pspec_step s (PGetMember m) (PErr PInvalidMbr) s
| ps_getm : forall m fn data, m_of s m = Some (fn, data) ->
    pspec_step s (PGetMember m) (PMember fn data) s
| ps_getg_bad : forall g, g_of s g = None -> pspec_step s (PGetGroup g) (PErr PInvalidGrp) s
| ps_getg : forall g l, g_of s g = Some l -> pspec_step s (PGetGroup g) (PGroup l) s
| ps_sizeg_bad : forall g, g_of s g = None -> pspec_step s (PGroupSize g) (PErr PInvalidGrp) s
| ps_sizeg : forall g l, g_of s g = Some l -> pspec_step s (PGroupSize g) (PNum (length l)) s
| ps_members : forall l, StronglySorted lt (map fst l) ->
    (forall m a, In (m, a) l <-> m_of s m = Some a) -> pspec_step s PGetMembers (PMembers l) s
| ps_groups : forall l, StronglySorted lt (map fst l) ->
    (forall g a, In (g, a) l <-> g_of s g = Some a) -> pspec_step s PGetGroups (PGroups l) s
| ps_nm : forall l, NoDup l -> (forall m, In m l <-> m_of s m <> None) ->
    pspec_step s PNumMembers (PNum (length l)) s
| ps_ng : forall l, NoDup l -> (forall g, In g l <-> g_of s g <> None) ->
    pspec_step s PNumGroups (PNum (length l)) s
| ps_reset : pspec_step s PReset POk (mkWst (fun _ => None) (fun _ => None) (tabs s))
(* tables; entry-level outcomes are those of the table's entry store (MatchUnitSpec.v) *)
| is_add_bad : forall j now k x e, bad_target s x e ->
    pspec_step s (IAdd j now k x) (PErr e) s
| is_add_key : forall j now x, good_target s x ->
    pspec_step s (IAdd j now None x) (PErr PBadKey) s
| is_add_fail : forall j c t d now k x e, nth_error cs j = Some c -> nth_error (tabs s) j = Some (t, d) ->
    good_target s x -> mspec_step (ic_kd c) (ic_nb c) (ic_size c) t (MAdd now k x) (MCode e) t ->
    pspec_step s (IAdd j now (Some k) x) (PErr (PUnit e)) s
| is_add : forall j c t d now k x h t', nth_error cs j = Some c -> nth_error (tabs s) j = Some (t, d) ->
    good_target s x -> mspec_step (ic_kd c) (ic_nb c) (ic_size c) t (MAdd now k x) (MHandle h) t' ->
    pspec_step s (IAdd j now (Some k) x) (PHandle h) (set_t s j (t', d))
| is_del_bad : forall j t d h e, nth_error (tabs s) j = Some (t, d) -> resolves t h (inl e) ->
    pspec_step s (IDel j h) (PErr (PUnit e)) s
| is_del : forall j c t d h t', nth_error cs j = Some c -> nth_error (tabs s) j = Some (t, d) ->
    mspec_step (ic_kd c) (ic_nb c) (ic_size c) t (MDel h) (MCode MSuccess) t' ->
    pspec_step s (IDel j h) POk (set_t s j (t', d))
| is_mod_bad : forall j t d h x e, nth_error (tabs s) j = Some (t, d) -> resolves t h (inl e) ->
    pspec_step s (IMod j h x) (PErr (PUnit e)) s
| is_mod_target : forall j t d h x i en e, nth_error (tabs s) j = Some (t, d) ->
    resolves t h (inr (i, en)) -> bad_target s x e ->
    pspec_step s (IMod j h x) (PErr e) s
| is_mod : forall j c t d h x t', nth_error cs j = Some c -> nth_error (tabs s) j = Some (t, d) ->
    good_target s x ->
    mspec_step (ic_kd c) (ic_nb c) (ic_size c) t (MMod h x) (MCode MSuccess) t' ->
    pspec_step s (IMod j h x) POk (set_t s j (t', d))
| is_setd_const : forall j c x, nth_error cs j = Some c -> c_const_entry (ic_cfg c) = true ->
    pspec_step s (ISetDefault j x) (PErr PConstDefault) s
| is_setd_mbr : forall j c m, nth_error cs j = Some c -> c_const_entry (ic_cfg c) = false ->
    m_of s m = None -> pspec_step s (ISetDefault j (Mbr m)) (PErr PInvalidMbr) s
| is_setd_grp : forall j c g, nth_error cs j = Some c -> c_const_entry (ic_cfg c) = false ->
    g_of s g = None -> pspec_step s (ISetDefault j (Grp g)) (PErr PInvalidGrp) s
| is_setd : forall j c t d x, nth_error cs j = Some c -> c_const_entry (ic_cfg c) = false ->
    nth_error (tabs s) j = Some (t, d) -> exists_target s x ->
    pspec_step s (ISetDefault j x) POk (set_t s j (t, Some x))
| is_resetd : forall j t d, nth_error (tabs s) j = Some (t, d) ->
    pspec_step s (IResetDefault j) POk (set_t s j (t, None))
| is_get_bad : forall j t d h e, nth_error (tabs s) j = Some (t, d) -> resolves t h (inl e) ->
    pspec_step s (IGet j h) (PErr (PUnit e)) s
| is_get : forall j t d h i e, nth_error (tabs s) j = Some (t, d) -> resolves t h (inr (i, e)) ->
    pspec_step s (IGet j h) (PIndex (s_val e)) s
| is_getd_no : forall j t, nth_error (tabs s) j = Some (t, None) ->
    pspec_step s (IGetDefault j) (PErr PNoDefault) s
| is_getd : forall j t x, nth_error (tabs s) j = Some (t, Some x) ->
    pspec_step s (IGetDefault j) (PIndex x) s
(* packets *)
| is_miss : forall j c t ts len key hash,
    nth_error cs j = Some c -> nth_error (tabs s) j = Some (t, None) ->
    lookup_answer (ic_kd c) (ic_nb c) t key None ->
    pspec_step s (IApply j ts len key hash)
      (PApplied None (a_fn (c_default (ic_cfg c))) (a_data (c_default (ic_cfg c)))
                (a_next (c_default (ic_cfg c)))) s
| is_miss_def : forall j c t ts len key hash x fn data nn,
    nth_error cs j = Some c -> nth_error (tabs s) j = Some (t, Some x) ->
    lookup_answer (ic_kd c) (ic_nb c) t key None ->
    serves s hash x (fn, data) -> node_on_miss (ic_cfg c) fn = Some nn ->
    pspec_step s (IApply j ts len key hash) (PApplied None (Some fn) data nn) s
| is_miss_empty : forall j c t ts len key hash g,
    nth_error cs j = Some c -> nth_error (tabs s) j = Some (t, Some (Grp g)) ->
    lookup_answer (ic_kd c) (ic_nb c) t key None -> g_of s g = Some [] ->
    pspec_step s (IApply j ts len key hash) (PEmptyGroup None) s
| is_hit : forall j c t d ts len key hash i e fn data nn t' h,
    nth_error cs j = Some c -> nth_error (tabs s) j = Some (t, d) ->
    lookup_answer (ic_kd c) (ic_nb c) t key (Some (i, e)) ->
    serves s hash (s_val e) (fn, data) -> node_on_hit (ic_cfg c) fn = Some nn ->
    mspec_step (ic_kd c) (ic_nb c) (ic_size c) t (MLookup ts len key) (MFound h (Some (s_val e))) t' ->
    pspec_step s (IApply j ts len key hash) (PApplied (Some (N.of_nat i)) (Some fn) data nn)
      (set_t s j (t', d))
| is_hit_empty : forall j c t d ts len key hash i e g t' h,
    nth_error cs j = Some c -> nth_error (tabs s) j = Some (t, d) ->
    lookup_answer (ic_kd c) (ic_nb c) t key (Some (i, e)) ->
    s_val e = Grp g -> g_of s g = Some [] ->
    mspec_step (ic_kd c) (ic_nb c) (ic_size c) t (MLookup ts len key) (MFound h (Some (s_val e))) t' ->
    pspec_step s (IApply j ts len key hash) (PEmptyGroup (Some (N.of_nat i))) (set_t s j (t', d))
| is_clear : forall j t d rd, nth_error (tabs s) j = Some (t, d) ->
    pspec_step s (IClear j rd) POk (set_t s j (tab_empty, if rd then None else d)).

(** The calls after which the code's own books are off (findings, see ProfileProps.v): an add
    refused by the entry store, a modify refused because of its target, and the two bulk resets. *)
Definition dirty (o : pop) (x : pout) : Prop :=
  match o, x with
  | IAdd _ _ _ _, PErr PBadKey | IAdd _ _ _ _, PErr (PUnit _) => True
  | IMod _ _ _, PErr PInvalidMbr | IMod _ _ _, PErr PInvalidGrp | IMod _ _ _, PErr PEmptyGrp => True
  | IClear _ _, _ | PReset, _ => True
  | _, _ => False
  end.

(** Every call up to and including the first dirty one follows the specification; the final state
    is [None] when there was one. *)
Inductive pspec_run : wst -> list pop -> list pout -> option wst -> Prop :=
| pr_nil : forall s, pspec_run s [] [] (Some s)
| pr_cons : forall s o x s' os xs r, ~ dirty o x -> pspec_step s o x s' ->
    pspec_run s' os xs r -> pspec_run s (o :: os) (x :: xs) r
| pr_dirty : forall s o x s' os xs, dirty o x -> pspec_step s o x s' ->
    pspec_run s (o :: os) (x :: xs) None.

(** Well-formed calls. *)
Definition pop_ok (o : pop) : Prop :=
  match o with
  | IAdd j _ k _ => exists c, nth_error cs j = Some c /\
      forall k', k = Some k' -> key_ok (ic_kd c) (ic_nb c) k'
  | IApply j _ _ key _ => exists c, nth_error cs j = Some c /\ bytes_ok key /\ length key = ic_nb c
  | IDel j h | IMod j h _ | IGet j h => j < length cs /\ (h < 2 ^ 32)%N
  | ISetDefault j _ | IResetDefault j | IGetDefault j | IClear j _ => j < length cs
  | _ => True
  end.

(** Static assumptions: table sizes that fit the 24-bit slot number, few enough entries overall
    for 32-bit reference counts, and a next node for every action. *)
Definition cfg_ok : Prop :=
  Forall (fun c => (N.of_nat (ic_size c) <= 2 ^ 24)%N /\
                   forall fn, node_on_hit (ic_cfg c) fn <> None /\ node_on_miss (ic_cfg c) fn <> None) cs /\
  (N.of_nat (list_sum (map (fun c => S (ic_size c)) cs)) + 2 ^ 24 + 1 < 2 ^ 32)%N.
End Spec.
