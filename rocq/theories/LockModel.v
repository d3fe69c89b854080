(** Model of the locks of match tables and action profiles: which shared mutexes each call takes,
    in which order and mode, and what it does while it holds them (src/bm_sim/match_tables.cpp:
    84-131, 650-1160, include/bm/bm_sim/match_tables.h:196-280, src/bm_sim/action_profile.cpp:
    160-536, include/bm/bm_sim/action_profile.h:255-290).
    Every call of ProfileModel.v is cut into the reads and writes of shared state that make it up,
    and any number of threads run their calls interleaved at that grain.
    Simplifications: a table's own entry store is read or written by one step (its counters and
    timestamps are atomics and the lookup cache has its own mutex: C04, C14); loops that walk one
    profile are one step; logging after the locks are released is left out.  A step that would be
    undefined or trip an assertion kills the process. *)
From Coq Require Import List Arith NArith ZArith Bool.
From Verif Require Import Base HandleMgrModel EntryListModel MatchUnitModel TableModel ProfileModel.
Import ListNotations.

(** The mutexes: MatchTableAbstract::t_mutex (match_tables.h:280) of each table and
    ActionProfile::t_mutex (action_profile.h:289) *)
Inductive mutex := MT (j : nat) | MP.
Definition mutex_eqb (a b : mutex) : bool :=
  match a, b with MT i, MT j => i =? j | MP, MP => true | _, _ => false end.
(** std::shared_lock (false) or std::unique_lock (true), match_tables.h:198-209,
    action_profile.h:160-161 *)
Definition lk : Type := mutex * bool.

(** ** The automatic variables of a call *)
Record loc := mkLoc {
  l_x : option idx;      (* the index found, or the default *)
  l_m : nat;             (* the member or group handle *)
  l_hit : option N;      (* the entry that was hit *)
  l_l : list nat;        (* the group walked *)
  l_out : option pout }. (* the result, once it is known *)
Definition l0 : loc := mkLoc None 0 None [] None.
Definition fin (l : loc) (x : pout) : loc := mkLoc (l_x l) (l_m l) (l_hit l) (l_l l) (Some x).
Definition with_x (l : loc) (x : option idx) : loc := mkLoc x (l_m l) (l_hit l) (l_l l) (l_out l).
Definition with_m (l : loc) (m : nat) : loc := mkLoc (l_x l) m (l_hit l) (l_l l) (l_out l).
Definition with_l (l : loc) (g : list nat) : loc := mkLoc (l_x l) (l_m l) (l_hit l) g (l_out l).

(** ** Steps on shared state *)
Inductive act :=
| AL (f : loc -> option loc)                               (* no shared state *)
| ARD (f : loc -> option idx -> option loc)                (* reads default_set, default_index *)
| ART (f : loc -> munit idx -> option loc)                 (* reads the entry store *)
| ALU (f : loc -> munit idx -> option (munit idx * loc))   (* a lookup: also updates hit counters,
                                                              timestamps and the cache *)
| AWD (f : loc -> option (option idx * loc))               (* writes default_set, default_index *)
| AWT (f : loc -> munit idx -> option (munit idx * loc))   (* writes the entry store *)
| ARP (f : loc -> prof -> option loc)                      (* reads the profile *)
| AWP (f : loc -> prof -> option (prof * loc)).            (* writes the profile *)

(** One step of a call on table [j]; the remaining steps are skipped once the result is known. *)
Definition act_run (j : nat) (a : act) (w : world) (l : loc) : option (world * loc) :=
  match l_out l with
  | Some _ => Some (w, l)
  | None =>
      let tab (f : itab -> option (world * loc)) :=
        match nth_error (w_tabs w) j with Some t => f t | None => None end in
      match a with
      | AL f => option_map (pair w) (f l)
      | ARD f => tab (fun t => option_map (pair w) (f l (it_def t)))
      | ART f => tab (fun t => option_map (pair w) (f l (it_unit t)))
      | ALU f | AWT f =>
          tab (fun t => match f l (it_unit t) with
                        | Some (u, l') => Some (set_tab w j (w_prof w) (mkIT u (it_def t)), l')
                        | None => None end)
      | AWD f =>
          tab (fun t => match f l with
                        | Some (d, l') => Some (set_tab w j (w_prof w) (mkIT (it_unit t) d), l')
                        | None => None end)
      | ARP f => option_map (pair w) (f l (w_prof w))
      | AWP f => match f l (w_prof w) with
                 | Some (p, l') => Some (mkW p (w_tabs w), l') | None => None end
      end
  end.

(** ** The bodies *)
Definition done (x : pout) (l : loc) : option loc := Some (fin l x).
(** [if (!is_valid_mbr(mbr)) return INVALID_MBR_HANDLE] and the like *)
Definition chk_mbr (m : nat) (l : loc) (p : prof) : option loc :=
  match hm_valid_handle (p_mh p) m with
  | None => None | Some true => Some l | Some false => done (PErr PInvalidMbr) l end.
Definition chk_grp (g : nat) (l : loc) (p : prof) : option loc :=
  match hm_valid_handle (p_gh p) g with
  | None => None | Some true => Some l | Some false => done (PErr PInvalidGrp) l end.
(** is_valid_mbr, is_valid_grp and group_is_empty: add_entry 730, add_entry_ws 1007-1011 *)
Definition chk_target (x : idx) (l : loc) (p : prof) : option loc :=
  match check_idx p x with
  | None => None | Some (Some e) => done (PErr e) l | Some None => Some l end.
(** set_default_member 823, set_default_group 1079: emptiness is not looked at *)
Definition chk_exists (x : idx) (l : loc) (p : prof) : option loc :=
  match valid_idx p x with
  | None => None | Some (Some e) => done (PErr e) l | Some None => Some l end.
Definition upd_prof (f : prof -> option prof) (l : loc) (p : prof) : option (prof * loc) :=
  match f p with Some p' => Some (p', l) | None => None end.
Definition upd_prof_done (f : prof -> option prof) (x : pout) (l : loc) (p : prof)
  : option (prof * loc) :=
  match f p with Some p' => Some (p', fin l x) | None => None end.
(** ref_count_decrease of the index read before *)
Definition dec_x (l : loc) (p : prof) : option (prof * loc) :=
  match drop_default p (l_x l) with Some p' => Some (p', l) | None => None end.

Section Code.
Variables (np : nat -> nat) (cs : list itcfg).

(** add_member 193-225, entries_insert 182-191 *)
Definition c_add_member (fn : nat) (data : list N) : list act :=
  [ AWP (fun l p => match hm_get_handle (p_mh p) with
                    | None => None
                    | Some (mh, m) =>
                        if (index_limit <=? N.of_nat m)%N then Some (p, fin l PExhausted)
                        else Some (mkProf mh (p_gh p) (p_ents p) (p_mc p) (p_gc p) (p_groups p)
                                          (p_nm p) (p_ng p), with_m l m)
                    end);
    AWP (fun l => upd_prof (fun p => match vec_put (p_ents p) (l_m l) (fn, data) with
           | Some es => Some (mkProf (p_mh p) (p_gh p) es (p_mc p) (p_gc p) (p_groups p)
                                     (p_nm p) (p_ng p)) | None => None end) l);
    AWP (fun l => upd_prof (fun p => match vec_put (p_mc p) (l_m l) 0%N with
           | Some mc => Some (with_counts p mc (p_gc p)) | None => None end) l);
    AWP (fun l => upd_prof_done (fun p => Some (mkProf (p_mh p) (p_gh p) (p_ents p) (p_mc p)
           (p_gc p) (p_groups p) (S (p_nm p)) (p_ng p))) (PNewMbr (l_m l)) l) ].

(** delete_member 227-255 *)
Definition c_del_member (m : nat) : list act :=
  [ ARP (chk_mbr m);
    ARP (fun l p => match nth_error (p_mc p) m with
                    | None => None
                    | Some c => if (0 <? c)%N then done (PErr PMbrUsed) l else Some l end);
    AWP (fun l => upd_prof (fun p => match hm_release_handle (p_mh p) m with
           | Some (mh, true) => Some (mkProf mh (p_gh p) (p_ents p) (p_mc p) (p_gc p) (p_groups p)
                                             (p_nm p) (p_ng p))
           | _ => None end) l);
    AWP (fun l => upd_prof_done (fun p => Some (mkProf (p_mh p) (p_gh p) (p_ents p) (p_mc p)
           (p_gc p) (p_groups p) (p_nm p - 1) (p_ng p))) POk l) ].

(** modify_member 257-287 *)
Definition c_mod_member (m fn : nat) (data : list N) : list act :=
  [ ARP (chk_mbr m);
    AWP (fun l => upd_prof_done (fun p =>
           if m <? length (p_ents p)
           then Some (mkProf (p_mh p) (p_gh p) (list_set (p_ents p) m (fn, data)) (p_mc p) (p_gc p)
                             (p_groups p) (p_nm p) (p_ng p)) else None) POk l) ].

(** create_group 289-315 *)
Definition c_add_group : list act :=
  [ AWP (fun l p => match hm_get_handle (p_gh p) with
                    | None => None
                    | Some (gh, g) =>
                        if (index_limit <=? N.of_nat g)%N then Some (p, fin l PExhausted)
                        else Some (mkProf (p_mh p) gh (p_ents p) (p_mc p) (p_gc p) (p_groups p)
                                          (p_nm p) (p_ng p), with_m l g)
                    end);
    AWP (fun l => upd_prof (fun p => match vec_put (p_groups p) (l_m l) [] with
           | Some gs => Some (mkProf (p_mh p) (p_gh p) (p_ents p) (p_mc p) (p_gc p) gs
                                     (p_nm p) (p_ng p)) | None => None end) l);
    AWP (fun l => upd_prof (fun p => match vec_put (p_gc p) (l_m l) 0%N with
           | Some gc => Some (with_counts p (p_mc p) gc) | None => None end) l);
    AWP (fun l => upd_prof_done (fun p => Some (mkProf (p_mh p) (p_gh p) (p_ents p) (p_mc p)
           (p_gc p) (p_groups p) (p_nm p) (S (p_ng p)))) (PNewGrp (l_m l)) l) ].

(** delete_group 317-356: the loop over the members is one step *)
Definition c_del_group (g : nat) : list act :=
  [ ARP (chk_grp g);
    ARP (fun l p => match nth_error (p_gc p) g, nth_error (p_groups p) g with
                    | Some c, Some gl => if (0 <? c)%N then done (PErr PGrpUsed) l
                                         else Some (with_l l gl)
                    | _, _ => None end);
    AWP (fun l => upd_prof (fun p => match dec_all (p_mc p) (l_l l) with
           | Some mc => Some (with_counts p mc (p_gc p)) | None => None end) l);
    AWP (fun l => upd_prof (fun p => match hm_release_handle (p_gh p) g with
           | Some (gh, true) => Some (mkProf (p_mh p) gh (p_ents p) (p_mc p) (p_gc p) (p_groups p)
                                             (p_nm p) (p_ng p))
           | _ => None end) l);
    AWP (fun l => upd_prof_done (fun p => Some (mkProf (p_mh p) (p_gh p) (p_ents p) (p_mc p)
           (p_gc p) (p_groups p) (p_nm p) (p_ng p - 1))) POk l) ].

(** The checks of add_member_to_group 358-391 and remove_member_from_group 393-426 *)
Definition c_group (m g : nat) : act :=
  ARP (fun l p => match hm_valid_handle (p_mh p) m, hm_valid_handle (p_gh p) g with
                  | None, _ | _, None => None
                  | Some false, _ => done (PErr PInvalidMbr) l
                  | Some true, Some false => done (PErr PInvalidGrp) l
                  | Some true, Some true => match nth_error (p_groups p) g with
                                            | Some gl => Some (with_l l gl) | None => None end
                  end).
Definition put_group (g : nat) (gl : list nat) (p : prof) : option prof :=
  Some (set_group p g gl (p_mc p)).
Definition c_join (m g : nat) : list act :=
  [ c_group m g;
    AL (fun l => if set_mem m (l_l l) then done (PErr PAlreadyIn) l else Some l);
    AWP (fun l => upd_prof (put_group g (set_ins m (l_l l))) l);
    AWP (fun l => upd_prof_done (fun p => match cnt_inc (p_mc p) m with
           | Some mc => Some (with_counts p mc (p_gc p)) | None => None end) POk l) ].
Definition c_leave (m g : nat) : list act :=
  [ c_group m g;
    AL (fun l => if set_mem m (l_l l) then Some l else done (PErr PNotIn) l);
    AWP (fun l => upd_prof (put_group g (set_del m (l_l l))) l);
    AWP (fun l => upd_prof_done (fun p => match cnt_dec (p_mc p) m with
           | Some mc => Some (with_counts p mc (p_gc p)) | None => None end) POk l) ].

(** The getters 428-513: one step after the validity check *)
Definition p_read (f : prof -> option (prof * pout)) : act :=
  ARP (fun l p => match f p with Some (_, x) => done x l | None => None end).

(** reset_state 527-536 *)
Definition c_reset : list act :=
  [ AWP (fun l => upd_prof (fun p => Some (with_counts p [] [])) l);
    AWP (fun l => upd_prof (fun p => Some (mkProf (hm_clear (p_mh p)) (p_gh p) [] (p_mc p) (p_gc p)
           (p_groups p) (p_nm p) (p_ng p))) l);
    AWP (fun l => upd_prof (fun p => Some (mkProf (p_mh p) (p_gh p) (p_ents p) (p_mc p) (p_gc p)
           (p_groups p) 0 0)) l);
    AWP (fun l => upd_prof_done (fun p => Some (mkProf (p_mh p) (p_gh p) (p_ents p) (p_mc p)
           (p_gc p) [] (p_nm p) (p_ng p))) POk l) ].

(** add_entry 719-747, add_entry_ws 996-1028 *)
Definition c_add (c : itcfg) (now : N) (k : option mkey) (x : idx) : list act :=
  [ ARP (chk_target x);
    AWP (upd_prof (fun p => ref_inc p x));
    AWT (fun l u => match k with
                    | None => Some (u, fin l (PErr PBadKey))
                    | Some k => match mu_add (ic_kd c) u now k x with
                                | Some (u', MCode e) => Some (u', fin l (PErr (PUnit e)))
                                | Some (u', MHandle h) => Some (u', fin l (PHandle h))
                                | _ => None end
                    end) ].

(** match_unit->get_value in delete_entry 757, modify_entry 785, modify_entry_ws 1038 *)
Definition c_get_value (h : N) : act :=
  ART (fun l u => match mu_get_value u h with
                  | Some (_, MCode e) => done (PErr (PUnit e)) l
                  | Some (_, MValue (Some x)) => Some (with_x l (Some x))
                  | _ => None end).
Definition upd_done (r : option (munit idx * mout idx)) (l : loc)
  : option (munit idx * loc) :=
  match r with
  | Some (u, MCode MSuccess) => Some (u, fin l POk)
  | Some (u, MCode e) => Some (u, fin l (PErr (PUnit e)))
  | _ => None
  end.
(** delete_entry 749-775 *)
Definition c_del (c : itcfg) (h : N) : list act :=
  [ c_get_value h;
    AWP dec_x;
    AWT (fun l u => upd_done (mu_delete (ic_kd c) u h) l) ].
(** modify_entry 777-811, modify_entry_ws 1030-1067 *)
Definition c_mod (h : N) (x : idx) : list act :=
  [ c_get_value h;
    AWP dec_x;
    ARP (chk_target x);
    AWP (upd_prof (fun p => ref_inc p x));
    AWT (fun l u => upd_done (mu_modify u h x) l) ].

(** set_default_member 813-842, set_default_group 1069-1098 *)
Definition c_set_default (x : idx) : list act :=
  [ ARP (chk_exists x);
    ARD (fun l d => Some (with_x l d));
    AWP dec_x;
    AWD (fun l => Some (Some x, l));
    AWP (upd_prof_done (fun p => ref_inc p x) POk) ].
(** reset_default_entry 845-857 *)
Definition c_reset_default : list act :=
  [ ARD (fun l d => Some (with_x l d));
    AWP dec_x;
    AWD (fun l => Some (None, fin l POk)) ].

(** get_entry_ 859-875, 1100-1121, get_default_entry 914-920, 1148-1160 *)
Definition c_get (h : N) : list act :=
  [ ART (fun l u => match mu_get_value u h with
                    | Some (_, MCode e) => done (PErr (PUnit e)) l
                    | Some (_, MValue (Some x)) => done (PIndex x) l
                    | _ => None end) ].
Definition c_get_default : list act :=
  [ ARD (fun l d => match d with None => done (PErr PNoDefault) l
                               | Some x => done (PIndex x) l end) ].

(** lookup 686-717 within apply_action 84-131.  ActionProfile::lookup returns a reference to the
    member's action entry; the action is run through it by the last step. *)
Definition c_apply (c : itcfg) (ts len : N) (key : list N) (hash : option N) : list act :=
  [ ALU (fun l u => match mu_lookup (ic_kd c) (ic_nb c) u ts len key with
                    | Some (u', MMiss) => Some (u', l)
                    | Some (u', MFound h (Some x)) =>
                        Some (u', mkLoc (Some x) (l_m l) (Some (N.land h 16777215)) (l_l l) (l_out l))
                    | _ => None end);
    ARD (fun l d => match l_hit l with
                    | Some _ => Some l
                    | None => match d with
                              | None => let a := c_default (ic_cfg c) in
                                        done (PApplied None (a_fn a) (a_data a) (a_next a)) l
                              | Some x => Some (with_x l (Some x)) end
                    end);
    ARP (fun l p => match l_x l with
                    | None => None
                    | Some x => match empty_idx p x with
                                | None => None
                                | Some true => done (PEmptyGroup (l_hit l)) l
                                | Some false => Some l end
                    end);
    ARP (fun l p => match match l_x l with
                          | None => None
                          | Some (Mbr m) => Some m
                          | Some (Grp g) => match hm_valid_handle (p_gh p) g, nth_error (p_groups p) g with
                                            | Some true, Some gl => choose gl hash
                                            | _, _ => None end
                          end with
                    | None => None
                    | Some m => match hm_valid_handle (p_mh p) m with
                                | Some true => Some (with_m l m) | _ => None end
                    end);
    ARP (fun l p => match nth_error (p_ents p) (l_m l) with
                    | None => None
                    | Some (fn, data) =>
                        match match l_hit l with Some _ => next_node (ic_cfg c) fn
                                               | None => next_node_default (ic_cfg c) fn end with
                        | None => None
                        | Some nn => done (PApplied (l_hit l) (Some fn) data nn) l
                        end
                    end) ].

(** reset_state_ 942-947 *)
Definition c_clear (rd : bool) : list act :=
  [ AWT (fun l u => Some (mu_reset u, if rd then l else fin l POk));
    AWD (fun l => Some (None, fin l POk)) ].

(** The table a call works on *)
Definition tab_of (o : pop) : nat :=
  match o with
  | IAdd j _ _ _ | IDel j _ | IMod j _ _ | ISetDefault j _ | IResetDefault j | IGet j _
  | IGetDefault j | IApply j _ _ _ _ | IClear j _ => j
  | _ => 0
  end.
Definition on_cfg (j : nat) (f : itcfg -> list act) : list act :=
  match nth_error cs j with Some c => f c | None => [AL (fun _ => None)] end.
Definition bad_data (fn : nat) (data : list N) : bool := negb (length data =? np fn).
Definition const_default (j : nat) : bool :=
  match nth_error cs j with Some c => c_const_entry (ic_cfg c) | None => false end.

(** The locks a call holds, in the order it takes them: action_profile.cpp:202-528,
    match_tables.cpp:726-727, 754-755, 782-783, 821-822, 848-849, 1003-1004, 1034-1035, 1077-1078
    (lock_write, lock_impl_write), 90-91 (lock_read, lock_impl_read), 888-914 and 1126-1148
    (lock_read), 135 (lock_write).  The early exits (195, 261, 815, 1071) take none. *)
Definition locks (o : pop) : list lk :=
  match o with
  | PAddMember fn data => if bad_data fn data then [] else [(MP, true)]
  | PModMember _ fn data => if bad_data fn data then [] else [(MP, true)]
  | PDelMember _ | PAddGroup | PDelGroup _ | PJoin _ _ | PLeave _ _ | PReset => [(MP, true)]
  | PGetMember _ | PGetGroup _ | PGroupSize _ | PGetMembers | PGetGroups | PNumMembers
  | PNumGroups => [(MP, false)]
  | IAdd j _ _ _ | IDel j _ | IMod j _ _ | IResetDefault j => [(MT j, true); (MP, true)]
  | ISetDefault j _ => if const_default j then [] else [(MT j, true); (MP, true)]
  | IGet j _ | IGetDefault j => [(MT j, false)]
  | IApply j _ _ _ _ => [(MT j, false); (MP, false)]
  | IClear j _ => [(MT j, true)]
  end.

Definition acts (o : pop) : list act :=
  match o with
  | PAddMember fn data =>
      if bad_data fn data then [AL (done (PErr PBadData))] else c_add_member fn data
  | PModMember m fn data =>
      if bad_data fn data then [AL (done (PErr PBadData))] else c_mod_member m fn data
  | PDelMember m => c_del_member m
  | PAddGroup => c_add_group
  | PDelGroup g => c_del_group g
  | PJoin m g => c_join m g
  | PLeave m g => c_leave m g
  | PGetMember m => [ARP (chk_mbr m); p_read (fun p => p_get_member p m)]
  | PGetGroup g => [ARP (chk_grp g); p_read (fun p => p_get_group p g PGroup)]
  | PGroupSize g => [ARP (chk_grp g); p_read (fun p => p_get_group p g (fun l => PNum (length l)))]
  | PGetMembers => [p_read p_get_members]
  | PGetGroups => [p_read p_get_groups]
  | PNumMembers => [ARP (fun l p => done (PNum (p_nm p)) l)]
  | PNumGroups => [ARP (fun l p => done (PNum (p_ng p)) l)]
  | PReset => c_reset
  | IAdd j now k x => on_cfg j (fun c => c_add c now k x)
  | IDel j h => on_cfg j (fun c => c_del c h)
  | IMod j h x => on_cfg j (fun _ => c_mod h x)
  | ISetDefault j x => on_cfg j (fun c => if c_const_entry (ic_cfg c)
                                          then [AL (done (PErr PConstDefault))]
                                          else c_set_default x)
  | IResetDefault j => on_cfg j (fun _ => c_reset_default)
  | IGet j h => on_cfg j (fun _ => c_get h)
  | IGetDefault j => on_cfg j (fun _ => c_get_default)
  | IApply j ts len key hash => on_cfg j (fun c => c_apply c ts len key hash)
  | IClear j rd => on_cfg j (fun _ => c_clear rd)
  end.
End Code.

(** ** Threads *)
Inductive instr := Acq (k : lk) | Act (a : act) | Rel (k : lk).
(** A call: the lock objects are constructed in order, the body runs, the locks are destroyed in
    reverse order. *)
Definition code_of (ls : list lk) (bs : list act) : list instr :=
  map Acq ls ++ map Act bs ++ map Rel (rev ls).

Inductive thread (O : Type) :=
| Idle
| Run (o : O) (code : list instr) (l : loc) (held : list lk).
Arguments Idle {O}. Arguments Run {O} o code l held.

(** What the outside sees of a run: calls, returns and the death of the process. *)
Inductive hev (O : Type) := HCall (t : nat) (o : O) | HRet (t : nat) (x : pout) | HCrash (t : nat).
Arguments HCall {O} t o. Arguments HRet {O} t x. Arguments HCrash {O} t.

Section Machine.
Variables (O : Type) (lks : O -> list lk) (bdy : O -> list act) (tbl : O -> nat).

Record mach := mkM { m_w : world; m_t : nat -> thread O; m_dead : bool }.
Definition mach0 (w : world) : mach := mkM w (fun _ => Idle) false.

Definition held_by (th : thread O) : list lk := match th with Idle => [] | Run _ _ _ h => h end.
(** A thread that is about to take the lock [k]. *)
Definition wants (th : thread O) (k : lk) : Prop :=
  match th with Run _ (Acq k' :: _) _ _ => k' = k | _ => False end.
(** std::shared_mutex: a mutex held exclusively is held by one thread only. *)
Definition can_take (m : mach) (k : lk) : Prop :=
  forall t b, In (fst k, b) (held_by (m_t m t)) -> snd k = false /\ b = false.
Definition put (f : nat -> thread O) (t : nat) (x : thread O) : nat -> thread O :=
  fun u => if u =? t then x else f u.
Definition lk_eqb (a b : lk) : bool := mutex_eqb (fst a) (fst b) && Bool.eqb (snd a) (snd b).
Fixpoint drop_lk (k : lk) (h : list lk) : list lk :=
  match h with [] => [] | a :: r => if lk_eqb a k then r else a :: drop_lk k r end.

(** One step of thread [t]; the list is what the outside sees of it. *)
Inductive mstep (m : mach) (t : nat) : list (hev O) -> mach -> Prop :=
| ms_call : forall o, m_dead m = false -> m_t m t = Idle ->
    mstep m t [HCall t o]
      (mkM (m_w m) (put (m_t m) t (Run o (code_of (lks o) (bdy o)) l0 [])) false)
| ms_acq : forall o k r l h, m_dead m = false -> m_t m t = Run o (Acq k :: r) l h ->
    can_take m k ->
    mstep m t [] (mkM (m_w m) (put (m_t m) t (Run o r l (h ++ [k]))) false)
| ms_act : forall o a r l h w' l', m_dead m = false -> m_t m t = Run o (Act a :: r) l h ->
    act_run (tbl o) a (m_w m) l = Some (w', l') ->
    mstep m t [] (mkM w' (put (m_t m) t (Run o r l' h)) false)
| ms_die : forall o a r l h, m_dead m = false -> m_t m t = Run o (Act a :: r) l h ->
    act_run (tbl o) a (m_w m) l = None ->
    mstep m t [HCrash t] (mkM (m_w m) (m_t m) true)
| ms_rel : forall o k r l h, m_dead m = false -> m_t m t = Run o (Rel k :: r) l h ->
    mstep m t [] (mkM (m_w m) (put (m_t m) t (Run o r l (drop_lk k h))) false)
| ms_ret : forall o l h x, m_dead m = false -> m_t m t = Run o [] l h -> l_out l = Some x ->
    mstep m t [HRet t x] (mkM (m_w m) (put (m_t m) t Idle) false).

Inductive mrun : mach -> list (hev O) -> mach -> Prop :=
| mr_nil : forall m, mrun m [] m
| mr_step : forall m t h1 m1 h2 m2, mstep m t h1 m1 -> mrun m1 h2 m2 -> mrun m (h1 ++ h2) m2.
End Machine.

(** ** Table iterators: handle_iterator::operator!= (match_tables.h:84-87) takes the read lock and
    calls operator== (79-82), which takes it again.  [ItDelete] is any call that writes the table,
    for instance MatchTable::delete_entry (match_tables.cpp:415-434). *)
Inductive iop := ItDiffer | ItDelete.
Definition it_locks (o : iop) : list lk :=
  match o with ItDiffer => [(MT 0, false); (MT 0, false)] | ItDelete => [(MT 0, true)] end.
Definition it_acts (o : iop) : list act := [AL (done POk)].
Definition it_tab (o : iop) : nat := 0.
