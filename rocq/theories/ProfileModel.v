(** Model of action profiles (src/bm_sim/action_profile.cpp, include/bm/bm_sim/action_profile.h,
    include/bm/bm_sim/ras.h) and of the indirect match tables that share one
    (MatchTableIndirect, MatchTableIndirectWS: src/bm_sim/match_tables.cpp:650-1130), over the
    match units of MatchUnitModel.v.
    Simplifications: the built match key is an argument ([None]: the key builder refused it);
    every table is a MatchTableIndirectWS over a profile with selection (a superset of the calls
    of MatchTableIndirect); the group selector is the default one (GroupMgr); logging, dumping and
    serialisation are left out.  C++ assertion failures are [None]. *)
From Coq Require Import List Arith NArith ZArith Bool.
From Verif Require Import Base HandleMgrModel EntryListModel MatchUnitModel TableModel.
Import ListNotations.

(** IndirectIndex, action_profile.h:42-85: a tag and a 24-bit number *)
Inductive idx := Mbr (m : nat) | Grp (g : nat).
Definition index_limit : N := 16777216. (* _index_mask + 1 *)

(** ** RandAccessUIntSet, ras.h:29-88: a flat_set, i.e. a sorted vector *)
Fixpoint set_mem (x : nat) (l : list nat) : bool :=
  match l with [] => false | y :: r => (x =? y) || set_mem x r end.
(** add 45-48 (the caller has seen that [x] is absent) *)
Fixpoint set_ins (x : nat) (l : list nat) : list nat :=
  match l with
  | [] => [x]
  | y :: r => if x <? y then x :: y :: r else y :: set_ins x r
  end.
(** remove 51-54 *)
Fixpoint set_del (x : nat) (l : list nat) : list nat :=
  match l with [] => [] | y :: r => if x =? y then r else y :: set_del x r end.

(** ** ActionProfile *)
Record prof := mkProf {
  p_mh : hmgr;                        (* mbr_handles *)
  p_gh : hmgr;                        (* grp_handles *)
  p_ents : list (nat * list N);       (* action_entries: action id and action data *)
  p_mc : list N;                      (* index_ref_count.mbr_count *)
  p_gc : list N;                      (* index_ref_count.grp_count *)
  p_groups : list (list nat);         (* grp_mgr.groups *)
  p_nm : nat; p_ng : nat }.           (* num_members, num_groups *)

Definition p_empty : prof := mkProf hm_empty hm_empty [] [] [] [] 0 0.

(** The push_back-or-assign idiom of entries_insert 183-188, insert_group 123-130 and
    IndirectIndexRefCount::set (action_profile.h:168-176) *)
Definition vec_put {A} (l : list A) (i : nat) (x : A) : option (list A) :=
  if i =? length l then Some (l ++ [x])
  else if i <? length l then Some (list_set l i x) else None.

(** increase / decrease, action_profile.h:183-197: unsigned int arithmetic *)
Definition cnt_inc (l : list N) (i : nat) : option (list N) :=
  match nth_error l i with
  | Some c => Some (list_set l i ((c + 1) mod 2 ^ 32)%N) | None => None end.
Definition cnt_dec (l : list N) (i : nat) : option (list N) :=
  match nth_error l i with
  | Some c => Some (list_set l i ((c + (2 ^ 32 - 1)) mod 2 ^ 32)%N) | None => None end.

Definition with_counts (p : prof) (mc gc : list N) : prof :=
  mkProf (p_mh p) (p_gh p) (p_ents p) mc gc (p_groups p) (p_nm p) (p_ng p).
Definition ref_inc (p : prof) (x : idx) : option prof :=
  match x with
  | Mbr m => match cnt_inc (p_mc p) m with
             | Some mc => Some (with_counts p mc (p_gc p)) | None => None end
  | Grp g => match cnt_inc (p_gc p) g with
             | Some gc => Some (with_counts p (p_mc p) gc) | None => None end
  end.
Definition ref_dec (p : prof) (x : idx) : option prof :=
  match x with
  | Mbr m => match cnt_dec (p_mc p) m with
             | Some mc => Some (with_counts p mc (p_gc p)) | None => None end
  | Grp g => match cnt_dec (p_gc p) g with
             | Some gc => Some (with_counts p (p_mc p) gc) | None => None end
  end.
Fixpoint dec_all (mc : list N) (l : list nat) : option (list N) :=
  match l with
  | [] => Some mc
  | m :: r => match cnt_dec mc m with Some mc' => dec_all mc' r | None => None end
  end.

Inductive pcode :=
| PBadData | PInvalidMbr | PInvalidGrp | PMbrUsed | PGrpUsed | PAlreadyIn | PNotIn | PEmptyGrp
| PConstDefault | PNoDefault | PBadKey | PUnit (c : mcode).

Inductive pout :=
| POk
| PErr (c : pcode)
| PNewMbr (m : nat) | PNewGrp (g : nat)
| PExhausted                    (* more than 2^24 members or groups: the process asserts *)
| PHandle (h : N)
| PMember (fn : nat) (data : list N)
| PGroup (l : list nat)
| PMembers (l : list (nat * (nat * list N)))
| PGroups (l : list (nat * list nat))
| PNum (n : nat)
| PIndex (x : idx)
| PApplied (hit : option N) (fn : option nat) (data : list N) (next : option nat)
| PEmptyGroup (hit : option N). (* empty_action, with next_node left uninitialised *)

(** add_member 193-225, entries_insert 183-190 *)
Definition p_add_member (np : nat -> nat) (p : prof) (fn : nat) (data : list N)
  : option (prof * pout) :=
  if negb (length data =? np fn) then Some (p, PErr PBadData)
  else match hm_get_handle (p_mh p) with
       | None => None
       | Some (mh, m) =>
           if (index_limit <=? N.of_nat m)%N then Some (p, PExhausted)
           else match vec_put (p_ents p) m (fn, data), vec_put (p_mc p) m 0%N with
                | Some es, Some mc =>
                    Some (mkProf mh (p_gh p) es mc (p_gc p) (p_groups p) (S (p_nm p)) (p_ng p),
                          PNewMbr m)
                | _, _ => None
                end
       end.

(** delete_member 227-255 *)
Definition p_del_member (p : prof) (m : nat) : option (prof * pout) :=
  match hm_valid_handle (p_mh p) m with
  | None => None
  | Some false => Some (p, PErr PInvalidMbr)
  | Some true =>
      match nth_error (p_mc p) m with
      | None => None
      | Some c =>
          if (0 <? c)%N then Some (p, PErr PMbrUsed)
          else match hm_release_handle (p_mh p) m with
               | Some (mh, true) =>
                   Some (mkProf mh (p_gh p) (p_ents p) (p_mc p) (p_gc p) (p_groups p)
                                (p_nm p - 1) (p_ng p), POk)
               | _ => None
               end
      end
  end.

(** modify_member 257-287 *)
Definition p_mod_member (np : nat -> nat) (p : prof) (m fn : nat) (data : list N)
  : option (prof * pout) :=
  if negb (length data =? np fn) then Some (p, PErr PBadData)
  else match hm_valid_handle (p_mh p) m with
       | None => None
       | Some false => Some (p, PErr PInvalidMbr)
       | Some true =>
           if m <? length (p_ents p)
           then Some (mkProf (p_mh p) (p_gh p) (list_set (p_ents p) m (fn, data)) (p_mc p) (p_gc p)
                             (p_groups p) (p_nm p) (p_ng p), POk)
           else None
       end.

(** create_group 289-315 *)
Definition p_add_group (p : prof) : option (prof * pout) :=
  match hm_get_handle (p_gh p) with
  | None => None
  | Some (gh, g) =>
      if (index_limit <=? N.of_nat g)%N then Some (p, PExhausted)
      else match vec_put (p_groups p) g [], vec_put (p_gc p) g 0%N with
           | Some gs, Some gc =>
               Some (mkProf (p_mh p) gh (p_ents p) (p_mc p) gc gs (p_nm p) (S (p_ng p)), PNewGrp g)
           | _, _ => None
           end
  end.

(** delete_group 317-356 *)
Definition p_del_group (p : prof) (g : nat) : option (prof * pout) :=
  match hm_valid_handle (p_gh p) g with
  | None => None
  | Some false => Some (p, PErr PInvalidGrp)
  | Some true =>
      match nth_error (p_gc p) g, nth_error (p_groups p) g with
      | Some c, Some l =>
          if (0 <? c)%N then Some (p, PErr PGrpUsed)
          else match dec_all (p_mc p) l, hm_release_handle (p_gh p) g with
               | Some mc, Some (gh, true) =>
                   Some (mkProf (p_mh p) gh (p_ents p) mc (p_gc p) (p_groups p) (p_nm p)
                                (p_ng p - 1), POk)
               | _, _ => None
               end
      | _, _ => None
      end
  end.

(** add_member_to_group 358-391, remove_member_from_group 393-426 *)
Definition p_group_upd (p : prof) (m g : nat) (f : list nat -> prof -> option (prof * pout))
  : option (prof * pout) :=
  match hm_valid_handle (p_mh p) m, hm_valid_handle (p_gh p) g with
  | None, _ | _, None => None
  | Some false, _ => Some (p, PErr PInvalidMbr)
  | Some true, Some false => Some (p, PErr PInvalidGrp)
  | Some true, Some true => match nth_error (p_groups p) g with
                            | Some l => f l p | None => None end
  end.
Definition set_group (p : prof) (g : nat) (l : list nat) (mc : list N) : prof :=
  mkProf (p_mh p) (p_gh p) (p_ents p) mc (p_gc p) (list_set (p_groups p) g l) (p_nm p) (p_ng p).
Definition p_join (p : prof) (m g : nat) : option (prof * pout) :=
  p_group_upd p m g (fun l p =>
    if set_mem m l then Some (p, PErr PAlreadyIn)
    else match cnt_inc (p_mc p) m with
         | Some mc => Some (set_group p g (set_ins m l) mc, POk) | None => None end).
Definition p_leave (p : prof) (m g : nat) : option (prof * pout) :=
  p_group_upd p m g (fun l p =>
    if set_mem m l
    then match cnt_dec (p_mc p) m with
         | Some mc => Some (set_group p g (set_del m l) mc, POk) | None => None end
    else Some (p, PErr PNotIn)).

(** get_member 428-443, get_group 459-476, get_num_members_in_group 491-501 *)
Definition p_get_member (p : prof) (m : nat) : option (prof * pout) :=
  match hm_valid_handle (p_mh p) m with
  | None => None
  | Some false => Some (p, PErr PInvalidMbr)
  | Some true => match nth_error (p_ents p) m with
                 | Some (fn, data) => Some (p, PMember fn data) | None => None end
  end.
Definition p_get_group (p : prof) (g : nat) (f : list nat -> pout) : option (prof * pout) :=
  match hm_valid_handle (p_gh p) g with
  | None => None
  | Some false => Some (p, PErr PInvalidGrp)
  | Some true => match nth_error (p_groups p) g with Some l => Some (p, f l) | None => None end
  end.
(** get_members 445-457, get_groups 478-489: the result vector has num_members (num_groups)
    elements, written through [idx++] *)
Fixpoint zip_at {A} (v : list A) (hs : list nat) : option (list (nat * A)) :=
  match hs with
  | [] => Some []
  | h :: r => match nth_error v h, zip_at v r with
              | Some a, Some l => Some ((h, a) :: l) | _, _ => None end
  end.
Definition p_get_members (p : prof) : option (prof * pout) :=
  match hm_iterate (p_mh p) with
  | None => None
  | Some hs => if length hs =? p_nm p
               then match zip_at (p_ents p) hs with
                    | Some l => Some (p, PMembers l) | None => None end
               else None
  end.
Definition p_get_groups (p : prof) : option (prof * pout) :=
  match hm_iterate (p_gh p) with
  | None => None
  | Some hs => if length hs =? p_ng p
               then match zip_at (p_groups p) hs with
                    | Some l => Some (p, PGroups l) | None => None end
               else None
  end.

(** reset_state 527-536: grp_handles is not cleared *)
Definition p_reset (p : prof) : prof := mkProf (hm_clear (p_mh p)) (p_gh p) [] [] [] [] 0 0.

(** GroupMgr::get_from_hash 116-120, choose_from_group 604-609: [hash_t] is 32 bits; [None] when
    no hash is attached to the profile.  [h % 0] is [None]. *)
Definition choose (l : list nat) (hash : option N) : option nat :=
  match l with
  | [] => None
  | _ => let h := match hash with None => 0%N | Some h => (h mod 2 ^ 32)%N end in
         nth_error l (N.to_nat (h mod N.of_nat (length l)))
  end.

(** ActionProfile::lookup 163-181 *)
Definition p_lookup (p : prof) (x : idx) (hash : option N) : option (nat * list N) :=
  let m := match x with
           | Mbr m => Some m
           | Grp g => match hm_valid_handle (p_gh p) g, nth_error (p_groups p) g with
                      | Some true, Some l => choose l hash
                      | _, _ => None
                      end
           end in
  match m with
  | None => None
  | Some m => match hm_valid_handle (p_mh p) m with
              | Some true => nth_error (p_ents p) m
              | _ => None
              end
  end.

(** ** Indirect tables *)
Record itcfg := mkIC { ic_kd : mkind; ic_nb : nat; ic_size : nat; ic_cache : bool; ic_cfg : tcfg }.
Record itab := mkIT { it_unit : munit idx; it_def : option idx }. (* default_set, default_index *)
Record world := mkW { w_prof : prof; w_tabs : list itab }.

Definition it_new (c : itcfg) : itab := mkIT (mu_new (ic_kd c) (ic_size c) (ic_cache c)) None.
Definition w_new (cs : list itcfg) : world := mkW p_empty (map it_new cs).

Definition on_prof (w : world) (r : option (prof * pout)) : option (world * pout) :=
  match r with Some (p, x) => Some (mkW p (w_tabs w), x) | None => None end.
Definition set_tab (w : world) (j : nat) (p : prof) (t : itab) : world :=
  mkW p (list_set (w_tabs w) j t).

Definition valid_idx (p : prof) (x : idx) : option (option pcode) :=
  match x with
  | Mbr m => match hm_valid_handle (p_mh p) m with
             | None => None | Some true => Some None | Some false => Some (Some PInvalidMbr) end
  | Grp g => match hm_valid_handle (p_gh p) g with
             | None => None
             | Some false => Some (Some PInvalidGrp)
             | Some true => Some None
             end
  end.
(** group_is_empty 522-525: [groups.at] throws out of range *)
Definition empty_idx (p : prof) (x : idx) : option bool :=
  match x with
  | Mbr _ => Some false
  | Grp g => match nth_error (p_groups p) g with
             | Some l => Some (length l =? 0) | None => None end
  end.
(** validity checks of add_entry 730-731, add_entry_ws 1007-1011 and the modify variants *)
Definition check_idx (p : prof) (x : idx) : option (option pcode) :=
  match valid_idx p x with
  | Some None => match empty_idx p x with
                 | Some true => Some (Some PEmptyGrp) | Some false => Some None | None => None end
  | r => r
  end.

(** add_entry 719-747, add_entry_ws 996-1028 *)
Definition i_add (c : itcfg) (w : world) (j : nat) (t : itab) (now : N) (k : option mkey) (x : idx)
  : option (world * pout) :=
  match check_idx (w_prof w) x with
  | None => None
  | Some (Some e) => Some (w, PErr e)
  | Some None =>
      match ref_inc (w_prof w) x with
      | None => None
      | Some p =>
          match k with
          | None => Some (mkW p (w_tabs w), PErr PBadKey)
          | Some k =>
              match mu_add (ic_kd c) (it_unit t) now k x with
              | Some (u, MCode e) => Some (set_tab w j p (mkIT u (it_def t)), PErr (PUnit e))
              | Some (u, MHandle h) => Some (set_tab w j p (mkIT u (it_def t)), PHandle h)
              | _ => None
              end
          end
      end
  end.

(** delete_entry 749-775 *)
Definition i_del (c : itcfg) (w : world) (j : nat) (t : itab) (h : N) : option (world * pout) :=
  match mu_get_value (it_unit t) h with
  | Some (_, MCode e) => Some (w, PErr (PUnit e))
  | Some (_, MValue (Some x)) =>
      match ref_dec (w_prof w) x with
      | None => None
      | Some p =>
          match mu_delete (ic_kd c) (it_unit t) h with
          | Some (u, MCode MSuccess) => Some (set_tab w j p (mkIT u (it_def t)), POk)
          | Some (u, MCode e) => Some (set_tab w j p (mkIT u (it_def t)), PErr (PUnit e))
          | _ => None
          end
      end
  | _ => None
  end.

(** modify_entry 777-811, modify_entry_ws 1030-1067 *)
Definition i_mod (w : world) (j : nat) (t : itab) (h : N) (x : idx) : option (world * pout) :=
  match mu_get_value (it_unit t) h with
  | Some (_, MCode e) => Some (w, PErr (PUnit e))
  | Some (_, MValue (Some old)) =>
      match ref_dec (w_prof w) old with
      | None => None
      | Some p =>
          match check_idx p x with
          | None => None
          | Some (Some e) => Some (mkW p (w_tabs w), PErr e)
          | Some None =>
              match ref_inc p x with
              | None => None
              | Some p' =>
                  match mu_modify (it_unit t) h x with
                  | Some (u, MCode MSuccess) => Some (set_tab w j p' (mkIT u (it_def t)), POk)
                  | Some (u, MCode e) => Some (set_tab w j p' (mkIT u (it_def t)), PErr (PUnit e))
                  | _ => None
                  end
              end
          end
      end
  | _ => None
  end.

Definition drop_default (p : prof) (d : option idx) : option prof :=
  match d with None => Some p | Some x => ref_dec p x end.

(** set_default_member 813-842, set_default_group 1069-1098 *)
Definition i_set_default (c : itcfg) (w : world) (j : nat) (t : itab) (x : idx)
  : option (world * pout) :=
  if c_const_entry (ic_cfg c) then Some (w, PErr PConstDefault)
  else match valid_idx (w_prof w) x with
       | None => None
       | Some (Some e) => Some (w, PErr e)
       | Some None =>
           match drop_default (w_prof w) (it_def t) with
           | None => None
           | Some p => match ref_inc p x with
                       | None => None
                       | Some p' => Some (set_tab w j p' (mkIT (it_unit t) (Some x)), POk)
                       end
           end
       end.

(** reset_default_entry 845-857 *)
Definition i_reset_default (w : world) (j : nat) (t : itab) : option (world * pout) :=
  match drop_default (w_prof w) (it_def t) with
  | None => None
  | Some p => Some (set_tab w j p (mkIT (it_unit t) None), POk)
  end.

(** get_entry_ 1100-1121, get_default_entry *)
Definition i_get (w : world) (t : itab) (h : N) : option (world * pout) :=
  match mu_get_value (it_unit t) h with
  | Some (_, MCode e) => Some (w, PErr (PUnit e))
  | Some (_, MValue (Some x)) => Some (w, PIndex x)
  | _ => None
  end.
Definition i_get_default (w : world) (t : itab) : option (world * pout) :=
  match it_def t with
  | None => Some (w, PErr PNoDefault) | Some x => Some (w, PIndex x) end.

(** lookup 686-717 within apply_action 84-131 *)
Definition i_apply (c : itcfg) (w : world) (j : nat) (t : itab) (ts len : N) (key : list N)
    (hash : option N) : option (world * pout) :=
  let finish u hit x :=
    let w' := set_tab w j (w_prof w) (mkIT u (it_def t)) in
    match empty_idx (w_prof w) x with
    | None => None
    | Some true => Some (w', PEmptyGroup hit)
    | Some false =>
        match p_lookup (w_prof w) x hash with
        | None => None
        | Some (fn, data) =>
            match match hit with Some _ => next_node (ic_cfg c) fn
                               | None => next_node_default (ic_cfg c) fn end with
            | None => None
            | Some nn => Some (w', PApplied hit (Some fn) data nn)
            end
        end
    end in
  match mu_lookup (ic_kd c) (ic_nb c) (it_unit t) ts len key with
  | Some (u, MMiss) =>
      match it_def t with
      | None => let d := c_default (ic_cfg c) in
                Some (set_tab w j (w_prof w) (mkIT u (it_def t)),
                      PApplied None (a_fn d) (a_data d) (a_next d))
      | Some x => finish u None x
      end
  | Some (u, MFound h (Some x)) => finish u (Some (N.land h 16777215)) x
  | _ => None
  end.

(** reset_state_ 942-947: references are not released *)
Definition i_clear (w : world) (j : nat) (t : itab) (reset_default : bool) : world :=
  set_tab w j (w_prof w)
    (mkIT (mu_reset (it_unit t)) (if reset_default then None else it_def t)).

Inductive pop :=
| PAddMember (fn : nat) (data : list N)
| PDelMember (m : nat)
| PModMember (m fn : nat) (data : list N)
| PAddGroup
| PDelGroup (g : nat)
| PJoin (m g : nat)
| PLeave (m g : nat)
| PGetMember (m : nat) | PGetGroup (g : nat) | PGroupSize (g : nat)
| PGetMembers | PGetGroups | PNumMembers | PNumGroups
| PReset
(* calls on table number [j] *)
| IAdd (j : nat) (now : N) (k : option mkey) (x : idx)
| IDel (j : nat) (h : N)
| IMod (j : nat) (h : N) (x : idx)
| ISetDefault (j : nat) (x : idx)
| IResetDefault (j : nat)
| IGet (j : nat) (h : N)
| IGetDefault (j : nat)
| IApply (j : nat) (ts len : N) (key : list N) (hash : option N)
| IClear (j : nat) (reset_default : bool).

Section Run.
Variables (np : nat -> nat) (cs : list itcfg).

Definition on_tab (w : world) (j : nat) (f : itcfg -> itab -> option (world * pout))
  : option (world * pout) :=
  match nth_error cs j, nth_error (w_tabs w) j with
  | Some c, Some t => f c t | _, _ => None end.

Definition w_step (w : world) (o : pop) : option (world * pout) :=
  let p := w_prof w in
  match o with
  | PAddMember fn data => on_prof w (p_add_member np p fn data)
  | PDelMember m => on_prof w (p_del_member p m)
  | PModMember m fn data => on_prof w (p_mod_member np p m fn data)
  | PAddGroup => on_prof w (p_add_group p)
  | PDelGroup g => on_prof w (p_del_group p g)
  | PJoin m g => on_prof w (p_join p m g)
  | PLeave m g => on_prof w (p_leave p m g)
  | PGetMember m => on_prof w (p_get_member p m)
  | PGetGroup g => on_prof w (p_get_group p g PGroup)
  | PGroupSize g => on_prof w (p_get_group p g (fun l => PNum (length l)))
  | PGetMembers => on_prof w (p_get_members p)
  | PGetGroups => on_prof w (p_get_groups p)
  | PNumMembers => Some (w, PNum (p_nm p))
  | PNumGroups => Some (w, PNum (p_ng p))
  | PReset => Some (mkW (p_reset p) (w_tabs w), POk)
  | IAdd j now k x => on_tab w j (fun c t => i_add c w j t now k x)
  | IDel j h => on_tab w j (fun c t => i_del c w j t h)
  | IMod j h x => on_tab w j (fun c t => i_mod w j t h x)
  | ISetDefault j x => on_tab w j (fun c t => i_set_default c w j t x)
  | IResetDefault j => on_tab w j (fun c t => i_reset_default w j t)
  | IGet j h => on_tab w j (fun c t => i_get w t h)
  | IGetDefault j => on_tab w j (fun c t => i_get_default w t)
  | IApply j ts len key hash => on_tab w j (fun c t => i_apply c w j t ts len key hash)
  | IClear j rd => on_tab w j (fun c t => Some (i_clear w j t rd, POk))
  end.

(** The results of a sequence of calls; the list stops short if the process dies. *)
Fixpoint w_run (w : world) (ops : list pop) : world * list pout :=
  match ops with
  | [] => (w, [])
  | o :: r => match w_step w o with
              | Some (w', x) => let '(w'', xs) := w_run w' r in (w'', x :: xs)
              | None => (w, [])
              end
  end.
End Run.
