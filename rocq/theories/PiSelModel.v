(** Model of PI group selection with activated and deactivated members (PI/src/group_selection.cpp
    and .h), as driven by an action profile (src/bm_sim/action_profile.cpp) and by the two PI
    calls that activate or deactivate a member (PI/src/pi_act_prof_imp.cpp:245-275).
    The profile and its tables are those of ProfileModel.v.  Simplifications: a packet is an
    [ActionProfile::lookup] on a member or group, with its hash; table lookups themselves are in
    ProfileModel.v.  A division by zero, an exception of [at] and an assertion failure are
    [None].  The mutexes are left out: every call runs alone. *)
From Coq Require Import List Arith NArith Bool.
From Verif Require Import Base HandleMgrModel ProfileModel.
Import ListNotations.

(** GroupInfo, group_selection.h: [members], an unordered set, and [activated_members], a
    RandAccessUIntSet, i.e. a sorted vector *)
Record ginfo := mkGI { gi_mem : list nat; gi_act : list nat }.
Definition gi_new : ginfo := mkGI [] [].

(** GroupSelection::groups, a map from group to GroupInfo *)
Definition sel := list (nat * ginfo).
Fixpoint sel_find (s : sel) (g : nat) : option ginfo :=
  match s with [] => None | (k, i) :: r => if k =? g then Some i else sel_find r g end.
Fixpoint sel_erase (s : sel) (g : nat) : sel :=
  match s with [] => [] | (k, i) :: r => if k =? g then sel_erase r g else (k, i) :: sel_erase r g end.
Definition sel_put (s : sel) (g : nat) (i : ginfo) : sel := (g, i) :: sel_erase s g.

(** RandAccessUIntSet::add, remove (ras.h:45-54): the new set and the number of elements added or
    removed *)
Definition ras_add (m : nat) (l : list nat) : list nat * bool :=
  if set_mem m l then (l, false) else (set_ins m l, true).
Definition ras_remove (m : nat) (l : list nat) : list nat * bool :=
  if set_mem m l then (set_del m l, true) else (l, false).

Inductive scode := SOk | SNotIn | SErr.   (* SUCCESS, MBR_NOT_IN_GRP, ERROR *)

(** GroupInfo::activate_member 68-72, deactivate_member 75-79 *)
Definition gi_activate (i : ginfo) (m : nat) : ginfo * scode :=
  if set_mem m (gi_mem i)
  then let '(a, n) := ras_add m (gi_act i) in (mkGI (gi_mem i) a, if n then SOk else SErr)
  else (i, SNotIn).
Definition gi_deactivate (i : ginfo) (m : nat) : ginfo * scode :=
  if set_mem m (gi_mem i)
  then let '(a, n) := ras_remove m (gi_act i) in (mkGI (gi_mem i) a, if n then SOk else SErr)
  else (i, SNotIn).
(** GroupInfo::add_member 82-85, remove_member 88-91 *)
Definition gi_add (i : ginfo) (m : nat) : ginfo :=
  mkGI (fst (ras_add m (gi_mem i))) (fst (ras_add m (gi_act i))).
Definition gi_remove (i : ginfo) (m : nat) : ginfo :=
  mkGI (fst (ras_remove m (gi_mem i))) (fst (ras_remove m (gi_act i))).
(** GroupInfo::get_from_hash 94-98: [h] is a 32-bit hash *)
Definition gi_get (i : ginfo) (h : N) : option nat :=
  match gi_act i with
  | [] => None                                  (* h % 0 *)
  | l => nth_error l (N.to_nat (h mod N.of_nat (length l)))
  end.

(** GroupSelection::activate_member 23-29, deactivate_member 31-37 *)
Definition sel_activate (s : sel) (g m : nat) : sel * scode :=
  match sel_find s g with
  | None => (s, SNotIn)
  | Some i => let '(i', c) := gi_activate i m in (sel_put s g i', c)
  end.
Definition sel_deactivate (s : sel) (g m : nat) : sel * scode :=
  match sel_find s g with
  | None => (s, SNotIn)
  | Some i => let '(i', c) := gi_deactivate i m in (sel_put s g i', c)
  end.
(** [groups[grp]]: a missing group is created *)
Definition sel_at (s : sel) (g : nat) : ginfo :=
  match sel_find s g with Some i => i | None => gi_new end.
(** add_member_to_group 39-44, remove_member_from_group 46-53 *)
Definition sel_add (s : sel) (g m : nat) : sel := sel_put s g (gi_add (sel_at s g) m).
Definition sel_remove (s : sel) (g m : nat) : sel :=
  let i := gi_remove (sel_at s g) m in
  match gi_mem i with [] => sel_erase s g | _ => sel_put s g i end.
(** get_from_hash 55-59: [at] throws when the group is missing *)
Definition sel_get (s : sel) (g : nat) (h : N) : option nat :=
  match sel_find s g with Some i => gi_get i h | None => None end.

(** IndirectHMgr::clear_grp_h (PI/src/common.h) on a 64-bit handle, then the conversion to the
    32-bit grp_hdl_t or mbr_hdl_t of the selector's arguments *)
Definition clear_grp_h (h : N) : N := N.land h (2 ^ 63 - 1).
Definition hdl32 (h : N) : nat := N.to_nat (h mod 2 ^ 32).

Inductive sop :=
| SCall (o : pop)                         (* a call on the profile or on one of its tables *)
| SActivate (g m : N) | SDeactivate (g m : N)   (* the PI calls, with 64-bit handles *)
| SLookup (x : idx) (hash : option N)     (* ActionProfile::lookup for a packet *)
| SInstall.                               (* set_group_selector 514-519 with a new selector *)

Inductive sout := SPout (x : pout) | SCode (c : scode) | SFound (a : nat * list N) | SInstalled.

Record sstate := mkS { s_w : world; s_sel : sel }.

(** What a call of the profile does to its selector: delete_group 318-342 loops over the members
    of the group, add_member_to_group 354-374, remove_member_from_group 392-411,
    reset_state 526-535 *)
Definition sel_hook (p : prof) (s : sel) (o : pop) (x : pout) : sel :=
  match o, x with
  | PJoin m g, POk => sel_add s g m
  | PLeave m g, POk => sel_remove s g m
  | PDelGroup g, POk =>
      match nth_error (p_groups p) g with
      | Some l => fold_left (fun s m => sel_remove s g m) l s
      | None => s
      end
  | PReset, _ => []
  | _, _ => s
  end.

(** ActionProfile::lookup 163-181, choose_from_group 603-608 *)
Definition s_lookup (p : prof) (s : sel) (x : idx) (hash : option N) : option (nat * list N) :=
  let m := match x with
           | Mbr m => Some m
           | Grp g => match hm_valid_handle (p_gh p) g with
                      | Some true => sel_get s g (match hash with
                                                  | None => 0%N | Some h => (h mod 2 ^ 32)%N end)
                      | _ => None
                      end
           end in
  match m with
  | None => None
  | Some m => match hm_valid_handle (p_mh p) m with
              | Some true => nth_error (p_ents p) m
              | _ => None
              end
  end.

Section Run.
Variables (np : nat -> nat) (cs : list itcfg).

Definition s_step (s : sstate) (o : sop) : option (sstate * sout) :=
  match o with
  | SCall (IApply _ _ _ _ _) => None          (* not modelled here, see the header *)
  | SCall o => match w_step np cs (s_w s) o with
               | Some (w, x) => Some (mkS w (sel_hook (w_prof (s_w s)) (s_sel s) o x), SPout x)
               | None => None
               end
  | SActivate g m => let '(l, c) := sel_activate (s_sel s) (hdl32 (clear_grp_h g)) (hdl32 m) in
                     Some (mkS (s_w s) l, SCode c)
  | SDeactivate g m => let '(l, c) := sel_deactivate (s_sel s) (hdl32 (clear_grp_h g)) (hdl32 m) in
                       Some (mkS (s_w s) l, SCode c)
  | SLookup x hash => match s_lookup (w_prof (s_w s)) (s_sel s) x hash with
                      | Some a => Some (s, SFound a) | None => None end
  | SInstall => Some (mkS (s_w s) [], SInstalled)
  end.

(** The results of a sequence of calls; the list stops short if the process dies. *)
Fixpoint s_run (s : sstate) (ops : list sop) : sstate * list sout :=
  match ops with
  | [] => (s, [])
  | o :: r => match s_step s o with
              | Some (s', x) => let '(s'', xs) := s_run s' r in (s'', x :: xs)
              | None => (s, [])
              end
  end.

Definition s_new : sstate := mkS (w_new cs) [].
End Run.
