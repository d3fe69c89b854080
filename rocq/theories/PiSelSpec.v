(** Specification of PI group selection: the members and groups of the profile (ProfileSpec.v)
    and, per group, the members that were switched off and not back on.  A member that joins a
    group is on; leaving the group, or deleting it, forgets that it was off. *)
From Coq Require Import List Arith NArith Bool Sorted.
From Verif Require Import ProfileModel ProfileSpec PiSelModel.
Import ListNotations.

Record sst := mkSst { base : wst; off : nat -> nat -> Prop }.

Definition in_group (b : wst) (g m : nat) : Prop := exists l, g_of b g = Some l /\ In m l.

(** The members of [g] that may serve packets, in increasing order. *)
Definition active_list (s : sst) (g : nat) (l : list nat) : Prop :=
  StronglySorted lt l /\ forall m, In m l <-> in_group (base s) g m /\ ~ off s g m.

(** PI handles: a group handle is the group's number with bit 63 set; a member handle is its
    number. *)
Definition grp_handle (g : nat) : N := (N.of_nat g + 2 ^ 63)%N.
Definition mbr_handle (m : nat) : N := N.of_nat m.

(** The entry that serves a packet. *)
Inductive sserves (s : sst) (hash : option N) : idx -> nat * list N -> Prop :=
| ssv_mbr : forall m a, m_of (base s) m = Some a -> sserves s hash (Mbr m) a
| ssv_grp : forall g l a, g_of (base s) g <> None -> active_list s g l -> l <> [] ->
    m_of (base s) (pick l hash) = Some a -> sserves s hash (Grp g) a.

Definition is_apply (o : pop) : Prop :=
  match o with IApply _ _ _ _ _ => True | _ => False end.

Section Spec.
Variables (np : nat -> nat) (cs : list itcfg).

Inductive sspec_step (s : sst) : sop -> sout -> sst -> Prop :=
| ss_call : forall o x b, ~ is_apply o -> pspec_step np cs (base s) o x b ->
    sspec_step s (SCall o) (SPout x) (mkSst b (fun g m => off s g m /\ in_group b g m))
| ss_act_out : forall g m, ~ in_group (base s) g m ->
    sspec_step s (SActivate (grp_handle g) (mbr_handle m)) (SCode SNotIn) s
| ss_act : forall g m, in_group (base s) g m -> off s g m ->
    sspec_step s (SActivate (grp_handle g) (mbr_handle m)) (SCode SOk)
      (mkSst (base s) (fun g' m' => off s g' m' /\ ~ (g' = g /\ m' = m)))
| ss_act_on : forall g m, in_group (base s) g m -> ~ off s g m ->
    sspec_step s (SActivate (grp_handle g) (mbr_handle m)) (SCode SErr) s
| ss_deact_out : forall g m, ~ in_group (base s) g m ->
    sspec_step s (SDeactivate (grp_handle g) (mbr_handle m)) (SCode SNotIn) s
| ss_deact : forall g m, in_group (base s) g m -> ~ off s g m ->
    sspec_step s (SDeactivate (grp_handle g) (mbr_handle m)) (SCode SOk)
      (mkSst (base s) (fun g' m' => off s g' m' \/ (g' = g /\ m' = m)))
| ss_deact_off : forall g m, in_group (base s) g m -> off s g m ->
    sspec_step s (SDeactivate (grp_handle g) (mbr_handle m)) (SCode SErr) s
| ss_lookup : forall x hash a, sserves s hash x a -> sspec_step s (SLookup x hash) (SFound a) s
| ss_install : (forall g m, ~ in_group (base s) g m) -> sspec_step s SInstall SInstalled s.

(** The calls after which nothing is claimed: those of ProfileSpec.v, and installing a selector
    while a group has members. *)
Definition sdirty (s : sst) (o : sop) (x : sout) : Prop :=
  match o, x with
  | SCall o, SPout x => dirty o x
  | SInstall, _ => exists g m, in_group (base s) g m
  | _, _ => False
  end.

(** A packet that nothing can serve: its member or group is gone, or no member of the group is
    on. *)
Definition unserved (s : sst) (o : sop) : Prop :=
  match o with
  | SLookup (Mbr m) _ => m_of (base s) m = None
  | SLookup (Grp g) _ => g_of (base s) g = None \/ (forall m, in_group (base s) g m -> off s g m)
  | _ => False
  end.

(** The final state is [None] after a dirty call or an unserved packet; an unserved packet kills
    the process. *)
Inductive sspec_run : sst -> list sop -> list sout -> option sst -> Prop :=
| sr_nil : forall s, sspec_run s [] [] (Some s)
| sr_cons : forall s o x s' os xs r, ~ sdirty s o x -> sspec_step s o x s' ->
    sspec_run s' os xs r -> sspec_run s (o :: os) (x :: xs) r
| sr_dirty : forall s o x os xs, sdirty s o x -> sspec_run s (o :: os) (x :: xs) None
| sr_dead : forall s o os, unserved s o -> sspec_run s (o :: os) [] None.

Definition sst0 : sst := mkSst (wst0 (length cs)) (fun _ _ => False).

(** Well-formed calls: handles are those of some group or member number of 32 bits. *)
Definition sop_ok (o : sop) : Prop :=
  match o with
  | SCall o => pop_ok cs o /\ ~ is_apply o
  | SActivate g m | SDeactivate g m =>
      exists g' m', g = grp_handle g' /\ m = mbr_handle m' /\
        (N.of_nat g' < 2 ^ 32)%N /\ (N.of_nat m' < 2 ^ 32)%N
  | _ => True
  end.
End Spec.
