(** Specification of save and restore: what a restored entry store has in common with the saved
    one.  Independent of the words of the stream and of handle managers. *)
From Coq Require Import List Arith NArith ZArith Bool.
From Verif Require Import Bits EntryListModel MatchUnitModel MatchUnitSpec TableModel TableSpec
  ProfileModel ProfileSpec.
Import ListNotations.

(** The same key, as far as a key of this kind has contents. *)
Definition key_same (kd : mkind) (a b : mkey) : Prop :=
  k_data a = k_data b /\
  match kd with
  | KExact => True
  | KLpm => k_plen a = k_plen b
  | KTernary => k_mask a = k_mask b /\ k_prio a = k_prio b
  | KRange => k_mask a = k_mask b /\ k_prio a = k_prio b /\ k_widths a = k_widths b
  end.

(** [t'] is [t] restored, slot [i] at time [now i]: the same entries in the same slots, under the
    same handles, with the same timeouts; counters start again from zero, and so do the generation
    numbers of the free slots. *)
Definition restored {V} (kd : mkind) (now : nat -> N) (t t' : stab V) : Prop :=
  forall i,
    match slot_of t i with
    | None => slot_of t' i = None /\ gen t' i = 0 /\ ttl t' i = 0%N
    | Some e => exists e', slot_of t' i = Some e' /\ key_same kd (s_key e) (s_key e') /\
        s_val e' = s_val e /\ s_ts e' = now i /\ s_bytes e' = 0%N /\ s_pkts e' = 0%N /\
        gen t' i = gen t i /\ ttl t' i = ttl t i
    end.

Definition is_add {V} (o : mop V) : Prop := match o with MAdd _ _ _ => True | _ => False end.

(** The rows a client believes to be installed, with their counters at zero. *)
Definition zero_rows (rows : nat -> option row) : nat -> option row :=
  fun i => match rows i with Some r => Some (set_counts r 0 0) | None => None end.

Definition is_tadd (o : top) : Prop := match o with TAdd _ _ _ _ _ => True | _ => False end.

(** A whole switch: members and groups unchanged, every table restored. *)
Definition wst_restored (cs : list itcfg) (now : nat -> nat -> N) (s s' : wst) : Prop :=
  (forall m, m_of s' m = m_of s m) /\ (forall g, g_of s' g = g_of s g) /\
  length (tabs s') = length (tabs s) /\
  forall j c t d, nth_error cs j = Some c -> nth_error (tabs s) j = Some (t, d) ->
    exists t', nth_error (tabs s') j = Some (t', d) /\ restored (ic_kd c) (now j) t t'.

Definition is_padd (o : pop) : Prop :=
  match o with PAddMember _ _ | PAddGroup | IAdd _ _ _ _ => True | _ => False end.
