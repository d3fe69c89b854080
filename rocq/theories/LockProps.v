(** C55: concurrent calls on match tables and the action profile they share. *)
From Coq Require Import List Arith NArith ZArith Bool Lia.
From Verif Require Import Base Bits EntryListModel MatchUnitModel MatchUnitSpec TableModel TableSpec
  ProfileModel ProfileSpec ProfileProofs3 ProfileProofs4 LockModel LockSpec LockProofs LockProofs2 LockProofs3 LockExec.
Import ListNotations.

(** Whatever calls any number of threads make and however their steps interleave, the calls and
    returns seen outside can be explained by letting each call execute alone, at one instant
    between its call and its return; until then nobody saw any of it, afterwards everybody sees all
    of it.  This holds up to a call that would kill the process when executed alone. *)
Theorem C55_atomic : forall np cs h m,
  mrun pop (locks np cs) (acts np cs) tab_of (mach0 pop (w_new cs)) h m ->
  atomic (alone np cs) (Some (w_new cs)) (fun _ => None) h.
Proof.
  intros np cs h m R. eapply run_inv; eauto. apply Inv0. cbn. apply map_length.
Qed.
Print Assumptions C55_atomic.

(** For well-formed calls, that explanation follows the specification of action profiles and
    indirect tables (C11, C12: members and groups in use exist, packets run the action of a current
    member, ...), and the process does not die, up to the first call that leaves the reference
    counts wrong. *)
Theorem C55_specification : forall np cs h m, cfg_ok cs -> calls_ok (pop_ok cs) h ->
  mrun pop (locks np cs) (acts np cs) tab_of (mach0 pop (w_new cs)) h m ->
  atomic (one_by_one np cs) (Some (wst0 (length cs))) (fun _ => None) h.
Proof.
  intros np cs h m CO C R. eapply (spec_of_alone np cs CO); [eapply C55_atomic; eauto|reflexivity| |auto|discriminate].
  apply WR_new.
Qed.
Print Assumptions C55_specification.

(** No deadlock, even when readers queue behind waiting writers: as long as the process lives and
    some call is under way, some thread can go on. *)
Theorem C55_no_deadlock : forall np cs h m t,
  mrun pop (locks np cs) (acts np cs) tab_of (mach0 pop (w_new cs)) h m ->
  m_dead pop m = false -> m_t pop m t <> Idle ->
  exists u, can_go m u /\ exists h' m', mstep pop (locks np cs) (acts np cs) tab_of m u h' m'.
Proof.
  intros np cs h m t R D N. destruct (bounded_run np cs _ _ _ R 0) as (n & B); [intros u _; reflexivity|].
  eapply live; eauto. eapply Live_run; eauto. apply Live0.
Qed.
Print Assumptions C55_no_deadlock.

(** ** A concrete interleaving *)
Definition lx_c : itcfg := mkIC KExact 1 4 false
  (mkCfg (fun _ => 1) (fun a => Some (Some (10 + a))) None (Some (Some 99)) (mkA None [] (Some 99)) false None false false).
Definition lx_np : nat -> nat := fun _ => 1.

Definition lx_key : mkey := mkKey [3%N] [] 0 0 [].
Definition lx_exec (sch : list (nat * option pop)) :=
  exec pop (locks lx_np [lx_c]) (acts lx_np [lx_c]) tab_of 3 (mach0 pop (w_new [lx_c])) sch.
Definition ok {A} (o : option A) : bool := match o with Some _ => true | None => false end.
Definition go (t k : nat) : list (nat * option pop) := repeat (t, None) k.

(** An entry points at member 0.  Thread 1's packet takes its locks; thread 0 wants to modify the
    member and has to wait; meanwhile thread 2 reads the entry.  The packet runs the old action; a
    packet after it runs the new one. *)
Definition lx_sch : list (nat * option pop) :=
  [(0, Some (PAddMember 7 [5%N]))] ++ go 0 7 ++ [(0, Some (IAdd 0 0 (Some lx_key) (Mbr 0)))] ++ go 0 8 ++
  [(0, Some (PModMember 0 8 [6%N])); (1, Some (IApply 0 1 60 [3%N] None)); (2, Some (IGet 0 0))] ++
  go 1 2 ++ go 2 1 ++ go 1 2 ++ go 2 3 ++ go 1 6 ++ go 0 4 ++ [(0, None)] ++
  [(1, Some (IApply 0 2 60 [3%N] None))] ++ go 1 10.
Example C55_run :
  hist pop (lx_exec lx_sch) =
    [HCall 0 (PAddMember 7 [5%N]); HRet 0 (PNewMbr 0);
     HCall 0 (IAdd 0 0 (Some lx_key) (Mbr 0)); HRet 0 (PHandle 0);
     HCall 0 (PModMember 0 8 [6%N]); HCall 1 (IApply 0 1 60 [3%N] None); HCall 2 (IGet 0 0);
     HRet 2 (PIndex (Mbr 0)); HRet 1 (PApplied (Some 0%N) (Some 7) [5%N] (Some 17)); HRet 0 POk;
     HCall 1 (IApply 0 2 60 [3%N] None); HRet 1 (PApplied (Some 0%N) (Some 8) [6%N] (Some 18))].
Proof. vm_compute. reflexivity. Qed.
Example C55_run_real : exists m,
  mrun pop (locks lx_np [lx_c]) (acts lx_np [lx_c]) tab_of (mach0 pop (w_new [lx_c])) (hist pop (lx_exec lx_sch)) m.
Proof. apply exec_hist. assert (E : ok (lx_exec lx_sch) = true) by (vm_compute; reflexivity).
  intros N. unfold lx_exec in E. rewrite N in E. discriminate E. Qed.

(** Comparing two table iterators with != takes the table's read lock twice; if a writer comes in
    between, with readers queueing behind waiting writers, neither thread ever goes on. *)
Theorem C55_iterator_refuted :
  ~ (forall cs h m t, mrun iop it_locks it_acts it_tab (mach0 iop (w_new cs)) h m ->
      m_t iop m t <> Idle -> exists u, can_go m u).
Proof.
  intros H.
  set (m0 := mach0 iop (w_new [])).
  set (m1 := mkM iop (w_new []) (put iop (m_t iop m0) 0 (Run ItDiffer (code_of (it_locks ItDiffer) (it_acts ItDiffer)) l0 [])) false).
  set (m2 := mkM iop (w_new []) (put iop (m_t iop m1) 0
     (Run ItDiffer (tl (code_of (it_locks ItDiffer) (it_acts ItDiffer))) l0 [(MT 0, false)])) false).
  set (m3 := mkM iop (w_new []) (put iop (m_t iop m2) 1 (Run ItDelete (code_of (it_locks ItDelete) (it_acts ItDelete)) l0 [])) false).
  assert (R : mrun iop it_locks it_acts it_tab m0 [HCall 0 ItDiffer; HCall 1 ItDelete] m3).
  { apply (mr_step _ _ _ _ _ 0 [HCall 0 ItDiffer] m1); [apply ms_call; reflexivity|].
    apply (mr_step _ _ _ _ _ 0 [] m2).
    { apply (ms_acq iop it_locks it_acts it_tab m1 0 ItDiffer (MT 0, false)
               (tl (code_of (it_locks ItDiffer) (it_acts ItDiffer))) l0 []); [reflexivity|reflexivity|].
      intros t b I. destruct t as [|t]; destruct I. }
    apply (mr_step _ _ _ _ _ 1 [HCall 1 ItDelete] m3); [apply ms_call; reflexivity|]. constructor. }
  destruct (H _ _ _ 0 R) as (u & G); [discriminate|].
  destruct u as [|[|u]].
  - destruct G as [_ G]. apply (G eq_refl 1). reflexivity.
  - destruct G as [G _]. destruct (G 0 false); [left; reflexivity|discriminate].
  - exact G.
Qed.
Print Assumptions C55_iterator_refuted.
