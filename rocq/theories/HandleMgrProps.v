(** C02: live handles are unique and exactly the handed-out, not yet released ones. *)
From Coq Require Import List Arith.
From Verif Require Import HandleMgrModel HandleMgrSpec HandleMgrProofs.
Import ListNotations.

(** Every history of get/release/valid/size/iterate/clear behaves, output for output, like
    the abstract allocator. *)
Theorem C02_handle_allocator : forall ops, (forall h, ~ In (HSet h) ops) ->
  exists m outs a, hm_run hm_empty ops = Some (m, outs) /\ a_run a_empty ops outs a.
Proof. exact run_ok_no_set. Qed.
Print Assumptions C02_handle_allocator.

Example C02_nonvacuous :
  exists m, hm_run hm_empty [HGet; HGet; HRelease 0; HGet; HIter; HSize; HValid 1; HRelease 7]
  = Some (m, [OHandle 0; OHandle 1; OOk true; OHandle 0; OList [0; 1]; ONum 2; OOk true; OOk false]).
Proof. eexists; vm_compute; reflexivity. Qed.

(** With [set_handle] included: the history behaves like the abstract allocator unless it
    reaches the one bad call. *)
Theorem C02_handle_allocator_with_set : forall ops,
  (exists m outs a, hm_run hm_empty ops = Some (m, outs) /\ a_run a_empty ops outs a) \/
  (exists pre o post outs a, ops = pre ++ o :: post /\ a_run a_empty pre outs a /\ bad_set a o).
Proof.
  exact (fun ops => match run_ok ops hm_empty a_empty R_empty with
   | or_introl (ex_intro _ m (ex_intro _ o (ex_intro _ a (conj x (conj y _))))) =>
       or_introl (ex_intro _ m (ex_intro _ o (ex_intro _ a (conj x y))))
   | or_intror x => or_intror x end).
Qed.
Print Assumptions C02_handle_allocator_with_set.

(** After the bad call the allocator hands out a handle that is already live. *)
Theorem C02_set_handle_refuted :
  exists m, hm_run hm_empty [HSet 0; HValid 0; HGet] = Some (m, [OOk true; OOk true; OHandle 0]).
Proof. eexists; vm_compute; reflexivity. Qed.
Print Assumptions C02_set_handle_refuted.
