(** C50: loading and swapping configurations. *)
From Coq Require Import List Arith Bool Lia.
From Verif Require Import SwapModel SwapSpec SwapProofs SwapProofs2.
Import ListNotations.

(** For any number of contexts, any threads calling load_new_config, swap_configs and do_swap, any
    packets created, copied within their context, processed and destroyed, and any interleaving:
    what happens is what the specification allows.  So a context takes a load exactly when none is
    waiting to be swapped in, takes a swap request exactly when one is, runtime operations act on
    the newest configuration, a packet has header vectors of and is processed by the configuration
    it was created under, a context swaps to exactly what was loaded and only when it has no
    packets, and no assertion fails unless two swap calls overlap. *)
Theorem C50_protocol : forall (J : Type) enabled init n (j : J) ls, 0 < n ->
  forallb no_cross ls = true ->
  exists a, accepts enabled n (sp_start n j) (snd (run enabled init (start n j) ls)) a.
Proof.
  intros J enabled init n j ls Hn F. destruct (run_ok enabled init n Hn ls _ _ (start_ok enabled init n Hn j) F) as (a & A & _). eauto.
Qed.

(** If calls are made one at a time: each returns what the switch as a whole, with one
    configuration in use and at most one waiting, says it should; and afterwards, in every
    context, packets get the configuration in use, and runtime operations, and get_config, the
    newest. *)
Theorem C50_calls : forall (J : Type) enabled init n (j : J) ls, 0 < n ->
  forallb no_cross ls = true ->
  let s := fst (run enabled init (start n j) ls) in
  let es := snd (run enabled init (start n j) ls) in
  one_at_a_time false es ->
  exists w, sw_run enabled (mkSw j None) (map fst (completed es)) = (w, map snd (completed es)) /\
    (forall i, i < n ->
       (exists s', step enabled init s (LNew i) = Some (s', [VNew (fresh s) i (w_live w)])) /\
       step enabled init s (LRun i) = Some (s, [VRun i (match w_next w with Some x => x | None => w_live w end)])) /\
    step enabled init s LGet = Some (s, [VGet (Some (match w_next w with Some x => x | None => w_live w end))]).
Proof.
  intros J enabled init n j ls Hn F s es O. subst s es.
  destruct (run_ok enabled init n Hn ls _ _ (start_ok enabled init n Hn j) F) as (a & A & R).
  destruct (run enabled init (start n j) ls) as [s es] eqn:Er. cbn [fst snd] in *.
  destruct (seq_ok enabled n Hn es _ _ false a (U_start enabled n j) A O) as (w & W & [Ca La [Op Cx]]).
  exists w. split; [exact W|]. destruct R as [D|I].
  { exfalso. pose proof (dead_run enabled init ls (start n j)) as X. rewrite Er in X.
    exact (calm_run enabled init n es _ _ A Ca (X eq_refl D)). }
  assert (Idle : forall t, pcs s t = PIdle).
  { intros t. pose proof (v_open _ _ _ _ I t) as Q. unfold OPEN in Q. rewrite (Op t) in Q.
    destruct (pcs s t); auto; try discriminate; repeat match goal with H : _ /\ _ |- _ => destruct H | H : exists _, _ |- _ => destruct H end; discriminate. }
  assert (Pm : pmut s = None).
  { destruct (pmut s) as [t|] eqn:P; auto. apply (v_pm _ _ _ _ I) in P. rewrite Idle in P. discriminate. }
  assert (Cm : cmut s = None).
  { destruct (cmut s) as [t|] eqn:P; auto. apply (v_cm _ _ _ _ I) in P. rewrite Idle in P. discriminate. }
  split.
  - intros i Li. destruct (nth_n enabled n Hn s a i I Li) as (c & Ec).
    destruct (v_cx _ _ _ _ I i c Ec) as (k & Ek & (A1 & A2 & A3 & A4 & A5 & A6 & A7 & A8 & A9)).
    destruct (ctxs_get _ _ _ _ _ Cx Ek) as [_ ->]. cbn [s_live s_next s_req] in *.
    unfold step. rewrite (v_dead _ _ _ _ I), Pm. split.
    + unfold new_packet. rewrite Ec. unfold pool_get.
      assert (Ef : c_fac c = c_live c) by (apply A7; intros t b rc; rewrite Idle; discriminate).
      destruct (c_free c) as [|x r]; [rewrite Ef, A1; eauto|]. inversion A6 as [|? ? G1 G2]; subst x. rewrite Ef, A1. eauto.
    + rewrite Ec. destruct (Nat.eq_dec (c_live c) (c_rt c)) as [E|E].
      * rewrite (A2 E). rewrite <- E, A1. reflexivity.
      * destruct (A3 E) as (j' & -> & ->). reflexivity.
  - unfold step. rewrite (v_dead _ _ _ _ I), Cm, (v_cur _ _ _ _ I), La. reflexivity.
Qed.

(** A configuration that init_objects rejects is nevertheless loaded, with success, and packets
    can be made to use it. *)
Theorem C50_bad_config_refused_refuted : ~ (forall (J : Type) init n (j : J) ls p i j',
  init j = true -> In (VUse p i j' j') (snd (run true init (start n j) ls)) -> init j' = true).
Proof.
  intros H. specialize (H bool (fun b => b) 1 true
    [LCall 0 (CLoad false); LGo 0; LGo 0; LCall 0 CSwap; LGo 0; LGo 0; LGo 0; LGo 0; LGo 0; LGo 0; LGo 0; LGo 0; LGo 0; LNew 0; LUse 0] 0 0 false eq_refl).
  assert (X : false = true); [apply H; vm_compute; auto 20|discriminate].
Qed.
(** When two swap calls overlap, the assertion that the second one swaps something can fail. *)
Theorem C50_concurrent_swaps_refuted : ~ (forall (J : Type) init n (j : J) ls, 0 < n -> forallb no_cross ls = true ->
  ~ In VAbort (snd (run true init (start n j) ls))).
Proof.
  intros H. apply (H bool (fun b => b) 1 true
    ([LCall 0 (CLoad false); LGo 0; LGo 0; LCall 0 CSwap; LCall 1 CSwap; LGo 0; LGo 1] ++ repeat (LGo 0) 9 ++ repeat (LGo 1) 3)); [lia|reflexivity|].
  vm_compute; auto 20.
Qed.
(** When a packet of one context is copied into another during a swap, the pool's assertion that no
    header vector is in use can fail, although calls are made one at a time. *)
Theorem C50_cross_context_copy_refuted : ~ (forall (J : Type) init n (j : J) ls, 0 < n ->
  (exists es, snd (run true init (start n j) ls) = es ++ [VAbort] /\ one_at_a_time false (es ++ [VRet 0 CSwap true])) -> False).
Proof.
  intros H. apply (H bool (fun b => b) 2 true
    ([LNew 1; LCall 0 (CLoad false); LGo 0; LGo 0; LGo 0; LCall 0 CSwap] ++ repeat (LGo 0) 7 ++ [LCloneTo 0 0; LGo 0; LGo 0])); [lia|].
  exists [VNew 0 1 true; VCall 0 (CLoad false); VLoad 0 0 false true; VLoad 0 1 false true; VRet 0 (CLoad false) true;
    VCall 0 CSwap; VReq 0 0 true; VReq 0 1 true; VNew 1 0 true; VSwapped 0 0].
  split; [reflexivity|cbn; auto 20].
Qed.
(** While a load is going on, a swap call can be refused and yet leave a request behind, which the
    target then carries out for one context only. *)
Theorem C50_refused_swap_changes_nothing_refuted : ~ (forall (J : Type) init n (j : J) ls, 0 < n -> forallb no_cross ls = true ->
  (forall t, ~ In (VRet t CSwap true) (snd (run true init (start n j) ls))) ->
  forall t i, ~ In (VSwapped t i) (snd (run true init (start n j) ls))).
Proof.
  intros H. apply (H bool (fun b => b) 2 true
    ([LCall 0 (CLoad false); LGo 0; LCall 1 CSwap; LGo 1; LGo 1; LCall 1 CDo] ++ repeat (LGo 1) 9)) with (t := 1) (i := 0); [lia|reflexivity| |].
  - intros t. vm_compute. intuition discriminate.
  - vm_compute. auto 20.
Qed.

(** Schedules that meet the hypotheses and do something *)
Example C50_example :
  snd (run true (fun _ : nat => true) (start 2 7)
    ([LNew 0; LCall 0 (CLoad 8); LGo 0; LRun 0; LGo 0; LGo 0; LUse 0; LCall 1 (CLoad 9); LGo 1; LCall 0 CSwap] ++ repeat (LGo 0) 6 ++
     [LNew 1; LDrop 0] ++ repeat (LGo 0) 12 ++ [LNew 1; LUse 1])) =
  [VNew 0 0 7; VCall 0 (CLoad 8); VLoad 0 0 8 true; VRun 0 8; VLoad 0 1 8 true; VRet 0 (CLoad 8) true; VUse 0 0 7 7;
   VCall 1 (CLoad 9); VLoad 1 0 9 false; VRet 1 (CLoad 9) false; VCall 0 CSwap; VReq 0 0 true; VReq 0 1 true; VDrop 0;
   VSwapped 0 0; VSwapped 0 1; VNotify 0; VRet 0 CSwap true; VNew 1 1 8; VUse 1 1 8 8].
Proof. reflexivity. Qed.
Example C50_calls_example : one_at_a_time false
  (snd (run true (fun _ : nat => true) (start 2 7) ([LCall 0 (CLoad 8); LGo 0; LGo 0; LGo 0; LCall 0 CSwap] ++ repeat (LGo 0) 16))) /\
  completed (snd (run true (fun _ : nat => true) (start 2 7) ([LCall 0 (CLoad 8); LGo 0; LGo 0; LGo 0; LCall 0 CSwap] ++ repeat (LGo 0) 16))) =
  [(CLoad 8, true); (CSwap, true)].
Proof. split; [vm_compute; auto 20|reflexivity]. Qed.

Print Assumptions C50_protocol.
Print Assumptions C50_calls.
Print Assumptions C50_bad_config_refused_refuted.
Print Assumptions C50_concurrent_swaps_refuted.
Print Assumptions C50_cross_context_copy_refuted.
Print Assumptions C50_refused_swap_changes_nothing_refuted.
