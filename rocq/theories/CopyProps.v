(** C41: live copies of a packet have distinct copy ids. *)
From Coq Require Import List Arith NArith Bool Lia.
From Verif Require Import Base PhvModel CopyModel CopySpec CopyProofs CopyProofs2.
Import ListNotations.
Local Open Scope N_scope.

(** Any threads, any interleaving, any failed exchanges: live packets are distinct, if a counter is used by one packet id at a time and counts at most 65535 copies *)
Theorem C41_distinct : forall W es s made, 0 < W ->
  c_run W (c_start W) es = Some (s, made) -> slots_ok W (c_start W) es -> (forall k, N.of_nat (made_in W k made) <= 65535) ->
  NoDup (s_live s).
Proof.
  intros W es s made HW HR HS HB.
  destruct (inv_run W es (fun _ => 0) (c_start W) s made HW (inv_start W) HS HR) as [b HI].
  { intros k. specialize (HB k). lia. }
  exact (proj1 (proj2 HI)).
Qed.
(** When calls do not overlap, the bound is per packet: counters start again with every packet, for ever *)
Theorem C41_distinct_uninterrupted : forall W l s made, 0 < W ->
  c_run W (c_start W) (flat_map whole l) = Some (s, made) -> slots_ok W (c_start W) (flat_map whole l) ->
  NoDup (creations l) -> (forall p, N.of_nat (copies p l) <= 65535) ->
  NoDup (s_live s) /\ (s_live s = [] -> s = c_start W).
Proof.
  intros W l s made HW HR HS HD HC.
  pose proof (seq_run W HW l [] (c_start W) s made (seq_start W HW) HD HC HS HR) as (I1 & I2 & I3 & _ & _ & _ & I4).
  split; [exact I3|]. intros E. destruct s as [arr live calls]; cbn [s_arr s_live s_calls] in *. subst calls live. unfold c_start. f_equal.
  apply nth_error_ext. intros k. destruct (nth_error arr k) as [c|] eqn:Ek.
  - assert (Hk : (k < N.to_nat W)%nat) by (rewrite <- I2; apply nth_error_Some; rewrite Ek; discriminate).
    rewrite (proj1 (I4 k c Ek) eq_refl). symmetry. apply nth_error_repeat. exact Hk.
  - apply nth_error_None in Ek. symmetry. apply nth_error_None. rewrite repeat_length. lia.
Qed.
(** A clone is given an id that no live packet with its packet id has *)
Theorem C41_clone_is_new : forall W es s made t sp s' p i, 0 < W ->
  c_run W (c_start W) es = Some (s, made) -> slots_ok W (c_start W) es -> (forall k, N.of_nat (made_in W k (made ++ [(p, i)])) <= 65535) ->
  c_step W s (ETry t sp) = Some (s', Some (p, i)) -> ~ In (p, i) (s_live s) /\ In (p, i) (s_live s').
Proof.
  intros W es s made t sp s' p i HW HR HS HB HT.
  assert (HR2 : c_run W (c_start W) (es ++ [ETry t sp]) = Some (s', made ++ [(p, i)])).
  { rewrite c_run_app by exact HW; rewrite HR. cbn [bind fst snd c_run]. rewrite HT. cbn [bind fst snd]. reflexivity. }
  assert (HS2 : slots_ok W (c_start W) (es ++ [ETry t sp])).
  { clear HR2 HB HT. revert HR HS. generalize (c_start W) as s0. revert made. induction es as [|e r IH]; intros made s0 HR HS; cbn [app slots_ok c_run] in *.
    - split; [exact I|]. destruct (c_step W s0 (ETry t sp)) as [[s1 o]|]; exact I.
    - destruct HS as [A B]. split; [exact A|]. destruct (c_step W s0 e) as [[s1 o]|] eqn:E; [|exact I]. cbn [bind fst snd] in HR.
      destruct (c_run W s1 r) as [[s2 o2]|] eqn:E2; [|discriminate]. cbn [bind fst snd] in HR. injection HR as -> _. exact (IH _ s1 E2 B). }
  pose proof (C41_distinct W _ s' _ HW HR2 HS2 HB) as ND.
  cbn [c_step] in HT. destruct (find_call (s_calls s) t) as [c|]; [|discriminate]. cbn [bind] in HT.
  destruct (nth_error (s_arr s) (idx W (fst (of_call c)))) as [cur|]; [|discriminate]. cbn [bind] in HT.
  destruct c as [pid cid old|pid cid old new]; cbn [of_call fst] in HT; destruct (negb sp && cntr_eqb cur old); try discriminate.
  injection HT as <- <- E. cbn [s_live] in *. rewrite <- E. inversion ND as [|? ? H1 H2]; subst. split; [exact H1|left; reflexivity].
Qed.

(** Two packets whose ids differ by 4096 are alive at the same time *)
Definition shared_slot : list aev := [ANew 0; AClone 0 0; ANew 4096; ADestroy 4096 0; ADestroy 0 0; AClone 0 1].
Theorem C41_shared_slot_refuted : ~ (forall l s made, c_run 4096 (c_start 4096) (flat_map whole l) = Some (s, made) -> NoDup (creations l) -> NoDup (s_live s)).
Proof.
  intros H. destruct (c_run 4096 (c_start 4096) (flat_map whole shared_slot)) as [[s made]|] eqn:E; [|vm_compute in E; discriminate].
  specialize (H _ _ _ E). assert (Hd : NoDup (creations shared_slot)) by (repeat constructor; cbn; intuition discriminate). specialize (H Hd).
  assert (Hl : s_live s = [(0, 1); (0, 1)]) by (revert E; vm_compute; intros E; injection E as <- _; reflexivity).
  rewrite Hl in H. inversion H as [|? ? H1 H2]; subst. apply H1. left; reflexivity.
Qed.

(** Three copies destroyed at once, one of the destructors retrying: no packet is left but the counter still counts one *)
Definition slow_small : list cev :=
  flat_map whole [ANew 0; AClone 0 0; AClone 0 0] ++ [EDestroy 1 0 0] ++ flat_map whole [ADestroy 0 1; ADestroy 0 2] ++ [ETry 1 false; ETry 1 false].
Theorem C41_counter_restarts_refuted : ~ (forall es s made, c_run 4096 (c_start 4096) es = Some (s, made) -> slots_ok 4096 (c_start 4096) es -> s_live s = [] -> s_calls s = [] -> s = c_start 4096).
Proof.
  intros H. destruct (c_run 4096 (c_start 4096) slow_small) as [[s made]|] eqn:E; [|vm_compute in E; discriminate]. specialize (H _ _ _ E).
  assert (HS : slots_ok 4096 (c_start 4096) slow_small).
  { vm_compute. repeat split; auto. }
  specialize (H HS).
  assert (Hl : s_live s = [] /\ s_calls s = [] /\ nth_error (s_arr s) 0 = Some (mk_c 0 1)) by (revert E; vm_compute; intros E; injection E as <- _; auto).
  destruct Hl as (H1 & H2 & H3). specialize (H H1 H2). subst s. vm_compute in H3. discriminate.
Qed.

(** Non-vacuity: two packets, each in its own slot, with copies; two destructors and a clone interleaved, with failed exchanges *)
Definition busy : list cev :=
  flat_map whole [ANew 5; ANew 6; AClone 5 0; AClone 5 1] ++
  [EDestroy 1 5 0; EClone 2 5 1; EDestroy 3 6 0; ETry 2 true; ETry 1 false; ETry 2 false; ETry 3 false; ETry 2 false; EClone 2 5 3; ETry 2 false; ENew 4102].
Example busy_ok : exists s made, c_run 4096 (c_start 4096) busy = Some (s, made) /\ slots_ok 4096 (c_start 4096) busy /\
  made = [(5, 1); (5, 2); (5, 3); (5, 4)] /\ s_live s = [(4102, 0); (5, 4); (5, 3); (5, 2); (5, 1)].
Proof.
  destruct (c_run 4096 (c_start 4096) busy) as [[s made]|] eqn:E; [|vm_compute in E; discriminate]. exists s, made. split; [reflexivity|]. split.
  - clear E. vm_compute. repeat split; auto; intros x Hx; repeat (destruct Hx as [<-|Hx]; [discriminate|]); destruct Hx.
  - revert E. vm_compute. intros E. injection E as <- <-. auto.
Qed.

Print Assumptions C41_distinct.
Print Assumptions C41_distinct_uninterrupted.
Print Assumptions C41_clone_is_new.
Print Assumptions C41_shared_slot_refuted.
Print Assumptions C41_counter_restarts_refuted.
