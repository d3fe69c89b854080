(** C54: the life of packets. *)
From Coq Require Import List Arith NArith Bool Lia Permutation.
From Verif Require Import PacketModel PacketSpec PacketProofs PacketProofs2.
Import ListNotations.

(** Whatever is done with packets (creating, cloning, moving, assigning, destroying, changing context,
    reading and writing them), what they show is what the specification says: a clone is a new packet
    with its own bytes, a move moves everything, nothing done to one packet changes another. *)
Theorem C54_attributes : forall sg n os s xs, run sg (start n) os = Some (s, xs) ->
  along sg plain_move (start n) os -> follows sg no_packets os xs.
Proof. intros sg n os s xs E G. eapply run_rel; [|exact G|exact E]. intros v. exact I. Qed.

(** No operation on packets that exist, with contexts that exist, fails. *)
Theorem C54_no_failure : forall sg n os, all_legal sg n no_packets os -> along sg plain_move (start n) os -> run sg (start n) os <> None.
Proof.
  intros sg n os L G. eapply run_some; [|split|exact G|exact L]; [intros v; exact I|apply repeat_length|]. intros v x E. discriminate.
Qed.

(** Header vectors: the one of a packet was built for the context of the packet; those in the pool
    of a context were built for it; each one ever made is in exactly one place; and the number the
    pool has in use is the number held by packets of the context. *)
Theorem C54_header_vectors : forall sg n os s xs, run sg (start n) os = Some (s, xs) ->
  along sg safe_assign (start n) os -> (N.of_nat (length os) + 1 < 2 ^ 64)%N ->
  (forall v a x, look (vars s) v = Some (mkVar a (Some x)) -> snd x = a_cxt a) /\
  (forall c p, nth_error (pools s) c = Some p ->
     (forall x, In x (free p) -> snd x = c) /\ count p = N.of_nat (length (filter (fun h => fst (fst h) =? c) (held s)))) /\
  Permutation (map (fun h => fst (snd h)) (held s) ++ map fst (flat_map free (pools s))) (seq 0 (next s)).
Proof.
  intros sg n os s xs E G L. destruct (run_ok sg os (start n) 0 [] s xs (INV_start n) L G E) as [A [B C D] _ _]. split; [|split].
  - intros v a x Ev. rewrite Forall_forall in B. apply (B (a_cxt a, a_pid a, x)).
    apply (Permutation_in _ (Permutation_sym (heldl_look _ _ _ A Ev))). left. reflexivity.
  - intros c p Ep. destruct (C c p Ep) as [F Q]. rewrite Forall_forall in F. auto.
  - exact D.
Qed.
(** So when the packets are gone, no header vector is in use, and the copies of each packet id have
    been given back as often as they were made. *)
Theorem C54_all_released : forall sg n os s xs, run sg (start n) os = Some (s, xs) ->
  along sg safe_assign (start n) os -> (N.of_nat (length os) + 1 < 2 ^ 64)%N -> vars s = [] ->
  (forall c p, nth_error (pools s) c = Some p -> count p = 0%N) /\
  Permutation (map fst (flat_map free (pools s))) (seq 0 (next s)) /\
  forall i, count_occ N.eq_dec (removed s) i = count_occ N.eq_dec (births sg (start n) os) i.
Proof.
  intros sg n os s xs E G L V. destruct (run_ok sg os (start n) 0 [] s xs (INV_start n) L G E) as [A [B C D] _ R]. rewrite V in *. cbn [heldl flat_map map app] in *. split; [|split].
  - intros c p Ep. destruct (C c p Ep) as [_ Q]. exact Q.
  - exact D.
  - intros i. specialize (R i). cbn [alive filter length app] in R. rewrite Nat.add_0_r in R.
    assert (Z : forall l, gone i l = count_occ N.eq_dec l i).
    { clear. intros l. unfold gone. induction l as [|x l IH]; cbn [filter count_occ]; [reflexivity|]. destruct (N.eq_dec x i) as [Q|Q].
      - subst x. rewrite N.eqb_refl. cbn [length]. f_equal. exact IH.
      - destruct (N.eqb_spec i x); [congruence|exact IH]. }
    rewrite <- !Z. exact R.
Qed.

(** The move constructor and the move assignment forget that a packet was truncated; also its entry
    index, error code and checksum error. *)
Theorem C54_move_keeps_everything_refuted : ~ (forall sg n os s xs, run sg (start n) os = Some (s, xs) -> follows sg no_packets os xs).
Proof.
  intros H. specialize (H (fun _ => 0%N) 1 [ONew 0 0 0 0 0 2 [1; 2]%N 8 0; OSet 0 (STrunc 1); OMove 0 1; OGet 1] _ _ eq_refl).
  destruct H as (_ & _ & _ & (a & m & E & _ & F) & _). injection E as <- <-. vm_compute in F. discriminate.
Qed.
(** Assigning to a packet of another context: its old header vector ends up in the wrong pool, where a
    later packet finds it; and the pools' numbers in use are wrong for good (one of them negative). *)
Theorem C54_assignment_between_contexts_refuted : ~ (forall sg n os s xs, run sg (start n) os = Some (s, xs) ->
  forall v a x, look (vars s) v = Some (mkVar a (Some x)) -> snd x = a_cxt a).
Proof.
  intros H. specialize (H (fun _ => 0%N) 2 [ONew 0 0 0 0 0 1 [1]%N 8 0; ONew 1 1 0 1 0 1 [1]%N 8 0; OAssign 0 1; ODel 1; ONew 2 1 0 2 0 1 [1]%N 8 0] _ _ eq_refl).
  specialize (H 2 _ _ eq_refl). vm_compute in H. discriminate.
Qed.
Theorem C54_in_use_after_assignment_refuted : ~ (forall sg n os s xs, run sg (start n) os = Some (s, xs) -> vars s = [] ->
  forall c p, nth_error (pools s) c = Some p -> count p = 0%N).
Proof.
  intros H. specialize (H (fun _ => 0%N) 2 [ONew 0 0 0 0 0 1 [1]%N 8 0; ONew 1 1 0 1 0 1 [1]%N 8 0; OAssign 0 1; ODel 1; ODel 0] _ _ eq_refl eq_refl).
  specialize (H 0 _ eq_refl). vm_compute in H. discriminate.
Qed.
(** Assigning to a packet with another id: the copies of one id are given back twice, those of the
    other never. *)
Theorem C54_copies_after_assignment_refuted : ~ (forall sg n os s xs, run sg (start n) os = Some (s, xs) -> vars s = [] ->
  forall i, count_occ N.eq_dec (removed s) i = count_occ N.eq_dec (births sg (start n) os) i).
Proof.
  intros H. specialize (H (fun _ => 0%N) 1 [ONew 0 0 0 0 0 1 [1]%N 8 0; ONew 1 0 0 1 0 1 [1]%N 8 0; OAssign 0 1; ODel 1; ODel 0] _ _ eq_refl eq_refl 0%N).
  vm_compute in H. discriminate.
Qed.
(** The signature, documented as the hash of the incoming packet data, and the time of arrival: a clone made
    after the headers were removed has others. *)
Theorem C54_clone_signature_refuted : ~ (forall sg n os v w s a b x y cid now xs, run sg (start n) (os ++ [OClone v w cid now]) = Some (s, xs) ->
  look (vars s) v = Some (mkVar a x) -> look (vars s) w = Some (mkVar b y) -> a_sig b = a_sig a).
Proof.
  intros H. specialize (H (fun l => N.of_nat (length l)) 1 [ONew 0 0 0 0 0 2 [1; 2]%N 8 0; OSet 0 (SRemove 1)] 0 1). 
  assert (X : (1 = 2)%N); [|discriminate]. exact (H _ _ _ _ _ 1%N 5%N _ eq_refl eq_refl eq_refl).
Qed.

Definition ex_sg (l : list N) : N := fold_right N.add 0%N l.
Definition ex_ops : list op :=
  [ONew 0 0 3 7 0 2 [10; 20]%N 8 100; OSet 0 (SReg 1 5); OMove 0 1; OSet 1 (STrunc 1); OClone 1 2 1 200; OSet 1 (SRemove 1); OSet 1 (SPrepend [1; 2; 3]%N);
   OCtx 2 1; OGet 1; OGet 2; ODel 0; ODel 1; ODel 2].
Example C54_example : match run ex_sg (start 2) ex_ops with
  | Some (s, xs) => vars s = [] /\ skipn 8 xs =
     [Shows (mkAt 0 3 0 7 0 2 false 30 [1; 2; 3; 20]%N 8 0 (Some 1) 100 [None; Some 5%N; None; None] None None false) 1;
      Shows (mkAt 1 3 0 7 1 2 false 30 [10; 20]%N 8 0 None 200 [None; None; None; None] None None false) 2; Nothing; Nothing; Nothing] /\
     removed s = [7; 7]%N /\ births ex_sg (start 2) ex_ops = [7; 7]%N
  | None => False end.
Proof. vm_compute. repeat split. Qed.
Example C54_example_hyp : along ex_sg plain_move (start 2) ex_ops /\ along ex_sg safe_assign (start 2) ex_ops /\ all_legal ex_sg 2 no_packets ex_ops.
Proof.
  split; [|split].
  - vm_compute. repeat split; intros; try discriminate. all: match goal with E : Some _ = Some _ |- _ => inversion E; subst; reflexivity end.
  - vm_compute. repeat split; intros; discriminate.
  - cbn. unfold full, put_, no_packets. cbn. repeat split; try lia; try discriminate; eexists; (split; [reflexivity|]) || reflexivity; vm_compute; try lia; auto.
Qed.
Example C54_example_assign : along ex_sg safe_assign (start 1) [ONew 0 0 0 0 0 1 [1]%N 8 0; OMove 0 1; ONew 2 0 0 5 0 1 [1]%N 8 0; OAssign 0 2; OGet 0].
Proof. vm_compute. repeat split; intros; discriminate. Qed.

Print Assumptions C54_attributes.
Print Assumptions C54_no_failure.
Print Assumptions C54_header_vectors.
Print Assumptions C54_all_released.
Print Assumptions C54_move_keeps_everything_refuted.
Print Assumptions C54_assignment_between_contexts_refuted.
Print Assumptions C54_in_use_after_assignment_refuted.
Print Assumptions C54_copies_after_assignment_refuted.
Print Assumptions C54_clone_signature_refuted.
