(** * C77: pipeline updates *)
From Coq Require Import List Arith NArith Bool Lia.
From Verif Require Import PiUpdModel PiUpdSpec.
Import ListNotations.

Record Rel (s : ust) (h : list uop) : Prop := mkRel {
  r_open : open h = match u_rt s with Some _ => true | None => false end;
  r_rt : forall k, o_set (rt s) k = entry k h;
  r_live : forall k, o_set (u_live s) k = entry k (committed h);
  r_dig : forall k, o_dig (u_live s) k = digest k h;
  r_fresh : forall o k, u_rt s = Some o -> o_dig o k = None;
  r_clone : forall k, u_clone s k = clone k h;
  r_mc : forall k, u_mc s k = group k h }.
Lemma Rel_new : Rel u_new []. Proof. constructor; intros; try reflexivity; discriminate. Qed.
Lemma put_eq (m : settings) j v k : put m j v k = if j =? k then v else m k.
Proof. unfold put. rewrite Nat.eqb_sym. reflexivity. Qed.
Lemma closed_committed h : open h = false -> committed h = h.
Proof. destruct h as [|o h]; [reflexivity|]. cbn [open committed]. destruct o; intros E; try rewrite E; try discriminate; reflexivity. Qed.
Lemma step_ok s h o s' x : Rel s h -> u_step true s o = (s', x) -> x = right h o /\ Rel s' (o :: h).
Proof.
  intros R H. destruct R as [Ro Rr Rl Rd Rf Rc Rm]. destruct s as [lv r cl mc]. cbn [u_live u_rt u_clone u_mc] in *.
  destruct r as [o'|]; unfold rt in Rr; cbn [u_rt u_live] in Rr; destruct o as [| | |[] j v|j|[] j]; cbn [u_step u_rt set_rt rt u_live u_clone u_mc o_set o_dig] in H; injection H as <- <-;
    (split; [cbn [right]; rewrite ?Ro; rewrite <- ?Rr, <- ?Rl, <- ?Rd, <- ?Rc, <- ?Rm; reflexivity|]);
    constructor; cbn [open committed entry digest clone group rt u_rt u_live u_clone u_mc o_set o_dig]; rewrite ?Ro; intros; rewrite ?put_eq; auto;
    try (rewrite ?Rr, ?Rl, ?Rd, ?Rc, ?Rm; reflexivity); try discriminate;
    try (match goal with E : Some _ = Some _ |- _ => injection E as <- end; cbn [o_dig]; auto; fail).
  all: try (destruct (j =? k); auto; fail).
  all: try (rewrite (closed_committed h) in Rl by exact Ro; auto).
Qed.
Lemma run_ok l : forall s h, Rel s h -> snd (u_run true s l) = rights h l.
Proof.
  induction l as [|o l IH]; intros s h R; [reflexivity|]. cbn [u_run rights]. destruct (u_step true s o) as [s1 x] eqn:E. destruct (step_ok _ _ _ _ _ R E) as [-> R1].
  specialize (IH s1 _ R1). destruct (u_run true s1 l) as [s2 xs]. cbn [snd] in *. rewrite IH. reflexivity.
Qed.

(** ** Every history of calls and packets *)
Theorem C77_updates : forall l, snd (u_run true u_new l) = rights [] l.
Proof. intros. apply run_ok. apply Rel_new. Qed.
Print Assumptions C77_updates.

Lemma rights_app l1 : forall h l2, rights h (l1 ++ l2) = rights h l1 ++ rights (rev l1 ++ h) l2.
Proof. induction l1 as [|o l1 IH]; intros h l2; [reflexivity|]. cbn [app rights rev]. rewrite IH, <- app_assoc. reflexivity. Qed.
Lemma then_ok l o : then_ l o = right (rev l) o.
Proof. unfold then_. rewrite C77_updates, rights_app, app_nil_r. cbn [rights]. apply last_last. Qed.

(** ** Until the update ends, packets see nothing of it, whatever is written, read or reset *)
Lemma open_stays r : forall h, Forall no_end r -> open h = true -> open (r ++ h) = true /\ committed (r ++ h) = committed h.
Proof.
  induction r as [|o r IH]; intros h F O; [auto|]. inversion F as [|? ? F1 F2]; subst. destruct (IH h F2 O) as [A B]. cbn [app open committed]. rewrite A, B.
  destruct o; auto. exfalso. apply F1. reflexivity.
Qed.
Theorem C77_staged : forall l more k, Forall no_end more -> then_ l UStart = UOk ->
  then_ (l ++ UStart :: more) (UPkt KEntry k) = then_ l (UPkt KEntry k).
Proof.
  intros l more k F S. rewrite then_ok in *. cbn [right] in S. destruct (open (rev l)) eqn:O; [discriminate|].
  rewrite !then_ok. cbn [right]. rewrite rev_app_distr. cbn [rev]. rewrite <- app_assoc. cbn [app].
  destruct (open_stays (rev more) (UStart :: rev l)) as [_ ->]; [apply Forall_rev; exact F|reflexivity|]. cbn [committed]. rewrite O, (closed_committed (rev l)) by exact O. reflexivity.
Qed.
Print Assumptions C77_staged.

(** ** The end of the update shows packets exactly what the client reads just before it *)
Theorem C77_committed : forall l k, then_ l UEnd = UOk -> then_ (l ++ [UEnd]) (UPkt KEntry k) = then_ l (URead k).
Proof.
  intros l k S. rewrite then_ok in *. rewrite !then_ok. cbn [right] in *. rewrite rev_app_distr. cbn [rev app committed entry]. reflexivity.
Qed.
Print Assumptions C77_committed.
(** ** A new update starts without entries *)
Theorem C77_starts_empty : forall l k, then_ l UStart = UOk -> then_ (l ++ [UStart]) (URead k) = UVal None.
Proof.
  intros l k S. rewrite then_ok in *. cbn [right] in *. rewrite rev_app_distr. cbn [rev app entry]. destruct (open (rev l)); [discriminate|reflexivity].
Qed.
Print Assumptions C77_starts_empty.
(** ** With swapping disabled both calls are refused and change nothing *)
Theorem C77_disabled : forall s o, o = UStart \/ o = UEnd -> u_step false s o = (s, UErr).
Proof. intros s o [-> | ->]; reflexivity. Qed.
Print Assumptions C77_disabled.

(** ** Findings *)
(** The parameters of a digest set between the start and the end of an update go to the old pipeline, and are lost when the update ends. *)
Theorem C77_digest_staged_refuted : ~ (forall l k v, then_ (l ++ [UWrite KDigest k (Some v)]) UEnd = UOk ->
  then_ (l ++ [UWrite KDigest k (Some v); UEnd]) (UPkt KDigest k) = UVal (Some v)).
Proof. intros H. specialize (H [UStart] 0 7%N eq_refl). vm_compute in H. discriminate. Qed.
Print Assumptions C77_digest_staged_refuted.
(** Until the update ends they change what the packets of the old pipeline do. *)
Theorem C77_digest_isolated_refuted : ~ (forall l more k, Forall no_end more -> then_ l UStart = UOk ->
  then_ (l ++ UStart :: more) (UPkt KDigest k) = then_ l (UPkt KDigest k)).
Proof.
  intros H. specialize (H [] [UWrite KDigest 0 (Some 7%N)] 0 ltac:(repeat constructor; discriminate) eq_refl). vm_compute in H. discriminate.
Qed.
Print Assumptions C77_digest_isolated_refuted.
(** Clone sessions and multicast groups are not part of a pipeline: those of the old program are used by the new one. *)
Theorem C77_sessions_and_groups_dropped_refuted : forall d, d = KClone \/ d = KMulticast ->
  ~ (forall l k, then_ l UEnd = UOk -> then_ (l ++ [UEnd]) (UPkt d k) = UVal None).
Proof. intros d [-> | ->] H; [specialize (H [UWrite KClone 5 (Some 9%N); UStart] 5 eq_refl)|specialize (H [UWrite KMulticast 5 (Some 9%N); UStart] 5 eq_refl)]; vm_compute in H; discriminate. Qed.
Print Assumptions C77_sessions_and_groups_dropped_refuted.
(** Resetting the state does not remove the clone sessions. *)
Theorem C77_reset_clones_refuted : ~ (forall l k, then_ (l ++ [UReset]) (UPkt KClone k) = UVal None).
Proof. intros H. specialize (H [UWrite KClone 5 (Some 9%N)] 5). vm_compute in H. discriminate. Qed.
Print Assumptions C77_reset_clones_refuted.
(** While an update is open, resetting the state clears the pipeline being prepared and leaves the entries that packets use. *)
Theorem C77_reset_entries_refuted : ~ (forall l k, then_ (l ++ [UReset]) (UPkt KEntry k) = UVal None).
Proof. intros H. specialize (H [UWrite KEntry 1 (Some 4%N); UStart] 1). vm_compute in H. discriminate. Qed.
Print Assumptions C77_reset_entries_refuted.
(** When no update is open it clears them. *)
Theorem C77_reset : forall l k, then_ l UEnd = UErr -> then_ (l ++ [UReset]) (UPkt KEntry k) = UVal None /\ then_ (l ++ [UReset]) (UPkt KMulticast k) = UVal None.
Proof.
  intros l k S. rewrite then_ok in S. cbn [right] in S. destruct (open (rev l)) eqn:O; [discriminate|]. rewrite !then_ok. cbn [right]. rewrite rev_app_distr. cbn [rev app committed group]. rewrite O. split; reflexivity.
Qed.
Print Assumptions C77_reset.

(** Two entries, an update which replaces one of them, seen by packets before and after its end *)
Example C77_meets : snd (u_run true u_new [UWrite KEntry 1 (Some 4%N); UWrite KEntry 2 (Some 5%N); UStart; UWrite KEntry 1 (Some 6%N); URead 1; URead 2; UPkt KEntry 1; UPkt KEntry 2; UStart; UEnd; UPkt KEntry 1; UPkt KEntry 2; UEnd]) =
  [UOk; UOk; UOk; UOk; UVal (Some 6%N); UVal None; UVal (Some 4%N); UVal (Some 5%N); UErr; UOk; UVal (Some 6%N); UVal None; UErr].
Proof. reflexivity. Qed.
