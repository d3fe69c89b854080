(** Proofs about action profiles and indirect tables: counting references. *)
From Coq Require Import List Arith NArith ZArith Bool Lia Sorted.
From Verif Require Import Base Bits HandleMgrModel HandleMgrSpec HandleMgrProofs EntryListModel
  MatchUnitModel MatchUnitSpec MatchUnitProofs MatchUnitConseq TableModel TableSpec ProfileModel
  ProfileSpec.
Import ListNotations.

Definition idx_eqb (x y : idx) : bool :=
  match x, y with Mbr a, Mbr b | Grp a, Grp b => a =? b | _, _ => false end.
Lemma idx_eqb_eq x y : idx_eqb x y = true <-> x = y.
Proof. destruct x, y; cbn; rewrite ?Nat.eqb_eq; split; intros H; congruence. Qed.
Lemma idx_eqb_refl x : idx_eqb x x = true. Proof. apply idx_eqb_eq. auto. Qed.

(** ** Sets as sorted lists *)
Lemma set_mem_In x l : set_mem x l = true <-> In x l.
Proof.
  induction l as [|y l IH]; cbn; [split; [discriminate|tauto]|].
  rewrite orb_true_iff, Nat.eqb_eq, IH. intuition.
Qed.
Lemma set_ins_In x l y : In y (set_ins x l) <-> y = x \/ In y l.
Proof.
  assert (E : x = y <-> y = x) by (split; auto).
  induction l as [|z l IH]; cbn [set_ins In]; [rewrite E; tauto|]. destruct (x <? z); cbn [set_ins In]; [rewrite E; tauto|]. rewrite IH. tauto.
Qed.
Lemma set_ins_sorted x l : StronglySorted lt l -> ~ In x l -> StronglySorted lt (set_ins x l).
Proof.
  induction l as [|z l IH]; cbn [set_ins set_del]; intros S N; [constructor; auto|].
  inversion S as [|? ? S1 F]; subst. destruct (Nat.ltb_spec x z).
  - constructor; auto. constructor; auto. eapply Forall_impl; [|exact F]. cbn; intros; lia.
  - constructor; [apply IH; intuition|]. apply Forall_forall. intros y Hy. apply set_ins_In in Hy as [->|Hy].
    + assert (x <> z) by (intros ->; apply N; left; auto). lia.
    + eapply Forall_forall in F; eauto.
Qed.
Lemma set_del_In x l y : StronglySorted lt l -> In y (set_del x l) <-> y <> x /\ In y l.
Proof.
  induction l as [|z l IH]; cbn [set_del]; intros S; [cbn; tauto|]. inversion S as [|? ? S1 F]; subst.
  destruct (Nat.eqb_spec x z) as [->|N].
  - split.
    + intros H. split; [|right; auto]. eapply (proj1 (Forall_forall _ _) F) in H. lia.
    + intros [A [B|B]]; [congruence|auto].
  - cbn [In]. rewrite IH by auto. split; [intros [->|[A B]]; split; auto|intros [A [B|B]]; auto].
Qed.
Lemma set_del_sorted x l : StronglySorted lt l -> StronglySorted lt (set_del x l).
Proof.
  induction l as [|z l IH]; cbn [set_del]; intros S; auto. inversion S as [|? ? S1 F]; subst.
  destruct (x =? z); auto. constructor; auto. apply Forall_forall. intros y Hy. apply set_del_In in Hy; auto.
  apply (proj1 (Forall_forall _ _) F). apply Hy.
Qed.

(** ** Vectors *)
Lemma replace_list_set {A} (l : list A) : forall j x, replace l j x = list_set l j x.
Proof. induction l as [|a l IH]; intros [|j] x; cbn; auto. Qed.
Lemma vec_put_ok {A} (l : list A) i x : i <= length l -> exists l', vec_put l i x = Some l' /\
  nth_error l' i = Some x /\ (forall j, j <> i -> j < length l -> nth_error l' j = nth_error l j) /\
  length l' = Nat.max (length l) (S i).
Proof.
  intros H. unfold vec_put. destruct (Nat.eqb_spec i (length l)) as [->|N].
  - eexists; split; [reflexivity|]. rewrite nth_error_app2 by lia. rewrite Nat.sub_diag. split; [reflexivity|]. split.
    + intros j _ L. apply nth_error_app1. auto.
    + rewrite app_length. cbn. lia.
  - destruct (Nat.ltb_spec i (length l)); [|lia]. eexists; split; [reflexivity|].
    split; [apply nth_error_list_set_eq; auto|]. split.
    + intros j Hj _. apply nth_error_list_set_neq. auto.
    + rewrite list_set_length. lia.
Qed.

(** ** Counting *)
Definition b2n (b : bool) : nat := if b then 1 else 0.
Definition cnt (f : nat -> bool) (n : nat) : nat := length (filter f (seq 0 n)).

Lemma cnt_S f n : cnt f (S n) = cnt f n + b2n (f n).
Proof.
  unfold cnt. rewrite seq_S, filter_app, app_length. cbn. destruct (f n); reflexivity.
Qed.
Lemma cnt_ext f g n : (forall i, i < n -> f i = g i) -> cnt f n = cnt g n.
Proof. induction n; intros H; auto. rewrite !cnt_S, IHn by auto. rewrite H by lia. auto. Qed.
Lemma cnt_upd f g n i : i < n -> (forall j, j <> i -> f j = g j) ->
  cnt g n + b2n (f i) = cnt f n + b2n (g i).
Proof.
  intros Hi H. induction n; [lia|]. rewrite !cnt_S. destruct (Nat.eq_dec i n) as [->|N].
  - rewrite (cnt_ext f g n); [lia|]. intros j Hj. apply H. lia.
  - specialize (IHn ltac:(lia)). rewrite (H n) by auto. lia.
Qed.
Lemma cnt_le f n : cnt f n <= n.
Proof. induction n; auto. rewrite cnt_S. destruct (f n); cbn; lia. Qed.
Lemma cnt_pos f n : 0 < cnt f n <-> exists i, i < n /\ f i = true.
Proof.
  induction n; [cbn; split; [lia|intros (i & H & _); lia]|]. rewrite cnt_S. split.
  - intros H. destruct (f n) eqn:E; [exists n; auto|]. cbn in H. destruct (proj1 IHn ltac:(lia)) as (i & A & B). exists i; auto.
  - intros (i & A & B). destruct (Nat.eq_dec i n) as [->|]; [rewrite B; cbn; lia|].
    assert (0 < cnt f n) by (apply IHn; exists i; split; auto; lia). lia.
Qed.

(** ** References from tables and groups *)
Definition slot_is (t : stab idx) (x : idx) (i : nat) : bool :=
  match slot_of t i with Some e => idx_eqb (s_val e) x | None => false end.
Definition def_is (d : option idx) (x : idx) : bool :=
  match d with Some y => idx_eqb y x | None => false end.
Definition tref1 (c : itcfg) (sd : stab idx * option idx) (x : idx) : nat :=
  cnt (slot_is (fst sd) x) (ic_size c) + b2n (def_is (snd sd) x).
Fixpoint trefs (cs : list itcfg) (ts : list (stab idx * option idx)) (x : idx) : nat :=
  match cs, ts with c :: cr, t :: tr => tref1 c t x + trefs cr tr x | _, _ => 0 end.
Definition grefs (ng : nat) (gs : nat -> option (list nat)) (x : idx) : nat :=
  match x with
  | Mbr m => cnt (fun g => match gs g with Some l => set_mem m l | None => false end) ng
  | Grp _ => 0
  end.

Lemma trefs_upd cs : forall ts j c sd sd' x, nth_error cs j = Some c -> nth_error ts j = Some sd ->
  trefs cs (list_set ts j sd') x + tref1 c sd x = trefs cs ts x + tref1 c sd' x.
Proof.
  induction cs as [|c0 cs IH]; intros [|t0 ts] [|j] c sd sd' x E F; cbn in *; try discriminate.
  - injection E as ->. injection F as ->. lia.
  - specialize (IH ts j c sd sd' x E F). lia.
Qed.
Lemma trefs_bound cs : forall ts x, trefs cs ts x <= list_sum (map (fun c => S (ic_size c)) cs).
Proof.
  induction cs as [|c cs IH]; intros [|t ts] x; cbn; auto; try lia.
  specialize (IH ts x). unfold tref1. pose proof (cnt_le (slot_is (fst t) x) (ic_size c)).
  change (fold_right Nat.add 0 (map (fun c0 : itcfg => S (ic_size c0)) cs)) with (list_sum (map (fun c0 : itcfg => S (ic_size c0)) cs)).
  destruct (def_is (snd t) x); cbn [b2n]; lia.
Qed.
Lemma trefs_pos cs : forall ts x, length ts = length cs ->
  (0 < trefs cs ts x <-> exists j c t d, nth_error cs j = Some c /\ nth_error ts j = Some (t, d) /\
      ((exists i e, i < ic_size c /\ slot_of t i = Some e /\ s_val e = x) \/ d = Some x)).
Proof.
  induction cs as [|c cs IH]; intros [|[t d] ts] x L; cbn in L; try lia; cbn [trefs].
  - split; [lia|]. intros (j & c & t & d & E & _). destruct j; discriminate.
  - assert (T1 : 0 < tref1 c (t, d) x <-> (exists i e, i < ic_size c /\ slot_of t i = Some e /\ s_val e = x) \/ d = Some x).
    { unfold tref1; cbn [fst snd]. split.
      - intros H. destruct (def_is d x) eqn:D.
        + right. unfold def_is in D. destruct d; [|discriminate]. apply idx_eqb_eq in D. congruence.
        + cbn in H. left. destruct (proj1 (cnt_pos (slot_is t x) (ic_size c)) ltac:(lia)) as (i & A & B).
          unfold slot_is in B. destruct (slot_of t i) as [e|] eqn:E; [|discriminate]. apply idx_eqb_eq in B. eauto.
      - intros [(i & e & A & B & C)| ->].
        + assert (0 < cnt (slot_is t x) (ic_size c)); [|lia]. apply cnt_pos. exists i. split; auto. unfold slot_is.
          rewrite B, C. apply idx_eqb_refl.
        + cbn. rewrite idx_eqb_refl. cbn. lia. }
    split.
    + intros H. destruct (Nat.eq_dec (tref1 c (t, d) x) 0) as [Z|Z].
      * destruct (proj1 (IH ts x ltac:(lia)) ltac:(lia)) as (j & c' & t' & d' & A & B & C).
        exists (S j), c', t', d'. auto.
      * exists 0, c, t, d. cbn. split; [auto|]. split; [auto|]. apply T1. lia.
    + intros (j & c' & t' & d' & A & B & C). destruct j as [|j]; cbn in A, B.
      * injection A as <-. injection B as <- <-. apply T1 in C. lia.
      * assert (0 < trefs cs ts x); [|lia]. apply IH; [lia|]. exists j, c', t', d'. auto.
Qed.

Lemma tref1_set c t d i o x g tt : i < ic_size c ->
  tref1 c (mkTab (set_slot (slot_of t) i o) g tt, d) x + b2n (slot_is t x i) =
  tref1 c (t, d) x + b2n (match o with Some e => idx_eqb (s_val e) x | None => false end).
Proof.
  intros Hi. unfold tref1; cbn [fst snd].
  pose proof (cnt_upd (slot_is t x) (slot_is (mkTab (set_slot (slot_of t) i o) g tt) x) (ic_size c) i Hi) as H.
  assert (E : slot_is (mkTab (set_slot (slot_of t) i o) g tt) x i =
              match o with Some e => idx_eqb (s_val e) x | None => false end).
  { unfold slot_is; cbn [slot_of]. unfold set_slot. rewrite Nat.eqb_refl. reflexivity. }
  rewrite E in H. rewrite <- Nat.add_assoc, (Nat.add_comm (b2n (def_is d x))), Nat.add_assoc, H; [lia|].
  intros j N. unfold slot_is; cbn [slot_of]. unfold set_slot. destruct (Nat.eqb_spec j i); congruence.
Qed.
Lemma tref1_slots c t t' d x : (forall i, slot_is t x i = slot_is t' x i) -> tref1 c (t, d) x = tref1 c (t', d) x.
Proof. intros H. unfold tref1; cbn [fst snd]. f_equal. apply cnt_ext. auto. Qed.
