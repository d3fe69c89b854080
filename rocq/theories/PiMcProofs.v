(** Proofs for C66. *)
From Coq Require Import List Arith NArith Bool Lia.
From Verif Require Import Base NMap HandleMgrModel PreModel PiMcModel PiMcSpec.
Import ListNotations.

Lemma set_char_ok : forall s i, i < length s -> exists s', set_char s i = Some s' /\ length s' = length s /\ forall j, nth j s' false = if j =? i then true else nth j s false.
Proof.
  induction s as [|b s IH]; intros i L; cbn in L; [lia|]. destruct i as [|i]; cbn.
  - eexists. split; [reflexivity|]. split; auto. intros [|j]; auto.
  - destruct (IH i ltac:(lia)) as (s' & -> & L' & N). eexists. split; [reflexivity|]. split; [cbn; lia|]. intros [|j]; cbn; auto.
Qed.
Lemma set_char_none s i : length s <= i -> set_char s i = None.
Proof. revert i. induction s as [|b s IH]; intros i L; auto. destruct i; cbn in *; [lia|]. rewrite IH by lia. auto. Qed.
Lemma resize_length n s : length (resize n s) = n.
Proof. unfold resize. rewrite app_length, firstn_length, repeat_length. lia. Qed.
Lemma nth_firstn (n : nat) (s : list bool) j : nth j (firstn n s) false = if j <? n then nth j s false else false.
Proof.
  revert s j. induction n as [|n IH]; intros s j; [cbn; destruct j; auto|]. destruct s as [|b s]; [cbn [firstn]; destruct (j <? S n); destruct j; auto|]. destruct j; [auto|]. cbn [firstn nth]. rewrite IH. auto.
Qed.
Lemma nth_repeat_false k j : nth j (repeat false k) false = false.
Proof. revert j. induction k; intros [|j]; cbn; auto. Qed.
Lemma resize_nth n s j : nth j (resize n s) false = if j <? n then nth j s false else false.
Proof.
  unfold resize. destruct (Nat.lt_ge_cases j (length (firstn n s))) as [L|L].
  - rewrite app_nth1 by auto. apply nth_firstn.
  - rewrite app_nth2, nth_repeat_false by auto. rewrite firstn_length in L. destruct (Nat.ltb_spec j n); auto. rewrite nth_overflow; auto. lia.
Qed.
Lemma fill_app : forall a b o, fill o (a ++ b) = match fill o a with Some o' => fill o' b | None => None end.
Proof. induction a as [|p a IH]; intros b o; cbn; auto. destruct (set_char _ p); auto. Qed.
Definition top : N := 4294967295.
Lemma unshadowed_snoc ports p q : unshadowed (ports ++ [q]) p <-> p = q \/ unshadowed ports p /\ p <= q.
Proof.
  split.
  - intros (l1 & l2 & E & H). destruct (rev l2) as [|y m] eqn:R; assert (L : l2 = rev (rev l2)) by (rewrite rev_involutive; auto); rewrite R in L; cbn in L; subst l2.
    + apply app_inj_tail in E as [_ ->]. auto.
    + right. change (l1 ++ p :: rev m ++ [y]) with (l1 ++ (p :: rev m) ++ [y]) in E. rewrite app_assoc in E. apply app_inj_tail in E as [E ->]. split; [exists l1, (rev m); split; auto; intros x IN; apply H; apply in_or_app; auto|]. apply H. apply in_or_app. right. left. auto.
  - intros [->|[(l1 & l2 & -> & H) LE]]; [exists ports, []; split; auto; intros x []|]. exists l1, (l2 ++ [q]). rewrite <- app_assoc. split; auto. intros x IN. apply in_app_or in IN as [IN|[<-|[]]]; auto.
Qed.
Lemma fill_ok : forall ports, (forall p, In p ports -> N.of_nat p <> top) ->
  exists o, fill [] ports = Some o /\ (ports <> [] -> length o = S (last ports 0)) /\ (ports = [] -> o = []) /\ forall p, nth p o false = true <-> unshadowed ports p.
Proof.
  induction ports as [|q ports IH] using rev_ind; intros T.
  - exists []. cbn. split; auto. split; [congruence|]. split; auto. intros p. split; [destruct p; discriminate|]. intros (l1 & l2 & E & _). destruct l1; discriminate.
  - destruct IH as (o & F & L & Z & N); [intros p IN; apply T; apply in_or_app; auto|]. assert (TQ : N.of_nat q <> top) by (apply T; apply in_or_app; right; left; auto).
    assert (I32 : inc32 q = S q) by (unfold inc32, top in *; apply N.eqb_neq in TQ; rewrite TQ; auto).
    destruct (set_char_ok (resize (S q) o) q) as (o' & S' & L' & N'); [rewrite resize_length; lia|]. exists o'. rewrite fill_app, F. cbn. rewrite I32, S'. rewrite resize_length in L'. split; auto. split; [rewrite last_last; auto|]. split; [destruct ports; discriminate|].
    intros p. rewrite N', resize_nth, unshadowed_snoc, <- N. destruct (Nat.eqb_spec p q); [tauto|]. destruct (Nat.ltb_spec p (S q)); [|split; [discriminate|lia]]. split; [|tauto]. intros X. right. split; auto. lia.
Qed.
Lemma fill_top : forall ports o, (exists p, In p ports /\ N.of_nat p = top) -> fill o ports = None.
Proof.
  induction ports as [|q ports IH]; intros o (p & IN & T); [destruct IN|]. cbn. destruct IN as [->|IN].
  - unfold inc32. unfold top in T. rewrite T. cbn [N.eqb Pos.eqb]. rewrite set_char_none; auto. rewrite resize_length. lia.
  - destruct (set_char _ q); eauto.
Qed.

Lemma nth_map_seq (f : nat -> bool) n i : nth i (map f (seq 0 n)) false = if i <? n then f i else false.
Proof.
  destruct (Nat.ltb_spec i n).
  - rewrite nth_indep with (d' := f 0) by (rewrite map_length, seq_length; auto). rewrite map_nth, seq_nth by auto. auto.
  - apply nth_overflow. rewrite map_length, seq_length. auto.
Qed.
Lemma bitset_nth size s i : i < size -> nth i (bitset_of size (rev s)) false = nth (i + (length s - size)) s false.
Proof.
  intros L. unfold bitset_of. rewrite nth_map_seq. destruct (Nat.ltb_spec i size); [|lia]. rewrite rev_length. destruct (Nat.ltb_spec i (Nat.min size (length s))) as [M|M].
  - rewrite rev_nth by lia. f_equal. lia.
  - rewrite nth_overflow; auto. lia.
Qed.
Lemma bitset_length size s : length (bitset_of size s) = size.
Proof. unfold bitset_of. rewrite map_length, seq_length. auto. Qed.

Lemma convert_ok ports : (forall p, In p ports -> N.of_nat p <> top) ->
  exists m, convert_map ports = Some m /\ length m = 512 /\ forall i, i < 512 -> (nth i m false = true <-> unshadowed ports (i + (last ports 0 + 1 - 512))).
Proof.
  intros T. destruct (fill_ok ports T) as (o & F & L & Z & N). unfold convert_map. rewrite F. eexists. split; [reflexivity|]. split; [apply bitset_length|]. intros i LI. unfold port_map_size. rewrite bitset_nth by auto. rewrite <- N.
  destruct ports as [|q r]; [rewrite Z by auto; cbn [length last]; cbn; destruct i; tauto|]. rewrite L by discriminate. replace (S (last (q :: r) 0)) with (last (q :: r) 0 + 1) by lia. reflexivity.
Qed.
Lemma last_in (l : list nat) : l <> [] -> In (last l 0) l.
Proof. induction l as [|a l IH]; [congruence|]. intros _. destruct l; [left; auto|]. right. apply IH. discriminate. Qed.
Lemma unshadowed_in ports p : unshadowed ports p -> In p ports.
Proof. intros (l1 & l2 & -> & _). apply in_or_app. right. left. auto. Qed.
Lemma convert_small ports : supported ports -> exists m, convert_map ports = Some m /\ length m = 512 /\ forall i, nth i m false = true <-> unshadowed ports i.
Proof.
  intros SU. assert (T : forall p, In p ports -> N.of_nat p <> top) by (intros p IN E; apply SU in IN; unfold top in E; lia). destruct (convert_ok ports T) as (m & C & L & N). exists m. split; auto. split; auto. intros i.
  assert (Z : last ports 0 + 1 - 512 = 0) by (destruct ports as [|a r]; [reflexivity|]; assert (H := SU _ (last_in (a :: r) ltac:(discriminate))); lia).
  destruct (Nat.lt_ge_cases i 512) as [LI|LI].
  - rewrite N by auto. rewrite Z, Nat.add_0_r. tauto.
  - rewrite nth_overflow by lia. split; [discriminate|]. intros U. apply unshadowed_in in U. apply SU in U. lia.
Qed.
Lemma ascending_unshadowed ports p : ascending ports -> In p ports -> unshadowed ports p.
Proof.
  induction ports as [|q r IH]; intros A IN; [destruct IN|]. destruct A as [A1 A2]. destruct IN as [->|IN]; [exists [], r; auto|]. destruct (IH A2 IN) as (l1 & l2 & -> & H). exists (q :: l1), l2. auto.
Qed.
