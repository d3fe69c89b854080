(** Sorted association lists keyed by [nat]: the specialisation of SMap used to model
    std::map / std::unordered_map with integer keys. *)
From Coq Require Import List Arith Bool Lia Sorted.
From Verif Require Import SMap.
Import ListNotations.

Definition nmap (V : Type) := list (nat * V).
Definition nm_ok {V} (m : nmap V) : Prop := smap_ok Nat.ltb m.
Definition nm_find {V} (k : nat) (m : nmap V) : option V := smap_find Nat.ltb k m.
Definition nm_put {V} (k : nat) (v : V) (m : nmap V) : nmap V := smap_put Nat.ltb k v m.
Definition nm_del {V} (k : nat) (m : nmap V) : nmap V := smap_del Nat.ltb k m.

Lemma nlt_irrefl a : Nat.ltb a a = false. Proof. apply Nat.ltb_irrefl. Qed.
Lemma nlt_trans a b c : Nat.ltb a b = true -> Nat.ltb b c = true -> Nat.ltb a c = true.
Proof. rewrite !Nat.ltb_lt. lia. Qed.
Lemma nlt_total a b : Nat.ltb a b = false -> Nat.ltb b a = false -> a = b.
Proof. rewrite !Nat.ltb_ge. lia. Qed.

Section Lemmas.
Context {V : Type}.
Implicit Types m : nmap V.

Lemma nm_put_ok k v m : nm_ok m -> nm_ok (nm_put k v m).
Proof. apply (smap_put_ok Nat.ltb nlt_trans nlt_total). Qed.
Lemma nm_del_ok k m : nm_ok m -> nm_ok (nm_del k m).
Proof. apply (smap_del_ok Nat.ltb). Qed.
Lemma nm_nil_ok : nm_ok (@nil (nat * V)).
Proof. constructor. Qed.

Lemma nm_find_put k v m k' : nm_ok m ->
  nm_find k' (nm_put k v m) = if k =? k' then Some v else nm_find k' m.
Proof.
  intros H. destruct (Nat.eqb_spec k k') as [->|N].
  - apply (smap_find_put_eq Nat.ltb nlt_irrefl).
  - apply (smap_find_put_neq Nat.ltb nlt_irrefl nlt_trans nlt_total); auto.
Qed.
Lemma nm_find_del k m k' : nm_ok m ->
  nm_find k' (nm_del k m) = if k =? k' then None else nm_find k' m.
Proof.
  intros H. destruct (Nat.eqb_spec k k') as [->|N].
  - apply (smap_find_del_eq Nat.ltb nlt_irrefl nlt_trans nlt_total); auto.
  - apply (smap_find_del_neq Nat.ltb nlt_irrefl nlt_trans nlt_total); auto.
Qed.
Lemma nm_In_find k v m : nm_ok m -> (In (k, v) m <-> nm_find k m = Some v).
Proof.
  intros H. split.
  - apply (smap_In_find Nat.ltb nlt_irrefl); auto.
  - apply (smap_find_In Nat.ltb nlt_total).
Qed.
Lemma nm_In_fst k m : nm_ok m -> (In k (map fst m) <-> nm_find k m <> None).
Proof.
  intros H. rewrite in_map_iff. split.
  - intros ([k' v] & <- & I). apply nm_In_find in I; auto. cbn. congruence.
  - intros E. destruct (nm_find k m) as [v|] eqn:F; [|congruence]. exists (k, v). split; auto.
    apply nm_In_find; auto.
Qed.
Lemma nm_put_In k v m i x : nm_ok m ->
  (In (i, x) (nm_put k v m) <-> (i = k /\ x = v) \/ (i <> k /\ In (i, x) m)).
Proof.
  intros H. rewrite !nm_In_find, nm_find_put by (auto using nm_put_ok).
  destruct (Nat.eqb_spec k i) as [->|N]; intuition congruence.
Qed.
Lemma nm_del_In k m i x : nm_ok m -> (In (i, x) (nm_del k m) <-> i <> k /\ In (i, x) m).
Proof.
  intros H. rewrite !nm_In_find, nm_find_del by (auto using nm_del_ok).
  destruct (Nat.eqb_spec k i) as [->|N]; intuition congruence.
Qed.
Lemma nm_keys_sorted m : nm_ok m -> StronglySorted lt (map fst m).
Proof.
  intros H. induction H as [|[k v] t Ht IH F]; cbn; constructor; auto.
  apply Forall_forall. intros x I. apply in_map_iff in I. destruct I as ([k' v'] & <- & I).
  rewrite Forall_forall in F. specialize (F _ I). cbn in F. apply Nat.ltb_lt in F. auto.
Qed.
End Lemmas.

Lemma sorted_lt_NoDup l : StronglySorted lt l -> NoDup l.
Proof.
  induction 1 as [|x l So IH F]; constructor; auto. intros J. rewrite Forall_forall in F.
  specialize (F _ J). lia.
Qed.
Lemma sorted_lt_ext l l' : StronglySorted lt l -> StronglySorted lt l' ->
  (forall x, In x l <-> In x l') -> l = l'.
Proof.
  intros H. revert l'. induction H as [|x l So IH F]; intros l' H' E.
  - destruct l' as [|y l']; auto. exfalso. apply (E y). left; auto.
  - destruct H' as [|y l' So' F']. { exfalso. apply (E x). left; auto. }
    rewrite Forall_forall in F, F'.
    assert (x = y).
    { destruct (proj1 (E x) (or_introl eq_refl)) as [|I]; auto.
      destruct (proj2 (E y) (or_introl eq_refl)) as [|J]; auto.
      specialize (F _ J). specialize (F' _ I). lia. }
    subst y. f_equal. apply IH; auto. intros z. split; intros I.
    + destruct (proj1 (E z) (or_intror I)) as [<-|]; auto. specialize (F _ I). lia.
    + destruct (proj2 (E z) (or_intror I)) as [<-|]; auto. specialize (F' _ I). lia.
Qed.
