(** Sorted vectors searched with std::lower_bound, as association lists.
    [smap_*] scan linearly; on a sorted vector this finds the same position as the binary
    search of std::lower_bound.  Sortedness is proved as an invariant wherever used. *)
From Coq Require Import List Bool Sorted.
Import ListNotations.

Section SMap.
Context {K V : Type} (ltb : K -> K -> bool).

(** lower_bound + equality check (equality: neither is less) *)
Fixpoint smap_find (k : K) (l : list (K * V)) : option V :=
  match l with
  | [] => None
  | (k', v) :: t => if ltb k' k then smap_find k t else if ltb k k' then None else Some v
  end.

(** lower_bound + insert, or overwrite when the key is present *)
Fixpoint smap_put (k : K) (v : V) (l : list (K * V)) : list (K * V) :=
  match l with
  | [] => [(k, v)]
  | (k', v') :: t => if ltb k' k then (k', v') :: smap_put k v t
                     else if ltb k k' then (k, v) :: l else (k', v) :: t
  end.

(** lower_bound + erase when the key is present *)
Fixpoint smap_del (k : K) (l : list (K * V)) : list (K * V) :=
  match l with
  | [] => []
  | (k', v') :: t => if ltb k' k then (k', v') :: smap_del k t
                     else if ltb k k' then l else t
  end.

Definition smap_ok (l : list (K * V)) : Prop :=
  StronglySorted (fun a b => ltb (fst a) (fst b) = true) l.

Hypothesis lt_irrefl : forall a, ltb a a = false.
Hypothesis lt_trans : forall a b c, ltb a b = true -> ltb b c = true -> ltb a c = true.
Hypothesis lt_total : forall a b, ltb a b = false -> ltb b a = false -> a = b.

Lemma smap_find_lt k l : Forall (fun e => ltb k (fst e) = true) l -> smap_find k l = None.
Proof.
  destruct l as [|[k' v] t]; simpl; auto. intros H. inversion H; subst; simpl in *.
  rewrite H2. destruct (ltb k' k) eqn:E; auto.
  pose proof (lt_trans _ _ _ H2 E) as X. rewrite lt_irrefl in X. discriminate.
Qed.

Lemma put_Forall (P : K * V -> Prop) k v l : P (k, v) -> Forall P l -> Forall P (smap_put k v l).
Proof.
  intros Hk H. induction H as [|[k' v'] t Hx Ht IH]; simpl; auto.
  destruct (ltb k' k) eqn:E1; auto. destruct (ltb k k') eqn:E2; auto.
  rewrite <- (lt_total _ _ E2 E1). auto.
Qed.

Lemma del_Forall (P : K * V -> Prop) k l : Forall P l -> Forall P (smap_del k l).
Proof.
  intros H. induction H as [|[k' v'] t Hx Ht IH]; simpl; auto.
  destruct (ltb k' k); auto. destruct (ltb k k'); auto.
Qed.

Lemma smap_put_ok k v l : smap_ok l -> smap_ok (smap_put k v l).
Proof.
  unfold smap_ok. induction 1 as [|[k' v'] t Ht IH Hx]; simpl.
  - repeat constructor.
  - destruct (ltb k' k) eqn:E1.
    + constructor; auto. apply put_Forall; auto.
    + destruct (ltb k k') eqn:E2.
      * constructor; [constructor; auto|]. constructor; auto.
        eapply Forall_impl; [|exact Hx]. simpl. intros a Ha. eapply lt_trans; eauto.
      * constructor; auto.
Qed.

Lemma smap_del_ok k l : smap_ok l -> smap_ok (smap_del k l).
Proof.
  unfold smap_ok. induction 1 as [|[k' v'] t Ht IH Hx]; simpl.
  - constructor.
  - destruct (ltb k' k) eqn:E1.
    + constructor; auto. apply del_Forall; auto.
    + destruct (ltb k k') eqn:E2; auto. constructor; auto.
Qed.

Lemma smap_find_put_eq k v l : smap_find k (smap_put k v l) = Some v.
Proof.
  induction l as [|[k' v'] t IH]; simpl.
  - rewrite lt_irrefl; auto.
  - destruct (ltb k' k) eqn:E1; simpl.
    + rewrite E1; auto.
    + destruct (ltb k k') eqn:E2; simpl; rewrite ?lt_irrefl; auto. rewrite E1, E2; auto.
Qed.

Lemma smap_find_put_neq k k' v l : smap_ok l -> k <> k' ->
  smap_find k' (smap_put k v l) = smap_find k' l.
Proof.
  intros S N. induction S as [|[k0 v0] t Ht IH Hx]; simpl.
  - destruct (ltb k k') eqn:E1; auto. destruct (ltb k' k) eqn:E2; auto.
    exfalso; apply N, lt_total; auto.
  - destruct (ltb k0 k) eqn:E1; simpl.
    + rewrite IH; auto.
    + destruct (ltb k k0) eqn:E2; simpl.
      * destruct (ltb k k') eqn:E3; auto. destruct (ltb k' k) eqn:E4.
        -- assert (E5 : ltb k' k0 = true) by (eapply lt_trans; eauto).
           rewrite E5. destruct (ltb k0 k') eqn:E6; auto.
           pose proof (lt_trans _ _ _ E5 E6) as X. rewrite lt_irrefl in X. discriminate.
        -- exfalso; apply N, lt_total; auto.
      * assert (k0 = k) as -> by (apply lt_total; auto).
        destruct (ltb k k') eqn:E3; auto. destruct (ltb k' k) eqn:E4; auto.
        exfalso; apply N, lt_total; auto.
Qed.

Lemma smap_find_del_eq k l : smap_ok l -> smap_find k (smap_del k l) = None.
Proof.
  intros S. induction S as [|[k0 v0] t Ht IH Hx]; simpl; auto.
  destruct (ltb k0 k) eqn:E1; simpl.
  - rewrite E1; auto.
  - destruct (ltb k k0) eqn:E2; simpl; rewrite ?E1, ?E2; auto.
    assert (k0 = k) as -> by (apply lt_total; auto). apply smap_find_lt; auto.
Qed.

Lemma smap_find_del_neq k k' l : smap_ok l -> k <> k' ->
  smap_find k' (smap_del k l) = smap_find k' l.
Proof.
  intros S N. induction S as [|[k0 v0] t Ht IH Hx]; simpl; auto.
  destruct (ltb k0 k) eqn:E1; simpl.
  - rewrite IH; auto.
  - destruct (ltb k k0) eqn:E2; simpl; auto.
    assert (k0 = k) as -> by (apply lt_total; auto).
    destruct (ltb k k') eqn:E3; auto. destruct (ltb k' k) eqn:E4.
    + apply smap_find_lt. eapply Forall_impl; [|exact Hx]. simpl. intros a Ha. eapply lt_trans; eauto.
    + exfalso; apply N, lt_total; auto.
Qed.

Lemma smap_find_In k v l : smap_find k l = Some v -> In (k, v) l.
Proof.
  induction l as [|[k0 v0] t IH]; simpl; [discriminate|].
  destruct (ltb k0 k) eqn:E1; auto. destruct (ltb k k0) eqn:E2; [discriminate|].
  intros H; injection H as ->. left. f_equal. apply lt_total; auto.
Qed.

Lemma smap_In_find k v l : smap_ok l -> In (k, v) l -> smap_find k l = Some v.
Proof.
  intros S. induction S as [|[k0 v0] t Ht IH Hx]; simpl; [tauto|].
  intros [E|E].
  - injection E as -> ->. rewrite lt_irrefl. auto.
  - rewrite Forall_forall in Hx. specialize (Hx _ E). simpl in Hx. rewrite Hx. auto.
Qed.

Lemma smap_put_nonempty k v l : smap_put k v l <> [].
Proof.
  destruct l as [|[k0 v0] t]; simpl; [discriminate|].
  destruct (ltb k0 k); [discriminate|]. destruct (ltb k k0); discriminate.
Qed.
End SMap.
